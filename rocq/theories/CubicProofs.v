From Coq Require Import Reals Lra.
From mathcomp Require Import all_ssreflect all_algebra.
From mathcomp.algebra_tactics Require Import ring.
From Verif Require Import RStruct MxC CxR RealLemmas Cubic.
Import Order.TTheory GRing.Theory Num.Theory.
Set Implicit Arguments.
Unset Strict Implicit.
Unset Printing Implicit Defensive.
Local Open Scope ring_scope.

(** ** Polar form *)
Lemma polarM r t s u : polar r t * polar s u = polar (r * s)%coqR (t + u)%coqR.
Proof.
rewrite /polar mkCM cos_plus sin_plus -!(RmulE, RaddE, RsubE, RoppE).
by congr mkC; Rring.
Qed.
Lemma polar_cabs r t : (0 <= r)%coqR -> cabs (polar r t) = r.
Proof.
move=> r0; apply: (Rsqr_inj _ _ (cabs_ge0 _) r0).
have := cabs_mkC (r * cos t)%coqR (r * sin t)%coqR.
rewrite -!RpowE -/(polar r t) -RaddE !Rsqr_pow2 => ->.
by have := sin2_cos2 t; rewrite /Rsqr; nra.
Qed.
Lemma cabs_sq_re_im z : (cabs z ^ 2 = re z ^ 2 + im z ^ 2)%coqR.
Proof. by rewrite {1}[z]mkCE RpowE cabs_mkC -!RpowE. Qed.
Lemma polar_angle z : z = polar (cabs z) (angle z).
Proof.
rewrite /angle; case: eqP => [->|/eqP z0].
  by rewrite /polar cabs0 -R0E !Rmult_0_l -c_mkC c0.
have a0 := cabs_gt0 z0; have e := cabs_sq_re_im z.
set a := cabs z in a0 e *.
have b : (-1 <= re z / a <= 1)%coqR.
  split; apply: (Rmult_le_reg_r a) => //; rewrite /Rdiv Rmult_assoc Rinv_l; try lra; nra.
have s : (R_sqrt.sqrt (1 - (re z / a)²) = Rabs (im z) / a)%coqR.
  have -> : (1 - (re z / a)² = (Rabs (im z) / a)²)%coqR.
    rewrite !Rsqr_div; try lra; rewrite -Rsqr_abs !Rsqr_pow2.
    have -> : (im z ^ 2 = a ^ 2 - re z ^ 2)%coqR by lra.
    by Rfield; lra.
  by apply: sqrt_Rsqr; apply: Rmult_le_pos (Rabs_pos _) (Rlt_le _ _ (Rinv_0_lt_compat _ a0)).
have xa (x : R) : (a * (x / a) = x)%coqR by Rfield; lra.
rewrite {1}[z]mkCE /polar; case: (Rle_dec 0 (im z)) => h.
  by rewrite cos_acos // sin_acos // s Rabs_pos_eq // !xa.
rewrite cos_neg sin_neg cos_acos // sin_acos // s Rabs_left; last lra.
by rewrite Ropp_mult_distr_r_reverse !xa Ropp_involutive.
Qed.
Lemma cbrtR_pos x : (0 < x)%coqR -> (0 < cbrtR x)%coqR.
Proof. by move=> x0; rewrite /cbrtR; case: (Rlt_dec 0 x) => [?|//]; apply: exp_pos. Qed.
Lemma cbrtR0 : cbrtR 0%coqR = 0%coqR.
Proof.
rewrite /cbrtR; case: (Rlt_dec 0 0) => [h|//]; by have := Rlt_irrefl _ h.
Qed.
Lemma cbrtR_ge0 x : (0 <= x)%coqR -> (0 <= cbrtR x)%coqR.
Proof.
case=> [/cbrtR_pos|<-]; first lra.
by rewrite cbrtR0; lra.
Qed.
Lemma Rpower_13 x : (0 < x)%coqR -> (Rpower x (1 / 3) ^ 3 = x)%coqR.
Proof.
move=> x0; rewrite -Rpower_pow; last by rewrite /Rpower; apply: exp_pos.
rewrite Rpower_mult.
have -> : (1 / 3 * INR 3 = 1)%coqR by rewrite /=; lra.
exact: Rpower_1.
Qed.
Lemma cbrtR_cube x : (cbrtR x ^ 3 = x)%coqR.
Proof.
rewrite /cbrtR; case: (Rlt_dec 0 x) => [h|h]; first exact: Rpower_13.
case: (Rlt_dec x 0) => [g|g]; rewrite [is_left _]/=.
  have := Rpower_13 (_ : (0 < - x)%coqR); set y := Rpower _ _ => e.
  have : (y ^ 3 = - x)%coqR by apply: e; lra.
  move=> e'; have -> : ((- y) ^ 3 = - y ^ 3)%coqR by Rring.
  by rewrite e'; lra.
by rewrite /=; lra.
Qed.
Lemma cube_inj (x y : R) : (x ^ 3 = y ^ 3 -> x = y)%coqR.
Proof.
move=> e; have f : ((x - y) * (x ^ 2 + x * y + y ^ 2) = 0)%coqR by nra.
case: (Rmult_integral _ _ f) => h; first lra.
have sq : (x ^ 2 + x * y + y ^ 2 = (x + y / 2) ^ 2 + 3 / 4 * y ^ 2)%coqR by Rfield.
have y0 : y = 0%coqR by have := pow2_ge_0 (x + y / 2); nra.
have x0 : x = 0%coqR by subst y; nra.
by rewrite x0 y0.
Qed.
Lemma cbrtC_cube z : cbrtC z ^+ 3 = z.
Proof.
rewrite {2}[z]polar_angle /cbrtC !exprS expr0 mulr1 !polarM; congr polar.
  rewrite -{4}(cbrtR_cube (cabs z)); by Rring.
by Rfield.
Qed.
Lemma csqrt_sq z : csqrt z ^+ 2 = z.
Proof.
rewrite {2}[z]polar_angle /csqrt expr2 polarM; congr polar.
  by rewrite sqrt_sqrt //; apply: cabs_ge0.
by Rfield.
Qed.
Lemma cabs_cbrtC z : cabs (cbrtC z) = cbrtR (cabs z).
Proof. by rewrite /cbrtC polar_cabs //; apply: cbrtR_ge0; apply: cabs_ge0. Qed.
Lemma angle_pos x : (0 < x)%coqR -> angle (c x) = 0%coqR.
Proof.
move=> x0; rewrite /angle c_eq0; case: eqP => // _.
have -> : im (c x) = 0%coqR by rewrite c_mkC im_mkC.
case: (Rle_dec 0 0) => [?|[]]; last lra.
rewrite rec cabs_c Rabs_pos_eq; last lra.
have -> : (x / x = 1)%coqR by Rfield; lra.
exact: acos_1.
Qed.
Lemma polar0 r : polar r 0%coqR = c r.
Proof. by rewrite /polar cos_0 sin_0 Rmult_1_r Rmult_0_r c_mkC. Qed.
Lemma cbrtC_pos x : (0 < x)%coqR -> cbrtC (c x) = c (cbrtR x).
Proof.
move=> x0; rewrite /cbrtC angle_pos // cabs_c Rabs_pos_eq; last lra.
have -> : (0 / 3 = 0)%coqR by lra.
exact: polar0.
Qed.
Lemma csqrt_pos x : (0 < x)%coqR -> csqrt (c x) = c (R_sqrt.sqrt x).
Proof.
move=> x0; rewrite /csqrt angle_pos // cabs_c Rabs_pos_eq; last lra.
have -> : (0 / 2 = 0)%coqR by lra.
exact: polar0.
Qed.
Lemma cbrtC_eq0 z : (cbrtC z == 0) = (z == 0).
Proof. by rewrite -{2}(cbrtC_cube z) expf_eq0. Qed.

(** ** Cube roots of unity *)
Lemma omega_conjE : omega_conj = omega^*.
Proof. by rewrite mkC_conj; congr mkC; rewrite -RoppE; Rfield. Qed.
Lemma s33 : (R_sqrt.sqrt 3 * R_sqrt.sqrt 3 = 3)%coqR. Proof. by apply: sqrt_sqrt; lra. Qed.
Lemma omegaM : omega * omega_conj = 1.
Proof.
rewrite mkCM -!(RmulE, RaddE, RsubE) -c1 c_mkC; congr mkC; toR; last by Rfield.
have := s33; set s := R_sqrt.sqrt 3 => e; clearbody s.
have -> : (-1 / 2 * (-1 / 2) + - (s / 2 * (- s / 2)) = 1 / 4 + s * s / 4)%coqR by Rfield.
by rewrite e; lra.
Qed.
Lemma omegaD : omega + omega_conj = -1.
Proof.
rewrite mkCD -!(RmulE, RaddE, RsubE) -c1 c_mkC mkCN; congr mkC; toR; [lra|].
by rewrite Ropp_0; Rfield.
Qed.
Lemma cardano_poly (U V w w' X : Cx) : w * w' = 1 -> w + w' = -1 ->
  (X - (U + V)) * (X - (U * w + V * w')) * (X - (U * w' + V * w)) =
  X ^+ 3 - 3%:R * (U * V) * X - (U ^+ 3 + V ^+ 3).
Proof.
move=> h1 h2; have e' : w' = -1 - w.
  have -> : w' = (w + w') - w by ring.
  by rewrite h2.
rewrite e' in h1 *.
have e : w ^+ 2 = -1 - w.
  have -> : w ^+ 2 = - w - w * (-1 - w) by ring.
  by rewrite h1; ring.
have -> : (X - (U + V)) * (X - (U * w + V * (-1 - w))) * (X - (U * (-1 - w) + V * w)) =
  (X - (U + V)) * (X ^+ 2 + X * (U + V) + (U ^+ 2 + V ^+ 2) * (- w - w ^+ 2)
    + U * V * (w ^+ 2 + (1 + w) ^+ 2)) by ring.
have -> : - w - w ^+ 2 = 1 by rewrite e; ring.
have -> : w ^+ 2 + (1 + w) ^+ 2 = -1 by rewrite sqrrD e; ring.
by ring.
Qed.

(** ** Cardano *)
Lemma cardano (P Q s U : Cx) : U ^+ 3 = - Q / 2%:R + s ->
  s ^+ 2 = (Q / 2%:R) ^+ 2 + (P / 3%:R) ^+ 3 -> U != 0 ->
  forall X, let V := - P / (3%:R * U) in
  (X - (U + V)) * (X - (U * omega + V * omega_conj)) * (X - (U * omega_conj + V * omega)) =
  X ^+ 3 + P * X + Q.
Proof.
move=> eU es U0 X V; rewrite (cardano_poly _ _ _ omegaM omegaD).
have n3 : 3%:R != 0 :> Cx by rewrite pnatr_eq0.
have n2 : 2%:R != 0 :> Cx by rewrite pnatr_eq0.
have UV : U * V = - P / 3%:R by rewrite /V; field.
have V3 : V ^+ 3 = - Q / 2%:R - s.
  apply: (mulfI (expf_neq0 3 U0)); rewrite -exprMn UV eU.
  have -> : (- P / 3%:R) ^+ 3 = (Q / 2%:R) ^+ 2 - s ^+ 2 by rewrite es; ring.
  by ring.
by rewrite UV eU V3; field.
Qed.

Lemma find_cubic_roots_spec P Q x1 x2 x3 : find_cubic_roots P Q = (x1, x2, x3) ->
  forall X, (X - x1) * (X - x2) * (X - x3) = X ^+ 3 + P * X + Q.
Proof.
rewrite /find_cubic_roots; set d := _ + _ ^+ 3; set U := cbrtC (_ + _).
case: eqP => [->|/eqP P0] [<- <- <-] X.
  have := @cardano_poly (cbrtC (- Q)) 0 omega omega_conj X omegaM omegaD.
  by rewrite !mul0r !addr0 => ->; rewrite cbrtC_cube; ring.
apply: (@cardano P Q (csqrt d) U).
- exact: cbrtC_cube.
- exact: csqrt_sq.
- rewrite /U cbrtC_eq0; apply/eqP => e; case/eqP: P0.
  have h : (- Q / 2%:R + csqrt d) * (- Q / 2%:R - csqrt d) = - (P / 3%:R) ^+ 3.
    by rewrite mulrC -subr_sqr csqrt_sq /d; ring.
  move: h; rewrite e mul0r => /eqP; rewrite eq_sym oppr_eq0 expf_eq0 /= mulf_eq0 invr_eq0 pnatr_eq0 orbF.
  by move/eqP.
Qed.

Lemma solve_cubic3_spec A B C x1 x2 x3 : solve_cubic3 A B C = (x1, x2, x3) ->
  forall x, (x - x1) * (x - x2) * (x - x3) = x ^+ 3 + A * x ^+ 2 + B * x + C.
Proof.
rewrite /solve_cubic3; set P := _ + B; set Q := _ + C.
case E : (find_cubic_roots P Q) => [[y1 y2] y3] [<- <- <-] x.
have := find_cubic_roots_spec E (x + A / 3%:R).
rewrite !opprB !addrA => e; have {e} e' : (x + A / 3%:R - y1) * (x + A / 3%:R - y2) * (x + A / 3%:R - y3) = x ^+ 3 + A * x ^+ 2 + B * x + C.
  rewrite e /P /Q.
  have n3 : 3%:R != 0 :> Cx by rewrite pnatr_eq0.
  by field; rewrite ?pnatr_eq0.
by rewrite -e'.
Qed.

(** ** Largest real root *)
Definition cubicR (A B C x : R) : R := (x ^ 3 + A * x ^ 2 + B * x + C)%coqR.
Definition largest_root (A B C x : R) : Prop :=
  cubicR A B C x = 0%coqR /\ forall y, cubicR A B C y = 0%coqR -> (y <= x)%coqR.

Definition depP (A B : R) : R := (- (A ^ 2) / 3 + B)%coqR.
Definition depQ (A B C : R) : R := ((2 * A ^ 3) / 27 - (A * B) / 3 + C)%coqR.
Definition disc (P Q : R) : R := ((Q / 2) ^ 2 + (P / 3) ^ 3)%coqR.

Lemma depressed A B C x :
  cubicR A B C x = cubicR 0 (depP A B) (depQ A B C) (x + A / 3)%coqR.
Proof. by rewrite /cubicR /depP /depQ; Rfield. Qed.

Lemma depressed_largest A B C x :
  largest_root 0 (depP A B) (depQ A B C) x -> largest_root A B C (x - A / 3)%coqR.
Proof.
have e : (x - A / 3 + A / 3 = x)%coqR by lra.
case=> h1 h2; split; first by rewrite depressed e.
by move=> y; rewrite depressed => /h2; lra.
Qed.

Lemma cpoly P Q x : c (cubicR 0 P Q x) = c x ^+ 3 + c P * c x + c Q.
Proof. by rewrite /cubicR Rmult_0_l Rplus_0_r !cRD cRM cRX. Qed.

(** the loop-free part of [find_largest_root] on the depressed cubic *)
Definition dep_root (P Q : R) : R :=
  let U := cbrtC (c (- Q / 2)%coqR + csqrt (c (disc P Q))) in
  let is_singular := U == 0 in
  let U := if is_singular then 1 else U in
  let V := - c P / (3%:R * U) in
  let X1 := if is_singular then c (cbrtR (- Q)%coqR) else U + V in
  let X2 := re (U * omega + V * omega_conj) in
  let X3 := re (U * omega_conj + V * omega) in
  let masked := (if Rle_dec 0 P then true else if Rlt_dec 0 (disc P Q) then true else false) in
  if masked then re X1 else Rmax (re X1) (Rmax X2 X3).

Lemma find_largest_rootE A B C :
  find_largest_root A B C = (dep_root (depP A B) (depQ A B C) - A / 3)%coqR.
Proof. by []. Qed.

Lemma c_nat n : c (INR n) = n%:R.
Proof.
elim: n => [|n IH]; first exact: c0.
by rewrite S_INR cRD IH cR1 -[n.+1]addn1 natrD.
Qed.
Lemma cR3 : c (IZR 3) = 3%:R. Proof. by rewrite -c_nat; congr c; rewrite /=; lra. Qed.
Lemma c_disc P Q : c (disc P Q) = (c Q / 2%:R) ^+ 2 + (c P / 3%:R) ^+ 3.
Proof. by rewrite /disc cRD !cRX !cRdiv ?cR2 ?cR3 //; lra. Qed.
Lemma c_mQ2 Q : c (- Q / 2)%coqR = - c Q / 2%:R.
Proof. by rewrite cRdiv ?cRN ?cR2 //; lra. Qed.

Lemma Rmax_either a b : Rmax a b = a \/ Rmax a b = b.
Proof. by rewrite /Rmax; case: (Rle_dec a b) => ?; auto. Qed.

Section Dep.
Variables P Q : R.
Let s := csqrt (c (disc P Q)).
Let w := c (- Q / 2)%coqR + s.
Let U := cbrtC w.

Lemma dep_factor (U0 : U != 0) X : let V := - c P / (3%:R * U) in
  (X - (U + V)) * (X - (U * omega + V * omega_conj)) * (X - (U * omega_conj + V * omega)) =
  X ^+ 3 + c P * X + c Q.
Proof.
apply: (@cardano (c P) (c Q) s U) => //.
  by rewrite cbrtC_cube /w c_mQ2.
by rewrite csqrt_sq c_disc.
Qed.

(** three real roots *)
Lemma disc_neg_conj : (P < 0)%coqR -> (disc P Q <= 0)%coqR -> - c P / (3%:R * U) = U^* /\ U != 0.
Proof.
move=> P0 d0.
have ww : w * w^* = c (- (P / 3) ^ 3)%coqR.
  have sc : s^* = - s.
    have sq := csqrt_sq (c (disc P Q)); rewrite -/s in sq.
    rewrite /s /csqrt; set d := disc P Q in d0 *.
    case: (Req_dec d 0) => [->|dn].
      by rewrite cR0 cabs0 sqrt_0 /polar !Rmult_0_l -c_mkC cR0 conjC0 oppr0.
    have -> : angle (c d) = PI.
      rewrite /angle c_eq0; case: eqP => [//|_].
      have -> : im (c d) = 0%coqR by rewrite c_mkC im_mkC.
      case: (Rle_dec 0 0) => [?|[]]; last lra.
      rewrite [is_left _]/= rec cabs_c Rabs_left; last lra.
      have -> : (d / - d = - (1))%coqR by Rfield; lra.
      by rewrite acos_opp acos_1; lra.
    by rewrite /polar cos_PI2 Rmult_0_r mkC_conj mkCN oppr0.
  rewrite /w rmorphD /= c_conj sc mulrC -subr_sqr csqrt_sq -cX -cB; congr c.
  by rewrite -RpowE -RsubE /disc; Rfield.
have r : (cabs w ^ 2 = (- (P / 3)) ^ 3)%coqR.
  apply: c_inj; rewrite RpowE cabs_sqr ww; congr c; by Rring.
have UU : U * U^* = c (- (P / 3))%coqR.
  rewrite -cabs_sqr /U cabs_cbrtC; congr c; rewrite -RpowE; apply: cube_inj.
  rewrite -r -{2}(cbrtR_cube (cabs w)); by Rring.
have U0 : U != 0.
  apply/eqP => e; move: UU; rewrite e mul0r => /esym/eqP; rewrite c_eq0 => /eqP; toR; lra.
split=> //; apply: (mulfI U0); rewrite UU.
have -> : c (- (P / 3))%coqR = - c P / 3%:R by rewrite cRN cRdiv ?cR3 ?mulNr //; lra.
by field.
Qed.

Lemma add_conj_real z : z + z^* = c (2 * re z)%coqR.
Proof.
rewrite [z]mkCE mkC_conj mkCD re_mkC c_mkC; congr mkC; toR; lra.
Qed.

Lemma dep_root_neg : (P < 0)%coqR -> (disc P Q <= 0)%coqR -> largest_root 0 P Q (dep_root P Q).
Proof.
move=> P0 d0; have [eV U0] := disc_neg_conj P0 d0.
have masked : (if Rle_dec 0 P then true else if Rlt_dec 0 (disc P Q) then true else false) = false.
  by case: (Rle_dec 0 P) => //= ?; [lra|case: (Rlt_dec 0 _) => //= ?; lra].
rewrite /dep_root -/s -/w -/U (negbTE U0) masked eV.
have e2 : U * omega + U^* * omega_conj = c (2 * re (U * omega))%coqR.
  by rewrite -add_conj_real rmorphM omega_conjE.
have e3 : U * omega_conj + U^* * omega = c (2 * re (U * omega_conj))%coqR.
  by rewrite -add_conj_real rmorphM omega_conjE conjCK.
have e1 := add_conj_real U.
have fac x : cubicR 0 P Q x =
  ((x - 2 * re U) * (x - 2 * re (U * omega)%R) * (x - 2 * re (U * omega_conj)%R))%coqR.
  by apply: c_inj; rewrite cpoly -dep_factor // eV e1 e2 e3 -!cRB -!cRM.
rewrite e1 e2 e3 !rec; set x1 := (2 * re U)%coqR in fac *.
set x2 := (2 * re (U * omega)%R)%coqR in fac *; set x3 := (2 * _)%coqR in fac *.
split.
  rewrite fac; case: (Rmax_either x1 (Rmax x2 x3)) => ->; first by Rring.
  by case: (Rmax_either x2 x3) => ->; Rring.
move=> y; rewrite fac => /Rmult_integral[/Rmult_integral[]|] h.
- by have := Rmax_l x1 (Rmax x2 x3); lra.
- by have := Rmax_r x1 (Rmax x2 x3); have := Rmax_l x2 x3; lra.
- by have := Rmax_r x1 (Rmax x2 x3); have := Rmax_r x2 x3; lra.
Qed.

(** one real root *)
Lemma unique_real u v : (u * v = - P / 3)%coqR -> (u ^ 3 + v ^ 3 = - Q)%coqR -> u <> v ->
  largest_root 0 P Q (u + v)%coqR.
Proof.
move=> h1 h2 uv.
have eP : P = (- 3 * (u * v))%coqR by lra.
have eQ : Q = (- (u ^ 3 + v ^ 3))%coqR by lra.
split; first by rewrite /cubicR eP eQ; Rring.
move=> y; rewrite /cubicR eP eQ => h.
have : ((y - (u + v)) * ((y + (u + v) / 2) ^ 2 + 3 / 4 * (u - v) ^ 2) = 0)%coqR.
  by rewrite -h; Rfield.
case/Rmult_integral => k; first lra.
have : (0 < (u - v) ^ 2)%coqR by rewrite -Rsqr_pow2; apply: Rlt_0_sqr; lra.
have := pow2_ge_0 (y + (u + v) / 2); lra.
Qed.

Lemma dep_root_pos : (0 <= P)%coqR \/ (0 < disc P Q)%coqR /\ (Q <= 0)%coqR ->
  largest_root 0 P Q (dep_root P Q).
Proof.
move=> h.
have masked : (if Rle_dec 0 P then true else if Rlt_dec 0 (disc P Q) then true else false) = true.
  by case: (Rle_dec 0 P) => //= ?; case: (Rlt_dec 0 _) => //= ?; case: h => [|[]]; lra.
have d0 : (0 <= disc P Q)%coqR.
  case: h => [p0|[]]; last lra.
  by rewrite /disc; have := pow2_ge_0 (Q / 2); have := pow_le (P / 3) 3; lra.
set r := R_sqrt.sqrt (disc P Q).
have sE : s = c r.
  case: d0 => [d0|d0]; first exact: csqrt_pos.
  by rewrite /s /r -d0 sqrt_0 cR0 /csqrt cabs0 sqrt_0 /polar !Rmult_0_l -c_mkC cR0.
have rr : (r ^ 2 = disc P Q)%coqR by rewrite /r pow2_sqrt.
have r0 : (0 <= r)%coqR by exact: sqrt_pos.
have w0 : (0 <= - Q / 2 + r)%coqR.
  case: h => [p0|[]]; last lra.
  have : ((Q / 2) ^ 2 <= r ^ 2)%coqR by rewrite rr /disc; have := pow_le (P / 3) 3; lra.
  by move=> ?; apply: Rnot_lt_le => ?; nra.
have wE : w = c (- Q / 2 + r)%coqR by rewrite /w sE cRD.
have prod : ((- Q / 2 + r) * (- Q / 2 - r) = - (P / 3) ^ 3)%coqR.
  have -> : ((- Q / 2 + r) * (- Q / 2 - r) = (Q / 2) ^ 2 - r ^ 2)%coqR by Rfield.
  by rewrite rr /disc; lra.
rewrite /dep_root -/s -/w -/U masked /U.
case: w0 => w0; last first.
  (* singular *)
  have -> : cbrtC w = 0 by apply/eqP; rewrite cbrtC_eq0 wE -w0 cR0.
  rewrite eqxx rec.
  have p0 : P = 0%coqR.
    have : ((P / 3) ^ 3 = 0 ^ 3)%coqR by rewrite -w0 in prod; lra.
    by move/cube_inj; lra.
  have q := cbrtR_cube (- Q)%coqR; split; first by rewrite /cubicR q p0; lra.
  move=> y; rewrite /cubicR p0 => hy; right; apply: cube_inj; rewrite q; lra.
set u := cbrtR (- Q / 2 + r)%coqR.
have u0 : (0 < u)%coqR by exact: cbrtR_pos.
have u3 : (u ^ 3 = - Q / 2 + r)%coqR by exact: cbrtR_cube.
have UE : cbrtC w = c u by rewrite wE cbrtC_pos.
have -> : (cbrtC w == 0) = false by rewrite UE c_eq0; apply/negbTE/eqP; toR; lra.
rewrite UE.
have -> : c u + (- c P) / (3%:R * c u) = c (u + - P / (3 * u))%coqR.
  rewrite cRD cRdiv; last lra.
  by rewrite cRN cRM cR3.
rewrite rec; set v := (- P / (3 * u))%coqR.
have uv : (u * v = - P / 3)%coqR by rewrite /v; Rfield; lra.
have v3 : (v ^ 3 = - Q / 2 - r)%coqR.
  apply: (Rmult_eq_reg_l (u ^ 3)); last by apply: pow_nonzero; lra.
  rewrite {2}u3 prod; have -> : (u ^ 3 * v ^ 3 = (u * v) ^ 3)%coqR by Rring.
  by rewrite uv; Rfield.
case: (Req_dec r 0) => rz; last first.
  by apply: unique_real => //; [lra|move=> e; rewrite e in u3; lra].
(* disc = 0: then P >= 0, hence P = Q = 0, impossible with w > 0 *)
exfalso; rewrite rz in rr u3 w0.
case: h => [p0|[]]; last first.
  by move=> dd _; nra.
have := pow_le (P / 3) 3; have : (0 <= P / 3)%coqR by lra.
move=> a /(_ a) b; rewrite /disc in rr; have : ((Q / 2) ^ 2 = 0)%coqR by have := pow2_ge_0 (Q / 2); nra.
by move=> q; nra.
Qed.
End Dep.

Lemma find_largest_root_spec A B C :
  ((depP A B < 0)%coqR -> (0 < disc (depP A B) (depQ A B C))%coqR -> (depQ A B C <= 0)%coqR) ->
  largest_root A B C (find_largest_root A B C).
Proof.
move=> h; rewrite find_largest_rootE; apply: depressed_largest.
case: (Rle_or_lt 0 (depP A B)) => p; first by apply: dep_root_pos; left.
case: (Rle_or_lt (disc (depP A B) (depQ A B C)) 0) => d; first exact: dep_root_neg.
by apply: dep_root_pos; right; split=> //; apply: h.
Qed.

(** the cubic of LQPQM is negative with negative slope at [phi] *)
Lemma slope_ok A B C x : (cubicR A B C x < 0)%coqR -> (3 * x ^ 2 + 2 * A * x + B < 0)%coqR ->
  (depP A B < 0)%coqR -> (0 < disc (depP A B) (depQ A B C))%coqR -> (depQ A B C <= 0)%coqR.
Proof.
rewrite depressed => g g' p0 d0; apply: Rnot_lt_le => q0.
set p := (x + A / 3)%coqR in g.
have g2 : (3 * p ^ 2 + depP A B < 0)%coqR.
  have -> : (3 * p ^ 2 + depP A B = 3 * x ^ 2 + 2 * A * x + B)%coqR by rewrite /p /depP; Rfield.
  exact: g'.
move: (depP A B) (depQ A B C) p0 d0 q0 g g2 => P Q p0 d0 q0 g g2.
set m := R_sqrt.sqrt (- P / 3).
have m0 : (0 <= m)%coqR by exact: sqrt_pos.
have mm : (m ^ 2 = - P / 3)%coqR by rewrite /m pow2_sqrt //; lra.
have eP : P = (- 3 * m ^ 2)%coqR by lra.
rewrite eP in d0 g g2.
have hm : (m ^ 3 < Q / 2)%coqR.
  apply: Rnot_le_lt => h.
  have : ((Q / 2) ^ 2 <= (m ^ 3) ^ 2)%coqR by apply: pow_incr; lra.
  have e6 : ((- 3 * m ^ 2 / 3) ^ 3 = - (m ^ 3) ^ 2)%coqR by Rfield.
  by move: d0; rewrite /disc e6; lra.
have pm : (- m < p)%coqR.
  by apply: Rnot_le_lt => h; nra.
have : (cubicR 0 (- 3 * m ^ 2) Q p = (p - m) ^ 2 * (p + 2 * m) + (Q - 2 * m ^ 3))%coqR.
  by rewrite /cubicR; Rring.
have := pow2_ge_0 (p - m).
set a := ((p - m) ^ 2)%coqR => a0 e.
have : (0 <= a * (p + 2 * m))%coqR by apply: Rmult_le_pos => //; lra.
by move: g; rewrite e; lra.
Qed.

(** ** Sign lemmas for polynomials beyond a point *)
Lemma cubic_cont A B C : continuity (cubicR A B C).
Proof. by rewrite /cubicR => x; reg. Qed.
Lemma cubic_big A B C : exists M, forall x, (M < x)%coqR -> (0 < cubicR A B C x)%coqR.
Proof.
exists (1 + Rabs A + Rabs B + Rabs C)%coqR => x hx; rewrite /cubicR.
have a0 := Rabs_pos A; have b0 := Rabs_pos B; have c0 := Rabs_pos C.
have hA : (- Rabs A <= A)%coqR by have := Rle_abs (- A); rewrite Rabs_Ropp; lra.
have hB : (- Rabs B <= B)%coqR by have := Rle_abs (- B); rewrite Rabs_Ropp; lra.
have hC : (- Rabs C <= C)%coqR by have := Rle_abs (- C); rewrite Rabs_Ropp; lra.
move: (Rabs A) (Rabs B) (Rabs C) a0 b0 c0 hA hB hC hx => a b d a0 b0 d0 hA hB hC hx.
have x1 : (1 < x)%coqR by lra.
have x2 : (x < x ^ 2)%coqR by nra.
have t1 : (- a * x ^ 2 <= A * x ^ 2)%coqR by apply: Rmult_le_compat_r => //; exact: pow2_ge_0.
have t2 : (- b * x ^ 2 <= B * x)%coqR.
  have : (- b * x <= B * x)%coqR by apply: Rmult_le_compat_r; lra.
  have : (b * x <= b * x ^ 2)%coqR by apply: Rmult_le_compat_l; lra.
  lra.
have t3 : (- d * x ^ 2 <= C)%coqR.
  have : (d * 1 <= d * x ^ 2)%coqR by apply: Rmult_le_compat_l; lra.
  lra.
have : (0 < x ^ 2 * (x - a - b - d))%coqR by apply: Rmult_lt_0_compat; lra.
lra.
Qed.
Lemma root_beyond A B C x : (cubicR A B C x < 0)%coqR ->
  exists y, (x < y)%coqR /\ cubicR A B C y = 0%coqR.
Proof.
move=> neg; have [M hM] := cubic_big A B C.
set b := (Rmax M x + 1)%coqR.
have Mb : (M < b)%coqR by rewrite /b; have := Rmax_l M x; lra.
have xb : (x < b)%coqR by rewrite /b; have := Rmax_r M x; lra.
have [y [[h1 h2] h3]] := IVT (cubicR A B C) x b (cubic_cont A B C) xb neg (hM b Mb).
exists y; split=> //; case: h1 => // e; move: neg; rewrite e h3; lra.
Qed.
Lemma largest_beyond A B C r x : largest_root A B C r -> (cubicR A B C x < 0)%coqR -> (x < r)%coqR.
Proof. by case=> _ h /root_beyond[y [xy /h]]; lra. Qed.
Lemma beyond_pos A B C r x : largest_root A B C r -> (r < x)%coqR -> (0 < cubicR A B C x)%coqR.
Proof.
move=> lr rx; case: (Rtotal_order (cubicR A B C x) 0) => [h|[h|//]].
  by have := largest_beyond lr h; lra.
by case: lr => _ /(_ x h); lra.
Qed.

(** the cubic of LQPQM, lqpqm.py:187-189 *)
Lemma lqpqm_cubic phi a z x :
  cubicR (- (phi * a + 2 * phi + z)) ((phi + 2 * z) * phi) (- phi ^ 2 * z) x =
  ((x - phi) ^ 2 * (x - z) - phi * a * x ^ 2)%coqR.
Proof. by rewrite /cubicR; Rring. Qed.
Lemma lqpqm_root phi a z : (0 < phi)%coqR -> (0 < a)%coqR ->
  let r := find_largest_root (- (phi * a + 2 * phi + z)) ((phi + 2 * z) * phi) (- phi ^ 2 * z) in
  largest_root (- (phi * a + 2 * phi + z)) ((phi + 2 * z) * phi) (- phi ^ 2 * z) r
  /\ (phi < r)%coqR /\ ((0 <= z)%coqR -> (z < r)%coqR).
Proof.
move=> p0 a0 r.
have neg : (cubicR (- (phi * a + 2 * phi + z)) ((phi + 2 * z) * phi) (- phi ^ 2 * z) phi < 0)%coqR.
  rewrite lqpqm_cubic Rminus_eq_0; have : (0 < phi * a * phi ^ 2)%coqR.
    by apply: Rmult_lt_0_compat; [exact: Rmult_lt_0_compat|exact: pow_lt].
  lra.
have lr : largest_root (- (phi * a + 2 * phi + z)) ((phi + 2 * z) * phi) (- phi ^ 2 * z) r.
  apply: find_largest_root_spec; apply: (slope_ok neg).
  have -> : (3 * phi ^ 2 + 2 * - (phi * a + 2 * phi + z) * phi + (phi + 2 * z) * phi =
             - (2 * phi ^ 2 * a))%coqR by Rring.
  have : (0 < phi ^ 2 * a)%coqR by apply: Rmult_lt_0_compat => //; exact: pow_lt.
  lra.
have pr := largest_beyond lr neg; split=> //; split=> // z0.
case: z0 => [z0|<-]; last by apply: Rlt_trans pr.
apply: (largest_beyond lr); rewrite lqpqm_cubic Rminus_eq_0 Rmult_0_r.
have : (0 < phi * a * z ^ 2)%coqR.
  by apply: Rmult_lt_0_compat; [exact: Rmult_lt_0_compat|exact: pow_lt].
lra.
Qed.

Lemma angle_neg d : (d < 0)%coqR -> angle (c d) = PI.
Proof.
move=> d0; rewrite /angle c_eq0; case: eqP => [e|_]; first by move: d0; rewrite e; toR; lra.
have -> : im (c d) = 0%coqR by rewrite c_mkC im_mkC.
case: (Rle_dec 0 0) => [?|[]]; last lra.
rewrite [is_left _]/= rec cabs_c Rabs_left; last lra.
have -> : (d / - d = - (1))%coqR by Rfield; lra.
by rewrite acos_opp acos_1; lra.
Qed.

(** outside the LQPQM family: x^3 - 3x + 18 has the only real root -3 *)
Lemma counterexample : (0 <= find_largest_root 0 (- 3) 18)%coqR.
Proof.
rewrite find_largest_rootE.
have -> : depP 0 (-3) = (-3)%coqR by rewrite /depP; lra.
have -> : depQ 0 (-3) 18 = 18%coqR by rewrite /depQ; lra.
have dE : disc (-3) 18 = 80%coqR by rewrite /disc; lra.
rewrite /dep_root dE.
have masked : (if Rle_dec 0 (-3) then true else if Rlt_dec 0 80 then true else false) = true.
  by case: (Rle_dec 0 (-3)) => //= ?; case: (Rlt_dec 0 80) => //= ?; lra.
rewrite masked csqrt_pos; last lra.
set s := R_sqrt.sqrt 80.
have s9 : (s < 9)%coqR.
  have -> : 9%coqR = R_sqrt.sqrt (9 ^ 2) by rewrite sqrt_pow2 //; lra.
  by apply: sqrt_lt_1; lra.
rewrite -cRD; set w := (- 18 / 2 + s)%coqR.
have w0 : (w < 0)%coqR by rewrite /w; lra.
have wn : c w != 0 by apply: c_neq0; lra.
rewrite cbrtC_eq0 (negbTE wn) /cbrtC angle_neg // cabs_c Rabs_left //.
set rho := cbrtR _; have r0 : (0 < rho)%coqR by apply: cbrtR_pos; lra.
set U := polar rho _.
have VE : - c (-3)%coqR / (3%:R * U) = polar (/ rho)%coqR (- (PI / 3))%coqR.
  have U1 : U * polar (/ rho)%coqR (- (PI / 3))%coqR = 1.
    rewrite /U polarM Rinv_r; last lra.
    rewrite Rplus_opp_r /polar cos_0 sin_0 -cR1 c_mkC; congr mkC; rewrite ?Rmult_1_r ?Rmult_0_r //.
  have Un : U != 0 by apply/eqP => e; move: U1; rewrite e mul0r => /eqP; rewrite eq_sym oner_eq0.
  apply: (mulfI Un); rewrite U1 cRN cR3 opprK.
  by field.
rewrite VE reD {1}/U /polar !re_mkC cos_neg cos_PI3; toR.
have : (0 < / rho)%coqR by exact: Rinv_0_lt_compat.
lra.
Qed.
