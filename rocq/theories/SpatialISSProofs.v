From Coq Require Import Reals Lra.
From mathcomp Require Import all_ssreflect all_algebra.
From mathcomp.algebra_tactics Require Import ring.
From Verif Require Import RStruct MxC CxR NpLin RealLemmas SpatialISS.
Import Order.TTheory GRing.Theory Num.Theory.
Set Implicit Arguments.
Unset Strict Implicit.
Unset Printing Implicit Defensive.
Local Open Scope ring_scope.

(** Specification: weighted power [sum_k mean_t phi_kt |y_kt|^2]. *)
Definition wpower1 T (p : 'I_T -> R) (y : 'I_T -> Cx) : R :=
  ((T%:R)^-1 * \sum_t p t * cabs (y t) ^+ 2)%R.
Definition wpower N T (phi : 'M[R]_(N, T)) (Y : 'M[Cx]_(N, T)) : R :=
  (\sum_k wpower1 (phi k) (Y k))%R.
(** auxiliary cost of signals [Y] obtained with the filter [W] *)
Definition iss_cost N T (phi : 'M[R]_(N, T)) (Y : 'M[Cx]_(N, T)) (W : 'M[Cx]_N) : R :=
  (wpower phi Y - 2 * ln (cabs (\det W)))%coqR.

Section Quadratic.
Variable T : nat.
Implicit Types (p : 'I_T -> R) (a b : 'I_T -> Cx).
Definition cross p a b : Cx := meanC (fun t => c (p t) * (a t * (b t)^*)).

Lemma wpower1_cross p a : c (wpower1 p a) = cross p a a.
Proof.
rewrite /wpower1 /cross /meanC cM c_sum; congr (_ * _); apply: eq_bigr => t _.
by rewrite cM cabs_sqr.
Qed.
Lemma wpower1_ge0 p a : (forall t, (0 <= p t)%coqR) -> (0 <= wpower1 p a)%coqR.
Proof.
move=> p0; apply/RleP; rewrite mulr_ge0 ?invr_ge0 ?ler0n //.
by apply: sumr_ge0 => t _; rewrite mulr_ge0 ?sqr_ge0 //; apply/RleP.
Qed.
Lemma cross_conj p a b : (cross p a b)^* = cross p b a.
Proof.
rewrite /cross /meanC rmorphM /= c_conj rmorph_sum; congr (_ * _); apply: eq_bigr => t _.
by rewrite !rmorphM /= c_conj conjCK; congr (_ * _); rewrite mulrC.
Qed.
Lemma wpower1_sub p a b v :
  c (wpower1 p (fun t => a t - v * b t)) =
  c (wpower1 p a) - v^* * cross p a b - v * (cross p a b)^* + v * v^* * c (wpower1 p b).
Proof.
rewrite cross_conj !wpower1_cross /cross /meanC.
have -> (x y z w s : Cx) : s * x - v^* * (s * y) - v * (s * z) + v * v^* * (s * w) =
  s * (x - v^* * y - v * z + v * v^* * w) by ring.
congr (_ * _); rewrite !mulr_sumr -!sumrB -big_split /=; apply: eq_bigr => t _.
rewrite rmorphB rmorphM /=; ring.
Qed.
End Quadratic.

Section Steer.
Variables (N T : nat).
Implicit Types (Y : 'M[Cx]_(N, T)) (phi : 'M[R]_(N, T)) (v : 'I_N -> Cx) (n : 'I_N).

(** Specification of a source steering step with steering vector [v] *)
Definition steer v n Y : 'M[Cx]_(N, T) := \matrix_(k, t) (Y k t - v k * Y n t).
Definition steer_mx v n : 'M[Cx]_N := \matrix_(k, j) ((k == j)%:R - v k * (j == n)%:R).

Lemma steerE v n Y : steer v n Y = steer_mx v n *m Y.
Proof.
apply/matrixP => k t; rewrite !mxE.
under eq_bigr => j _ do rewrite mxE mulrBl.
rewrite sumrB (bigD1 k) //= eqxx mul1r big1 ?addr0; last first.
  by move=> j jk; rewrite eq_sym (negbTE jk) mul0r.
rewrite (bigD1 n) //= eqxx mulr1 big1 ?addr0 //.
by move=> j jn; rewrite (negbTE jn) mulr0 mul0r.
Qed.

Lemma det_steer v n : \det (steer_mx v n) = 1 - v n.
Proof.
have -> : steer_mx v n = (setrow n (\row_k ((k == n)%:R - v k)) 1%:M)^T.
  apply/matrixP => k j; rewrite !mxE; case: (eqVneq j n) => [->|jn].
    by rewrite mulr1.
  by rewrite mulr0 subr0 eq_sym.
by rewrite det_tr det_setrow1 mxE eqxx.
Qed.

Lemma steer_unit v n : 1 - v n != 0 -> steer_mx v n \in unitmx.
Proof. by rewrite unitmxE det_steer unitfE. Qed.

Lemma eq_wpower1 (p : 'I_T -> R) (a b : 'I_T -> Cx) : a =1 b -> wpower1 p a = wpower1 p b.
Proof.
by move=> e; rewrite /wpower1; congr (_ * _); apply: eq_bigr => t _; rewrite e.
Qed.

Lemma wpower_steer phi v n Y :
  wpower phi (steer v n Y) = \sum_k wpower1 (phi k) (fun t => Y k t - v k * Y n t).
Proof. by apply: eq_bigr => k _; apply: eq_wpower1 => t; rewrite mxE. Qed.

(** the quadratic in one component *)
Lemma quad_val (p : 'I_T -> R) (a b : 'I_T -> Cx) (d' : R) :
  (0 < d')%coqR ->
  wpower1 p (fun t => a t - cross p a b / c d' * b t) =
  (wpower1 p a - cabs (cross p a b) ^ 2 * (2 / d' - wpower1 p b / d' ^ 2))%coqR.
Proof.
move=> d0; apply: c_inj; rewrite wpower1_sub.
have nz : d' <> 0%coqR by lra.
set x := cross p a b; set A := wpower1 p a; set B := wpower1 p b.
have nz2 : (d' ^ 2)%coqR <> 0%coqR by apply: pow_nonzero.
clearbody x A B.
rewrite cRB cRM cRB !cRdiv // !cRX cR_cabs_sqr cR2.
rewrite !rmorphM /= fmorphV /= c_conj.
have := c_neq0 nz; move: (c d') (c A) (c B) (x^*) => dd AA BB xx dd0.
by clear -dd0; field.
Qed.

Lemma quad_lower (p : 'I_T -> R) (a b : 'I_T -> Cx) (u : Cx) : (0 < wpower1 p b)%coqR ->
  (wpower1 p (fun t => (a t - cross p a b / c (wpower1 p b) * b t)%R)
   <= wpower1 p (fun t => (a t - u * b t)%R))%coqR.
Proof.
move=> B0; rewrite quad_val //.
set Q := wpower1 p (fun t => a t - u * b t).
have : (wpower1 p b * (Q - (wpower1 p a - cabs (cross p a b) ^ 2 / wpower1 p b)) =
        cabs (c (wpower1 p b) * u - cross p a b)%R ^ 2)%coqR.
  apply: c_inj; rewrite [RHS]cRX cR_cabs_sqr cRM cRB wpower1_sub.
  have nz : wpower1 p b <> 0%coqR by lra.
  move: (wpower1 p a) (wpower1 p b) (cross p a b) nz => A B x nz.
  rewrite cRB cRdiv // cRX cR_cabs_sqr rmorphB rmorphM /= c_conj.
  have := c_neq0 nz; move: (c A) (c B) => AA BB BB0.
  by clear -BB0; field.
have := pow2_ge_0 (cabs (c (wpower1 p b) * u - cross p a b)%R).
move: (wpower1 p a) (wpower1 p b) (cabs (cross p a b)) (cabs _) B0 => A B x y B0 y0 e.
have -> : (x ^ 2 * (2 / B - B / B ^ 2) = x ^ 2 / B)%coqR.
  by Rfield; lra.
case: (Rle_or_lt (A - x ^ 2 / B) Q) => // lt.
have : (B * (Q - (A - x ^ 2 / B)) < 0)%coqR by nra.
lra.
Qed.

Lemma iss1_stepE fl phi Y n Z : iss1_step fl phi Y n = Some Z ->
  iss_ok fl phi Y n /\ Z = steer (iss_v fl phi Y n) n Y.
Proof. by rewrite /iss1_step; case: ifP => // ok [<-]. Qed.

Lemma iss_ok_pos fl phi Y n : iss_ok fl phi Y n -> (0 < fl (iss_den phi Y n n))%coqR.
Proof. by case/and3P => _ _ /RltbP. Qed.

Lemma iss_scale fl phi Y n : iss_ok fl phi Y n ->
  1 - iss_v fl phi Y n n = c (/ R_sqrt.sqrt (fl (iss_den phi Y n n)))%coqR.
Proof. by move=> ok; rewrite /iss_v eqxx opprB addrC subrK. Qed.

Lemma iss_self fl phi Y n : iss_ok fl phi Y n ->
  wpower1 (phi n) (fun t => Y n t - iss_v fl phi Y n n * Y n t) =
  (iss_den phi Y n n / fl (iss_den phi Y n n))%coqR.
Proof.
move=> ok; have := iss_ok_pos ok; set d := fl _ => d0.
have s0 := sqrt_lt_R0 _ d0.
have -> : wpower1 (phi n) (fun t => Y n t - iss_v fl phi Y n n * Y n t) =
          wpower1 (phi n) (fun t => c (/ R_sqrt.sqrt d)%coqR * Y n t).
  by apply: eq_wpower1 => t; rewrite -(iss_scale ok) mulrBl mul1r.
rewrite /wpower1 /iss_den /meanR /Rdiv RmulE -mulrA; congr (_ * _).
rewrite mulr_suml; apply: eq_bigr => t _.
rewrite cabsM cabs_c Rabs_pos_eq; last by apply: Rlt_le; apply: Rinv_0_lt_compat.
have -> : (/ d)%coqR = ((/ R_sqrt.sqrt d)%coqR ^+ 2)%R.
  by rewrite -RpowE -{1}(sqrt_sqrt d); [Rfield; lra|lra].
by rewrite exprMn [RHS]mulrC [RHS]mulrCA.
Qed.

Lemma iss_step_cost fl phi Y n : (forall k t, (0 <= phi k t)%coqR) ->
  iss_ok fl phi Y n ->
  (forall k, (iss_den phi Y n k <= fl (iss_den phi Y n k))%coqR) ->
  (iss_den phi Y n n / fl (iss_den phi Y n n) + ln (fl (iss_den phi Y n n))
    <= iss_den phi Y n n)%coqR ->
  (wpower phi (steer (iss_v fl phi Y n) n Y)
   - 2 * ln (cabs (\det (steer_mx (iss_v fl phi Y n) n))) <= wpower phi Y)%coqR.
Proof.
move=> p0 ok hle hself; have := iss_ok_pos ok => d0.
have s0 := sqrt_lt_R0 _ d0.
rewrite wpower_steer det_steer iss_scale // cabs_c Rabs_pos_eq; last first.
  by apply: Rlt_le; apply: Rinv_0_lt_compat.
rewrite ln_Rinv // (bigD1 n) //= iss_self // /wpower [X in (_ <= X)%coqR](bigD1 n) //=.
have : (\sum_(k | k != n) wpower1 (phi k) (fun t => (Y k t - iss_v fl phi Y n k * Y n t)%R)
        <= \sum_(k | k != n) wpower1 (phi k) (Y k))%coqR.
  apply: sumR_le => k kn; rewrite /iss_v (negbTE kn) -[iss_num _ _ _ _]/(cross (phi k) (Y k) (Y n)).
  have B0 : (0 <= wpower1 (phi k) (Y n))%coqR by apply: wpower1_ge0.
  have fk0 : (0 < fl (iss_den phi Y n k))%coqR.
    case/and3P: ok => _ /forallP /(_ k) /eqP nz _.
    case: (Rle_lt_or_eq_dec _ _ (Rle_trans _ _ _ B0 (hle k))) => // e.
    by case: nz; rewrite -e.
  rewrite quad_val //.
  have := iss_real_cross _ _ _ (pow2_ge_0 (cabs (cross (phi k) (Y k) (Y n)))) B0 fk0 (hle k).
  lra.
have := ln_sqrt2 _ d0.
have -> : wpower1 (phi n) (Y n) = iss_den phi Y n n by [].
toR; set x := \sum_(_ | _) _; set y := \sum_(_ | _) _; lra.
Qed.
End Steer.
