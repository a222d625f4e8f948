(** Properties C26, C27, C28: cube roots, cubic equations and the largest real root. *)
From Coq Require Import Reals Lra.
From mathcomp Require Import all_ssreflect all_algebra.
From mathcomp Require Import ring.
From Verif Require Import RStruct MxC CxR RealLemmas Cubic CubicProofs.
Import Order.TTheory GRing.Theory Num.Theory.
Set Implicit Arguments.
Unset Strict Implicit.
Unset Printing Implicit Defensive.
Local Open Scope ring_scope.

(** C26 *)
Theorem C26_complex z : cbrtC z * cbrtC z * cbrtC z = z.
Proof. by rewrite -{4}(cbrtC_cube z) !exprS expr0 mulr1 mulrA. Qed.
Theorem C26_real x : (cbrtR x * cbrtR x * cbrtR x = x)%coqR.
Proof. by rewrite -{4}(cbrtR_cube x) /= Rmult_1_r Rmult_assoc. Qed.
(** the complex branch extends the real one on positive reals, but not on negative ones *)
Theorem C26_agree x : (0 <= x)%coqR -> cbrtC (c x) = c (cbrtR x).
Proof.
case=> [|<-]; first exact: cbrtC_pos.
by rewrite cR0 cbrtR0 cR0; apply/eqP; rewrite cbrtC_eq0.
Qed.
(** negative reals given with a complex dtype: the principal root, not the real one *)
Theorem C26_negative x : (x < 0)%coqR -> (0 < im (cbrtC (c x)))%coqR.
Proof.
move=> x0; rewrite /cbrtC /polar im_mkC angle_neg //; apply: Rmult_lt_0_compat.
  by apply: cbrtR_pos; apply: cabs_gt0; apply: c_neq0; lra.
by apply: sin_gt_0; have := PI_RGT_0; lra.
Qed.
(** the principal root: argument in (-pi/3, pi/3] *)
Theorem C26_principal z : (0 <= re (cbrtC z))%coqR.
Proof.
rewrite /cbrtC /polar re_mkC; apply: Rmult_le_pos.
  by apply: cbrtR_ge0; apply: cabs_ge0.
have pi := PI_RGT_0.
have [h1 h2] : (- PI <= angle z <= PI)%coqR.
  rewrite /angle; case: eqP => [_|_]; first lra.
  have b := acos_bound (re z / cabs z).
  by case: (Rle_dec 0 (im z)) => [?|?]; rewrite [is_left _]/=; lra.
by apply: cos_ge_0; lra.
Qed.
Example C26_instance : cbrtR (-8)%coqR = (-2)%coqR.
Proof. by apply: cube_inj; rewrite cbrtR_cube; lra. Qed.

(** C27 *)
Lemma Some_inj T (x y : T) : Some x = Some y -> x = y.
Proof. by case. Qed.
Theorem C27_monic A B C x1 x2 x3 : solve_cubic3 A B C = (x1, x2, x3) ->
  forall x, (x - x1) * (x - x2) * (x - x3) = x * x * x + A * x * x + B * x + C.
Proof. by move=> /solve_cubic3_spec h x; rewrite h; ring. Qed.
Theorem C27_general A B C D x1 x2 x3 : solve_cubic4 A B C D = Some (x1, x2, x3) ->
  A != 0 /\
  forall x, A * ((x - x1) * (x - x2) * (x - x3)) = A * (x * x * x) + B * (x * x) + C * x + D.
Proof.
rewrite /solve_cubic4; case: eqP => // /eqP A0 e; have h := @solve_cubic3_spec _ _ _ _ _ _ (Some_inj e); split=> // x.
by rewrite h; field.
Qed.
Theorem C27_rejects A B C D : solve_cubic4 A B C D = None <-> A = 0.
Proof. by rewrite /solve_cubic4; case: eqP. Qed.
(** nothing is missed: every solution is among the three returned values *)
Theorem C27_complete A B C D x1 x2 x3 : solve_cubic4 A B C D = Some (x1, x2, x3) ->
  forall x, A * (x * x * x) + B * (x * x) + C * x + D = 0 <-> x \in [:: x1; x2; x3].
Proof.
move=> /C27_general[A0 h] x; rewrite -h !inE; split.
  by move/eqP; rewrite !mulf_eq0 (negbTE A0) !subr_eq0 -orbA.
by move/or3P => [] /eqP ->; rewrite subrr ?mulr0 ?mul0r ?mulr0.
Qed.
Example C27_instance : exists x1 x2 x3, solve_cubic4 2%:R 0 0 (- 2%:R) = Some (x1, x2, x3) /\
  1 \in [:: x1; x2; x3].
Proof.
case e: (solve_cubic4 _ _ _ _) => [[[x1 x2] x3]|]; last first.
  by move/C27_rejects: e => /eqP; rewrite pnatr_eq0.
exists x1, x2, x3; split=> //; apply/(C27_complete e); ring.
Qed.

(** C28 *)
Theorem C28_lqpqm phi (v : Cx) z : (0 < phi)%coqR -> v != 0 ->
  let a := (cabs v ^ 2)%coqR in
  let r := find_largest_root (- (phi * a + 2 * phi + z)) ((phi + 2 * z) * phi) (- phi ^ 2 * z) in
  ((r - phi) ^ 2 * (r - z) = phi * a * r ^ 2)%coqR
  /\ (forall y, (y - phi) ^ 2 * (y - z) = phi * a * y ^ 2 -> y <= r)%coqR
  /\ (phi < r)%coqR /\ ((0 <= z)%coqR -> (z < r)%coqR).
Proof.
move=> p0 /cabs_gt0 v0 a r.
have a0 : (0 < a)%coqR by rewrite /a; nra.
have [[]] := @lqpqm_root phi a z p0 a0; rewrite -/r; move: (r) (a) => x b h1 h2 h3 {r a a0}.
split; last split=> //.
  by move: h1; rewrite lqpqm_cubic; lra.
by move=> y hy; apply: h2; rewrite lqpqm_cubic; lra.
Qed.
(** general real coefficients, outside the configuration where the code goes wrong *)
Theorem C28_general A B C :
  let P := (B - A ^ 2 / 3)%coqR in
  let Q := (2 * A ^ 3 / 27 - A * B / 3 + C)%coqR in
  ~ (P < 0 /\ 0 < (Q / 2) ^ 2 + (P / 3) ^ 3 /\ 0 < Q)%coqR ->
  let r := find_largest_root A B C in
  (r ^ 3 + A * r ^ 2 + B * r + C = 0)%coqR
  /\ (forall y, y ^ 3 + A * y ^ 2 + B * y + C = 0 -> y <= r)%coqR.
Proof.
move=> P Q h; apply: find_largest_root_spec.
have -> : depP A B = P by rewrite /depP /P; lra.
rewrite -/Q /disc => p d; apply: Rnot_lt_le => q; exact: h.
Qed.
(** the documented behaviour (largest real root for all real coefficients) fails *)
Theorem C28_refuted : exists A B C y : R,
  (y ^ 3 + A * y ^ 2 + B * y + C = 0)%coqR /\
  let r := find_largest_root A B C in (r ^ 3 + A * r ^ 2 + B * r + C <> 0)%coqR.
Proof.
exists 0%coqR, (-3)%coqR, 18%coqR, (-3)%coqR; split; first lra.
have := counterexample; set r := find_largest_root _ _ _ => r0 /=.
have : (0 <= (r - 1) * (r - 1) * (r + 2))%coqR.
  by apply: Rmult_le_pos; [exact: Rle_0_sqr|lra].
lra.
Qed.
Example C28_instance : let r := find_largest_root (-4)%coqR 3%coqR 0%coqR in r = 3%coqR.
Proof.
have [] := @C28_general (-4)%coqR 3%coqR 0%coqR; first by case=> _ []; lra.
set r := find_largest_root _ _ _ => h1 h2 /=.
have := h2 3%coqR; have : (r * ((r - 1) * (r - 3)) = 0)%coqR by lra.
by case/Rmult_integral => [|/Rmult_integral[]] e h; have := h _; lra.
Qed.

Print Assumptions C26_complex.
Print Assumptions C26_principal.
Print Assumptions C27_complete.
Print Assumptions C28_lqpqm.
Print Assumptions C28_general.
Print Assumptions C28_refuted.
