(** Per-cell facts about the three ILRMA source models (plain real analysis). *)
From Coq Require Import Reals Lra Psatz.
From mathcomp Require Import all_ssreflect all_algebra.
From mathcomp Require Import ring.
From Verif Require Import RStruct MxC CxR NpLin RealLemmas NmfReal NmfMM Ilrma.
Set Implicit Arguments.
Unset Strict Implicit.
Unset Printing Implicit Defensive.
Local Open Scope R_scope.
Arguments pow : simpl never.

(** surrogate exponents and amplitude *)
Definition aof (m : model) : R := match m with Gauss p => 2 / p | Student _ p => 2 / p | GGD be p => be / p end.
Definition bof (m : model) : R := 2 / domain m.
Definition yof (m : model) (y q : R) : R :=
  match m with
  | Gauss p => y ^ 2
  | Student nu p => y ^ 2 * pw q (2 / p) / (nu / (nu + 2) * pw q (2 / p) + (1 - nu / (nu + 2)) * y ^ 2)
  | GGD be p => pw y be
  end.

Lemma domain_gt0 m alg : valid m alg -> 0 < domain m.
Proof. case: m => [p|nu p|be p] /=; intuition lra. Qed.
Lemma aof_gt0 m alg : valid m alg -> 0 < aof m.
Proof. case: m => [p|nu p|be p] /= h; apply: Rdiv_lt_0_compat; intuition lra. Qed.
Lemma bof_gt0 m alg : valid m alg -> 0 < bof m.
Proof. by move=> /domain_gt0 h; apply: Rdiv_lt_0_compat; lra. Qed.
Lemma exponent_ok m alg : valid m alg -> mm_exponent (aof m) (expo m alg).
Proof.
case: m alg => [p|nu p|be p] [] /= h.
- by left; Rfield; split; intuition lra.
- by right; split=> //; move: h => [h0 ->] //; Rfield.
- by left; Rfield; split; intuition lra.
- by right; split=> //; move: h => [h0 [h1 ->]] //; Rfield.
- by left; Rfield; split; intuition lra.
- by case: h => [_ [_]].
Qed.
Lemma nu_ratio nu : 0 < nu -> 0 < nu / (nu + 2) < 1.
Proof.
move=> n0; split; first by apply: Rdiv_lt_0_compat; lra.
apply: (Rmult_lt_reg_r (nu + 2)); first by lra.
have -> : nu / (nu + 2) * (nu + 2) = nu by Rfield; lra.
lra.
Qed.
Lemma rtilde_gt0 nu r y2 : 0 < nu -> 0 < r -> 0 <= y2 ->
  0 < nu / (nu + 2) * r + (1 - nu / (nu + 2)) * y2.
Proof.
move=> /nu_ratio h r0 y0; apply: Rplus_lt_le_0_compat; first by apply: Rmult_lt_0_compat; lra.
by apply: Rmult_le_pos; lra.
Qed.
Lemma sqr_ge0 (y : R) : 0 <= y ^ 2.
Proof. exact: pow2_ge_0. Qed.
Lemma yof_ge0 m alg y q : valid m alg -> 0 < q -> 0 <= yof m y q.
Proof.
case: m => [p|nu p|be p] /= h q0; [exact: sqr_ge0| |exact: pw_ge0].
have r0 := pw_gt0 q (2 / p) q0; have y2 := sqr_ge0 y.
have /Rinv_0_lt_compat R0 := @rtilde_gt0 nu _ _ (proj1 h) r0 y2.
by apply: Rmult_le_pos; [apply: Rmult_le_pos|]; lra.
Qed.
Lemma yof_gt0 m alg y q : valid m alg -> 0 < q -> 0 < y -> 0 < yof m y q.
Proof.
case: m => [p|nu p|be p] /= h q0 y0; [exact: pow_lt| |exact: pw_gt0].
have r0 := pw_gt0 q (2 / p) q0; have y2 := sqr_ge0 y.
have R0 := @rtilde_gt0 nu _ _ (proj1 h) r0 y2.
by apply: Rdiv_lt_0_compat => //; apply: Rmult_lt_0_compat => //; exact: pow_lt.
Qed.

Lemma num_cellE m alg y q : valid m alg -> 0 < q ->
  num_cell m alg y q = aof m / bof m * (yof m y q * pw q (- (1 + aof m))).
Proof.
move=> h q0; have p0 := domain_gt0 h; rewrite /bof.
have exp1 a : pw q (- (1 + a)) = / (q * pw q a) by rewrite pw_opp // pw_plus // pw_1 //; lra.
rewrite exp1; have r0 a := pw_gt0 q a q0.
case: m alg h p0 => [p|nu p|be p] [] /= h p0.
- have -> : (p + 2) / p = 1 + 2 / p by Rfield; lra.
  rewrite pw_plus // pw_1; last by lra.
  by have ? := r0 (2 / p); Rfield; repeat split; lra.
- move: h => [h0 ->] //; have -> : 2 / 2 = 1 by lra.
  by rewrite pw_1; last lra; Rfield; lra.
- have ? := r0 (2 / p); have R0 := @rtilde_gt0 nu _ _ (proj1 h) (r0 (2 / p)) (sqr_ge0 y).
  have -> : forall t : R, 2 / p / (2 / p) * t = t by move=> t; Rfield; lra.
  have n2 : nu + 2 <> 0 by lra.
  move: R0; set D := (_ + _ * y ^ 2) => R0.
  by Rfield; repeat split; lra.
- move: h => [h0 [h1 ->]] //; have -> : 2 / 2 = 1 by lra.
  rewrite pw_1; last lra.
  have R0 := @rtilde_gt0 nu _ _ h0 q0 (sqr_ge0 y).
  have -> : forall t : R, 1 / 1 * t = t by move=> t; Rfield; lra.
  move: R0; set D := (_ + _ * y ^ 2) => R0.
  by Rfield; lra.
- have -> : (be + p) / p = 1 + be / p by Rfield; lra.
  rewrite pw_plus // pw_1; last by lra.
  by have ? := r0 (be / p); Rfield; repeat split; lra.
- by case: h => [_ [_]].
Qed.

Lemma cell_majoriser m alg y q q' : valid m alg -> 0 < q -> 0 < q' ->
  cell_loss m y q' - cell_loss m y q <=
  yof m y q * (pw q' (- aof m) - pw q (- aof m)) + bof m * (ln q' - ln q).
Proof.
move=> h q0 q0'; rewrite /bof; case: m h => [p|nu p|be p] /= h.
- rewrite !pw_opp //; apply: Req_le; rewrite /Rdiv; Rring.
- rewrite !pw_opp //.
  have := @t_majoriser nu (y ^ 2) (pw q (2 / p)) (pw q' (2 / p)) (proj1 h) (sqr_ge0 y)
    (pw_gt0 _ _ q0) (pw_gt0 _ _ q0'); lra.
- rewrite !pw_opp //; apply: Req_le; rewrite /Rdiv; Rring.
Qed.

(** scaling the signal by [s] and the model value by [s^p] shifts the loss *)
Lemma cell_loss_scale m alg y q s : valid m alg -> 0 <= y -> 0 < q -> 0 < s ->
  cell_loss m (y * s) (q * pw s (domain m)) = cell_loss m y q + 2 * ln s.
Proof.
move=> h y0 q0 s0; have p0 := domain_gt0 h; have P0 := pw_gt0 s (domain m) s0.
have pq a : pw (q * pw s (domain m)) a = pw q a * pw s (domain m * a).
  by rewrite pw_mult ?pw_pw //; lra.
have lnq : 2 / domain m * ln (q * pw s (domain m)) = 2 / domain m * ln q + 2 * ln s.
  by rewrite ln_mult // ln_pw //; Rfield; lra.
have s2 : pw s 2 = s ^ 2 by rewrite pw_2 //; lra.
have Q0 a := pw_gt0 q a q0.
case: m h p0 P0 pq lnq => [p|nu p|be p] /= h p0 P0 pq lnq; rewrite pq lnq.
- have -> : p * (2 / p) = 2 by Rfield; lra.
  by rewrite s2; have ? := Q0 (2 / p); Rfield; split; lra.
- have -> : p * (2 / p) = 2 by Rfield; lra.
  rewrite s2; have ? := Q0 (2 / p).
  have -> : (y * s) ^ 2 / (pw q (2 / p) * s ^ 2) = y ^ 2 / pw q (2 / p) by Rfield; split; lra.
  Rring.
- have -> : p * (be / p) = be by Rfield; lra.
  rewrite pw_mult //; have ? := Q0 (be / p); have ? := pw_gt0 s be s0; Rfield; split; lra.
Qed.

Definition weight_pos (m : model) (fl : R -> R) (y : R) : Prop :=
  if m is GGD be _ then 0 < fl (pw y (2 - be)) else True.
Lemma spatial_weight_gt0 m alg fl y q : valid m alg -> 0 < q -> weight_pos m fl y -> 0 < spatial_weight m fl y q.
Proof.
case: m => [p|nu p|be p] /= h q0 hf; apply: Rdiv_lt_0_compat; try lra.
- exact: pw_gt0.
- by apply: rtilde_gt0; [case: h|exact: pw_gt0|exact: sqr_ge0].
- apply: Rmult_lt_0_compat; last exact: pw_gt0.
  by apply: Rmult_lt_0_compat => //; apply: Rdiv_lt_0_compat; lra.
Qed.
(** GGD needs its floor to be inactive *)
Definition floor_inactive_at (m : model) (fl : R -> R) (y : R) : Prop :=
  if m is GGD be _ then 0 < y /\ fl (pw y (2 - be)) = pw y (2 - be) else True.
Lemma spatial_majoriser m alg fl y q y' : valid m alg -> 0 < q -> 0 <= y -> 0 <= y' ->
  floor_inactive_at m fl y ->
  cell_loss m y' q <= cell_loss m y q + spatial_weight m fl y q * (y' ^ 2 - y ^ 2).
Proof.
move=> h q0 y0 y0'; case: m h => [p|nu p|be p] /= h hf.
- by apply: Req_le; have ? := pw_gt0 q (2 / p) q0; Rfield; split; lra.
- have := @t_spatial nu (y ^ 2) (y' ^ 2) (pw q (2 / p)) (proj1 h) (sqr_ge0 y) (sqr_ge0 y') (pw_gt0 _ _ q0).
  by rewrite /Rdiv Rmult_1_l; lra.
- move: hf => [yp ->]; have g : pw y' be <= pw y be + be / 2 * (pw y be / y ^ 2) * (y' ^ 2 - y ^ 2) by apply: ggd_spatial => //; lra.
  have -> : pw y (2 - be) = y ^ 2 / pw y be.
    rewrite /Rminus pw_plus // pw_opp // pw_2; last lra.
    by [].
  have w0 := pw_gt0 y be yp; have r0 := pw_gt0 q (be / p) q0; have ir := Rinv_0_lt_compat _ r0.
  have -> : 1 / (2 / be * (y ^ 2 / pw y be) * pw q (be / p)) * (y' ^ 2 - y ^ 2) =
    be / 2 * (pw y be / y ^ 2) * (y' ^ 2 - y ^ 2) * / pw q (be / p).
    by Rfield; repeat split; lra.
  have : pw y' be * / pw q (be / p) <= (pw y be + be / 2 * (pw y be / y ^ 2) * (y' ^ 2 - y ^ 2)) * / pw q (be / p).
    by apply: Rmult_le_compat_r; lra.
  by rewrite /Rdiv; lra.
Qed.
