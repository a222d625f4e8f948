(** Scalar inequalities behind the multiplicative updates of NMF. *)
From Coq Require Import Reals Lra Psatz.
Local Open Scope R_scope.

(** [x ** p] of NumPy for [x >= 0] and [p > 0]: [Rpower 0 p] is 1 in Coq, so 0 is separate *)
Definition pw (x p : R) : R := if Req_EM_T x 0 then 0 else Rpower x p.

Lemma pw_pos x p : 0 < x -> pw x p = Rpower x p.
Proof. intros h. unfold pw. destruct (Req_EM_T x 0); [lra|reflexivity]. Qed.
Lemma pw0 p : pw 0 p = 0.
Proof. unfold pw. destruct (Req_EM_T 0 0); [reflexivity|lra]. Qed.
Lemma pw_ge0 x p : 0 <= pw x p.
Proof. unfold pw. destruct (Req_EM_T x 0); [lra|]. unfold Rpower. left. apply exp_pos. Qed.
Lemma Rpower_pos x p : 0 < Rpower x p.
Proof. apply exp_pos. Qed.
Lemma pw_gt0 x p : 0 < x -> 0 < pw x p.
Proof. intros h. rewrite pw_pos by lra. apply Rpower_pos. Qed.
Lemma pw_1 x : 0 <= x -> pw x 1 = x.
Proof. intros [h|<-]; [|now rewrite pw0]. rewrite pw_pos by lra. now apply Rpower_1. Qed.
Lemma pw_2 x : 0 <= x -> pw x 2 = x ^ 2.
Proof.
  intros [h|<-]; [|rewrite pw0; ring]. rewrite pw_pos by lra.
  replace 2 with (INR 2) at 1 by (simpl; ring). apply Rpower_pow. lra.
Qed.
Lemma pw_mult x y p : 0 <= x -> 0 < y -> pw (x * y) p = pw x p * pw y p.
Proof.
  intros [h|<-] y0; [|now rewrite Rmult_0_l, !pw0, Rmult_0_l].
  rewrite !pw_pos by nra. symmetry. now apply Rpower_mult_distr.
Qed.
Lemma pw_pw x p r : 0 < x -> pw (pw x p) r = pw x (p * r).
Proof.
  intros h. rewrite (pw_pos x p h), pw_pos, pw_pos by (try apply Rpower_pos; lra).
  apply Rpower_mult.
Qed.
Lemma pw_inv x p : 0 < x -> pw (/ x) p = / pw x p.
Proof.
  intros h. assert (i : 0 < / x) by (apply Rinv_0_lt_compat; lra).
  rewrite !pw_pos by lra. unfold Rpower. rewrite ln_Rinv, <- exp_Ropp by lra. f_equal. ring.
Qed.
Lemma pw_opp x p : 0 < x -> pw x (- p) = / pw x p.
Proof. intros h. rewrite !pw_pos by lra. apply Rpower_Ropp. Qed.
Lemma pw_plus x p r : 0 < x -> pw x (p + r) = pw x p * pw x r.
Proof. intros h. rewrite !pw_pos by lra. apply Rpower_plus. Qed.
Lemma ln_pw x p : 0 < x -> ln (pw x p) = p * ln x.
Proof. intros h. rewrite pw_pos by lra. unfold Rpower. apply ln_exp. Qed.

Lemma ln_sub1 x : 0 < x -> ln x <= x - 1.
Proof. intros H. pose proof (exp_ineq1_le (ln x)). rewrite exp_ln in *; lra. Qed.
Lemma ln_tangent q q' : 0 < q -> 0 < q' -> ln q' <= ln q + (q' - q) / q.
Proof.
  intros h h'. assert (0 < q' / q) by (apply Rdiv_lt_0_compat; lra).
  pose proof (ln_sub1 (q' / q) H) as l. unfold Rdiv at 1 in l.
  rewrite ln_mult, ln_Rinv in l by (try apply Rinv_0_lt_compat; lra).
  replace ((q' - q) / q) with (q' / q - 1) by (field; lra). lra.
Qed.
(** tangent of the convex function [x ** (-a)] *)
Lemma pow_tangent a x m : 0 < a -> 0 < x -> 0 < m ->
  pw m (- a) * (1 - a * (x / m - 1)) <= pw x (- a).
Proof.
  intros a0 x0 m0. set (u := x / m).
  assert (u0 : 0 < u) by (apply Rdiv_lt_0_compat; lra).
  replace x with (m * u) by (unfold u; field; lra).
  rewrite pw_mult by lra. apply Rmult_le_compat_l; [apply pw_ge0|].
  rewrite pw_pos by lra. unfold Rpower.
  pose proof (exp_ineq1_le (- a * ln u)). pose proof (ln_sub1 u u0).
  assert (a * ln u <= a * (u - 1)) by (apply Rmult_le_compat_l; lra). lra.
Qed.

(** one factor of the update: [s] minimises [A s^(-a) + D s], or lies between the
    minimiser and 1 *)
Lemma mm_scalar a A D s : 0 < a -> 0 <= A -> 0 < D -> 0 < s ->
  (a * A = D * pw s (1 + a) \/ (s <= 1 /\ a * A <= D * pw s (1 + a))) ->
  A * (pw s (- a) - 1) + D * (s - 1) <= 0.
Proof.
  intros a0 hA D0 s0 h.
  set (w := pw s a). assert (w0 : 0 < w) by (apply pw_gt0; lra).
  assert (e1 : pw s (1 + a) = s * w) by (rewrite pw_plus, pw_1 by lra; reflexivity).
  assert (e2 : pw s (- a) = / w) by (apply pw_opp; lra). rewrite e1 in h. rewrite e2.
  assert (hw : 1 + a * ln s <= w).
  { unfold w. rewrite pw_pos by lra. unfold Rpower. apply exp_ineq1_le. }
  assert (hs : 1 - / s <= ln s).
  { assert (i : 0 < / s) by (apply Rinv_0_lt_compat; lra). pose proof (ln_sub1 (/ s) i).
    rewrite ln_Rinv in *; lra. }
  assert (k : s * (1 - w) <= a * (1 - s)).
  { assert (a * (1 - / s) <= w - 1).
    { apply Rle_trans with (a * ln s); [apply Rmult_le_compat_l; lra|lra]. }
    assert (s * (a * (1 - / s)) <= s * (w - 1)) by (apply Rmult_le_compat_l; lra).
    replace (s * (a * (1 - / s))) with (a * (s - 1)) in * by (field; lra). lra. }
  assert (iw : 0 < / w) by (apply Rinv_0_lt_compat; lra).
  assert (key : a * A * (/ w - 1) <= D * (a * (1 - s))).
  { apply Rle_trans with (D * (s * (1 - w))).
    2: { apply Rmult_le_compat_l; lra. }
    destruct h as [e|[s1 l]].
    - rewrite e. right. field. lra.
    - assert (w <= 1).
      { unfold w. rewrite pw_pos by lra. unfold Rpower. rewrite <- exp_0.
        assert (ln s <= 0) by (rewrite <- ln_1; destruct s1 as [s1| ->]; [left; apply ln_increasing; lra|lra]).
        assert (a * ln s <= 0) by nra.
        destruct H0 as [H0|H0]; [left; apply exp_increasing; lra|rewrite H0; lra]. }
      assert (0 <= / w - 1).
      { assert (/ 1 <= / w) by (apply Rinv_le_contravar; lra). rewrite Rinv_1 in *. lra. }
      apply Rle_trans with (D * (s * w) * (/ w - 1)); [apply Rmult_le_compat_r; lra|].
      right. field. lra. }
  apply Rmult_le_reg_l with a; [lra|].
  replace (a * (A * (/ w - 1) + D * (s - 1))) with (a * A * (/ w - 1) - D * (a * (1 - s))) by ring.
  lra.
Qed.
(** the majorisation-equalisation step ([a = 1]): [s = A / D], or between it and 1 *)
Lemma me_scalar A D s : 0 <= A -> 0 < D -> 0 < s ->
  (A = D * s \/ (s <= 1 /\ A <= D * s)) ->
  A * (pw s (- 1) - 1) + D * (s - 1) <= 0.
Proof.
  intros hA D0 s0 h.
  replace (- 1) with (- (1)) by ring. rewrite pw_opp, pw_1 by lra.
  assert (i : 0 < / s) by (apply Rinv_0_lt_compat; lra).
  replace (A * (/ s - 1) + D * (s - 1)) with ((A - D * s) * (1 - s) * / s) by (field; lra).
  destruct h as [->|[s1 l]]; [replace (D * s - D * s) with 0 by ring; lra|].
  assert ((A - D * s) * (1 - s) <= 0) by nra. nra.
Qed.

(** concavity of the logarithm, as used by t-ILRMA *)
Lemma t_majoriser nu y r r' : 0 < nu -> 0 <= y -> 0 < r -> 0 < r' ->
  (1 + nu / 2) * ln (1 + 2 / nu * (y / r')) <=
  (1 + nu / 2) * ln (1 + 2 / nu * (y / r)) +
    y * r / (nu / (nu + 2) * r + (1 - nu / (nu + 2)) * y) * (/ r' - / r).
Proof.
  intros n0 hy r0 r0'.
  assert (p1 : forall r, 0 < r -> 0 < 1 + 2 / nu * (y / r)).
  { intros z z0. assert (0 < 2 / nu) by (apply Rdiv_lt_0_compat; lra).
    assert (0 <= y / z) by (apply Rmult_le_pos; [lra|left; apply Rinv_0_lt_compat; lra]). nra. }
  pose proof (ln_tangent _ _ (p1 r r0) (p1 r' r0')) as h.
  assert (q : 0 < nu * r + 2 * y) by nra.
  assert (c0 : 0 < 1 + nu / 2) by lra.
  apply (Rmult_le_compat_l (1 + nu / 2)) in h; [|lra].
  eapply Rle_trans; [apply h|]. right. field. repeat split; lra.
Qed.
(** the same as a function of the squared amplitude *)
Lemma t_spatial nu y y' r : 0 < nu -> 0 <= y -> 0 <= y' -> 0 < r ->
  (1 + nu / 2) * ln (1 + 2 / nu * (y' / r)) <=
  (1 + nu / 2) * ln (1 + 2 / nu * (y / r)) +
    / (nu / (nu + 2) * r + (1 - nu / (nu + 2)) * y) * (y' - y).
Proof.
  intros n0 hy hy' r0.
  assert (p1 : forall y, 0 <= y -> 0 < 1 + 2 / nu * (y / r)).
  { intros z z0. assert (0 < 2 / nu) by (apply Rdiv_lt_0_compat; lra).
    assert (0 <= z / r) by (apply Rmult_le_pos; [lra|left; apply Rinv_0_lt_compat; lra]). nra. }
  pose proof (ln_tangent _ _ (p1 y hy) (p1 y' hy')) as h.
  assert (q : 0 < nu * r + 2 * y) by nra.
  apply (Rmult_le_compat_l (1 + nu / 2)) in h; [|lra].
  eapply Rle_trans; [apply h|]. right. field. repeat split; lra.
Qed.
Lemma young g z : 0 <= g <= 1 -> 0 < z -> pw z g <= 1 + g * (z - 1).
Proof.
  intros hg z0. rewrite pw_pos by lra. set (m := Rpower z g).
  assert (m0 : 0 < m) by apply Rpower_pos. assert (i : 0 < / m) by (apply Rinv_0_lt_compat; lra).
  set (L := ln z).
  assert (h1 : 1 + (1 - g) * L <= z * / m).
  { replace (z * / m) with (exp ((1 - g) * L)); [apply exp_ineq1_le|].
    unfold m, Rpower. fold L. rewrite <- exp_Ropp, <- (exp_ln z) at 1 by lra. fold L.
    rewrite <- exp_plus. f_equal. ring. }
  assert (h2 : 1 - g * L <= / m).
  { unfold m, Rpower. fold L. rewrite <- exp_Ropp. pose proof (exp_ineq1_le (- (g * L))). lra. }
  assert (h3 : 1 <= (1 + g * (z - 1)) * / m).
  { replace ((1 + g * (z - 1)) * / m) with (g * (z * / m) + (1 - g) * / m) by ring.
    assert (g * (1 + (1 - g) * L) <= g * (z * / m)) by (apply Rmult_le_compat_l; lra).
    assert ((1 - g) * (1 - g * L) <= (1 - g) * / m) by (apply Rmult_le_compat_l; lra). lra. }
  apply (Rmult_le_compat_l m) in h3; [|lra].
  replace (m * ((1 + g * (z - 1)) * / m)) with (1 + g * (z - 1)) in h3 by (field; lra). lra.
Qed.
(** concavity of [u ** (beta / 2)] in [u = |y|^2], as used by GGD-ILRMA *)
Lemma ggd_spatial be y y' : 0 < be <= 2 -> 0 < y -> 0 <= y' ->
  pw y' be <= pw y be + be / 2 * (pw y be / y ^ 2) * (y' ^ 2 - y ^ 2).
Proof.
  intros hb y0 hy'. assert (w0 := pw_gt0 y be y0).
  destruct hy' as [y0'|<-].
  - set (u := y' / y). assert (u0 : 0 < u) by (apply Rdiv_lt_0_compat; lra).
    replace y' with (y * u) by (unfold u; field; lra). rewrite pw_mult by lra.
    replace (pw y be + be / 2 * (pw y be / y ^ 2) * ((y * u) ^ 2 - y ^ 2))
      with (pw y be * (1 + be / 2 * (u ^ 2 - 1))) by (field; lra).
    apply Rmult_le_compat_l; [lra|].
    replace (pw u be) with (pw (u ^ 2) (be / 2)).
    + apply young; [lra|apply pow_lt; lra].
    + rewrite <- pw_2, pw_pw by lra. f_equal. field.
  - rewrite pw0. replace (pw y be + be / 2 * (pw y be / y ^ 2) * (0 ^ 2 - y ^ 2))
      with (pw y be * (1 - be / 2)) by (field; lra).
    apply Rmult_le_pos; lra.
Qed.
