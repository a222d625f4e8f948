(** Inequalities about real numbers used by the optimality proofs. *)
From Coq Require Import Reals Lra Psatz.
Local Open Scope R_scope.
(** the standard library's [field], also usable where mathcomp's is loaded *)
Ltac Rfield := field.
Ltac Rring := ring.

Lemma ln_le_sub1 x : 0 < x -> ln x <= x - 1.
Proof. intros H. pose proof (exp_ineq1_le (ln x)). rewrite exp_ln in *; lra. Qed.

Lemma ln_sqr x : 0 < x -> ln (x ^ 2) = 2 * ln x.
Proof. intros H. simpl. rewrite Rmult_1_r, ln_mult by lra. lra. Qed.

Lemma ln_sqrt2 x : 0 < x -> 2 * ln (sqrt x) = ln x.
Proof.
  intros H. rewrite <- ln_sqr by (apply sqrt_lt_R0; lra).
  rewrite pow2_sqrt; lra.
Qed.

Lemma pos_of_sqr_le t q a : 0 < q -> 0 < a -> a ^ 2 <= t * q -> 0 < t.
Proof.
  intros Hq Ha H. assert (0 < a ^ 2) by (apply pow_lt; lra).
  destruct (Rle_or_lt t 0); [nra|lra].
Qed.

(** the row update of iterative projection is optimal *)
Lemma ip_real_opt t q a : 0 < q -> 0 < a -> a ^ 2 <= t * q ->
  q / sqrt q ^ 2 - 2 * ln (q / sqrt q) <= t - 2 * ln a.
Proof.
  intros q0 a0 cs.
  assert (s0 : 0 < sqrt q) by (apply sqrt_lt_R0; lra).
  assert (ss : sqrt q * sqrt q = q) by (apply sqrt_sqrt; lra).
  replace (q / sqrt q ^ 2) with 1 by (rewrite <- ss at 1; field; lra).
  replace (q / sqrt q) with (sqrt q) by (rewrite <- ss at 2; field; lra).
  pose proof (pos_of_sqr_le t q a q0 a0 cs) as t0.
  rewrite ln_sqrt2 by lra.
  assert (e2 : 2 * ln a <= ln t + ln q).
  { rewrite <- ln_mult, <- ln_sqr by lra.
    destruct (Rle_lt_or_eq_dec _ _ cs) as [l|e]; [left|right; now rewrite e].
    apply ln_increasing; [apply pow_lt|]; lra. }
  pose proof (ln_le_sub1 t t0). lra.
Qed.

Lemma sinh_ineq a : 1 <= a -> / a + 2 * ln a <= a.
Proof.
  intros [H|<-]; [|rewrite ln_1, Rinv_1; lra].
  set (f := fun x => x - 1 / x - 2 * ln x).
  set (f' := fun x => 1 - (- 1 / x ^ 2) - 2 * / x).
  destruct (MVT_cor2 f f' 1 a H) as [c [Hc [H1 H2]]].
  { intros x [Hx _]. unfold f, f'.
    apply derivable_pt_lim_minus; [apply derivable_pt_lim_minus|].
    - apply derivable_pt_lim_id.
    - replace (- 1 / x ^ 2) with ((0 * x - 1 * 1) / Rsqr x) by (unfold Rsqr; field; lra).
      apply (derivable_pt_lim_div (fun _ => 1) (fun x => x) x 0 1); [| |lra].
      + apply derivable_pt_lim_const.
      + apply derivable_pt_lim_id.
    - apply (derivable_pt_lim_scal ln 2 x). apply derivable_pt_lim_ln; lra. }
  unfold f, f' in Hc. replace (1 / 1) with 1 in Hc by field. rewrite ln_1 in Hc.
  replace (1 / a) with (/ a) in Hc by (field; lra).
  replace (1 - -1 / c ^ 2 - 2 * / c) with ((1 - / c) ^ 2) in Hc by (field; lra).
  assert (0 <= (1 - / c) ^ 2) by apply pow2_ge_0.
  assert (0 <= (1 - / c) ^ 2 * (a - 1)) by (apply Rmult_le_pos; lra).
  lra.
Qed.

(** the same with the denominator floored at [eps <= 1]: still no worse than the
    current row, for which [a = 1] *)
Lemma ip_real_floor t q eps : 0 < q -> 0 < eps -> eps <= 1 -> 1 <= t * q ->
  sqrt q <= eps ->
  q / eps ^ 2 - 2 * ln (q / eps) <= t.
Proof.
  intros q0 e0 e1 cs le.
  assert (ss : sqrt q * sqrt q = q) by (apply sqrt_sqrt; lra).
  assert (s0 : 0 < sqrt q) by (apply sqrt_lt_R0; lra).
  assert (qe : q <= eps ^ 2) by (simpl; nra).
  set (a := eps ^ 2 / q). set (b := / eps).
  assert (a1 : 1 <= a).
  { unfold a. apply Rmult_le_reg_r with q; [lra|]. field_simplify; lra. }
  assert (b1 : 1 <= b).
  { unfold b. rewrite <- Rinv_1 at 1. apply Rinv_le_contravar; lra. }
  assert (e : q / eps = / (a * b)).
  { unfold a, b. field. lra. }
  assert (e' : q / eps ^ 2 = / a).
  { unfold a. field. lra. }
  assert (ab : 0 < a * b) by (apply Rmult_lt_0_compat; lra).
  rewrite e, e', ln_Rinv, ln_mult by lra.
  assert (ht : a * b ^ 2 <= t).
  { unfold a, b. apply Rmult_le_reg_r with q; [lra|].
    replace (eps ^ 2 / q * (/ eps) ^ 2 * q) with 1 by (field; lra). lra. }
  pose proof (ln_le_sub1 b ltac:(lra)). pose proof (ln_le_sub1 a ltac:(lra)).
  clearbody a b.
  assert (hh : 0 <= (a - 1) * ((b - 1) * (b + 1))) by (repeat apply Rmult_le_pos; lra).
  assert (h : a * b ^ 2 >= a + b ^ 2 - 1) by (simpl; lra).
  assert (hb : b ^ 2 >= 1 + 2 * ln b).
  { assert (b2 : 0 < b ^ 2) by (apply pow_lt; lra). pose proof (ln_le_sub1 (b ^ 2) b2).
    rewrite ln_sqr in *; lra. }
  (* a >= 1/a + 2 ln a *)
  assert (ha : / a + 2 * ln a <= a).
  { exact (sinh_ineq a a1). }
  lra.
Qed.

(** the scale step of iterative source steering *)
Lemma iss_real_floor d eps : 0 <= d -> 0 < eps <= 1 ->
  d / Rmax d eps + ln (Rmax d eps) <= d.
Proof.
  intros Hd [He H1]. destruct (Rle_or_lt d eps) as [H|H].
  - rewrite Rmax_right by lra.
    pose proof (ln_le_sub1 eps He).
    assert (d / eps - d <= 1 - eps).
    { apply Rmult_le_reg_r with eps; [lra|].
      replace ((d / eps - d) * eps) with (d * (1 - eps)) by (field; lra). nra. }
    lra.
  - rewrite Rmax_left by lra. pose proof (ln_le_sub1 d ltac:(lra)).
    replace (d / d) with 1 by (field; lra). lra.
Qed.

Lemma iss_real_id d : 0 < d -> d / d + ln d <= d.
Proof.
  intros H. pose proof (ln_le_sub1 d H). replace (d / d) with 1 by (field; lra). lra.
Qed.

Lemma iss_real_self s d : 0 < d -> 0 < s -> d / d + ln d <= s ^ 2 * d - 2 * ln s.
Proof.
  intros Hd Hs. replace (d / d) with 1 by (field; lra).
  rewrite <- ln_sqr by lra. assert (0 < s ^ 2) by (apply pow_lt; lra).
  pose proof (ln_le_sub1 (s ^ 2 * d) ltac:(apply Rmult_lt_0_compat; lra)).
  rewrite ln_mult in H0 by lra. lra.
Qed.

Lemma iss_real_cross X d d' : 0 <= X -> 0 <= d -> 0 < d' -> d <= d' ->
  0 <= X * (2 / d' - d / d' ^ 2).
Proof.
  intros. apply Rmult_le_pos; [lra|].
  apply Rmult_le_reg_r with (d' ^ 2); [apply pow_lt; lra|].
  replace ((2 / d' - d / d' ^ 2) * d' ^ 2) with (2 * d' - d) by (field; lra). lra.
Qed.

(** the scalar problem solved by a pairwise update *)
Lemma pair_real_opt a0 a1 b0 b1 d l0 l1 :
  0 <= a0 -> 0 <= a1 -> 0 <= b0 -> 0 <= b1 -> 0 < d -> d <= a0 * b1 + a1 * b0 ->
  0 < l0 -> l0 <= l1 ->
  2 - ln l1 <= a0 ^ 2 / l0 + a1 ^ 2 / l1 + (b0 ^ 2 + b1 ^ 2) - 2 * ln d.
Proof.
  intros Ha0 Ha1 Hb0 Hb1 Hd Hle Hl0 Hl.
  set (s := a0 ^ 2 / l0 + a1 ^ 2 / l1). set (t := b0 ^ 2 + b1 ^ 2).
  assert (Hl1 : 0 < l1) by lra.
  assert (Hs : a0 ^ 2 + a1 ^ 2 <= l1 * s).
  { assert (E : l1 * s = a0 ^ 2 + a1 ^ 2 + a0 ^ 2 * ((l1 - l0) / l0))
      by (unfold s; field; lra).
    rewrite E. assert (0 <= (l1 - l0) / l0).
    { apply Rmult_le_pos; [lra|]. apply Rlt_le, Rinv_0_lt_compat; lra. }
    nra. }
  assert (Hd2 : d ^ 2 <= (a0 ^ 2 + a1 ^ 2) * t).
  { unfold t. assert (d ^ 2 <= (a0 * b1 + a1 * b0) ^ 2) by (apply pow_incr; lra).
    assert (E : (a0 ^ 2 + a1 ^ 2) * (b0 ^ 2 + b1 ^ 2) - (a0 * b1 + a1 * b0) ^ 2
                = (a0 * b0 - a1 * b1) ^ 2) by ring.
    pose proof (pow2_ge_0 (a0 * b0 - a1 * b1)). lra. }
  assert (Ht : 0 <= t) by (unfold t; nra).
  assert (Hd3 : d ^ 2 <= l1 * s * t) by nra.
  assert (0 < d ^ 2) by (apply pow_lt; lra).
  assert (Hs0 : 0 <= s) by nra.
  assert (0 < s) by (destruct (Req_dec s 0) as [E|]; [rewrite E in *; nra|lra]).
  assert (0 < t) by (destruct (Req_dec t 0) as [E|]; [rewrite E in *; nra|lra]).
  rewrite <- ln_sqr by lra.
  assert (ln (d ^ 2) <= ln (l1 * s * t)).
  { destruct Hd3 as [Hd3|Hd3]; [apply Rlt_le, ln_increasing; lra|rewrite Hd3; lra]. }
  rewrite !ln_mult in H2 by nra.
  pose proof (ln_le_sub1 s H0). pose proof (ln_le_sub1 t H1). lra.
Qed.
