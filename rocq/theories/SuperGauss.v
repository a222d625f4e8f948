(** Super-Gaussian contrast functions and their quadratic majorisers. *)
From Coq Require Import Reals Lra Psatz.
Local Open Scope R_scope.

(** [dG] is the derivative of [G] on (0, oo), positive, with [dG r / r] non-increasing;
    [G] is continuous at 0. *)
Definition super_gaussian (G dG : R -> R) : Prop :=
  (forall r, 0 < r -> derivable_pt_lim G r (dG r)) /\
  (forall r, 0 < r -> 0 < dG r) /\
  (forall r s, 0 < r -> r <= s -> dG s / s <= dG r / r) /\
  (forall e, 0 < e -> exists d, 0 < d /\ forall r, 0 < r < d -> Rabs (G r - G 0) < e).

Section Major.
Variables (G dG : R -> R) (r0 : R).
Hypotheses (SG : super_gaussian G dG) (r00 : 0 < r0).
Let k := dG r0 / r0.
Let H s := G s - k / 2 * s ^ 2.

Lemma H_deriv s : 0 < s -> derivable_pt_lim H s (dG s - k * s).
Proof.
  intros s0. destruct SG as [D _].
  replace (dG s - k * s) with (dG s - k / 2 * (INR 2 * s ^ 1)) by (simpl; field).
  apply derivable_pt_lim_minus; [apply D; lra|].
  apply (derivable_pt_lim_scal (fun s => s ^ 2)). apply (derivable_pt_lim_pow s 2).
Qed.
Lemma H_pos s : 0 < s -> H s <= H r0.
Proof.
  intros s0. destruct SG as [_ [P [M _]]].
  destruct (Rtotal_order s r0) as [h|[->|h]]; [|lra|].
  - destruct (MVT_cor2 H (fun s => dG s - k * s) s r0 h) as [c [e [c1 c2]]].
    { intros; apply H_deriv; lra. }
    assert (m : k <= dG c / c) by (apply M; lra).
    assert (dG c - k * c = c * (dG c / c - k)) by (field; lra).
    assert (0 <= c * (dG c / c - k)) by (apply Rmult_le_pos; lra).
    assert (0 <= (dG c - k * c) * (r0 - s)) by (apply Rmult_le_pos; lra). lra.
  - destruct (MVT_cor2 H (fun s => dG s - k * s) r0 s h) as [c [e [c1 c2]]].
    { intros; apply H_deriv; lra. }
    assert (m : dG c / c <= k) by (apply M; lra).
    assert (dG c - k * c = - (c * (k - dG c / c))) by (field; lra).
    assert (0 <= c * (k - dG c / c)) by (apply Rmult_le_pos; lra).
    assert (0 <= c * (k - dG c / c) * (s - r0)) by (apply Rmult_le_pos; lra).
    assert ((dG c - k * c) * (s - r0) = - (c * (k - dG c / c) * (s - r0))) by (rewrite H0; ring).
    lra.
Qed.
Lemma H_all s : 0 <= s -> H s <= H r0.
Proof.
  intros [s0|<-]; [now apply H_pos|].
  destruct (Rle_or_lt (H 0) (H r0)) as [h|h]; [exact h|].
  destruct SG as [_ [P [_ C]]].
  assert (k0 : 0 < k) by (unfold k; apply Rdiv_lt_0_compat; [apply P; lra|lra]).
  set (e := H 0 - H r0).
  assert (e0 : 0 < e) by (unfold e; lra).
  destruct (C (e / 2)) as [d [d0 hd]]; [lra|].
  assert (exists s, 0 < s < d /\ k / 2 * s ^ 2 < e / 2) as (s & s1 & s2).
  { set (m := Rmin (Rmin (d / 2) 1) (e / (2 * k))).
    assert (q : 0 < e / (2 * k)) by (apply Rdiv_lt_0_compat; lra).
    assert (m0 : 0 < m) by (unfold m; repeat apply Rmin_glb_lt; lra).
    assert (m <= d / 2 /\ m <= 1 /\ m <= e / (2 * k)) as [m1 [m2 m3]].
    { unfold m. repeat split.
      - eapply Rle_trans; apply Rmin_l.
      - eapply Rle_trans; [apply Rmin_l|apply Rmin_r].
      - apply Rmin_r. }
    exists m. split; [lra|].
    assert (m ^ 2 <= m) by (simpl; nra).
    assert (k / 2 * m ^ 2 <= k / 2 * m) by (apply Rmult_le_compat_l; lra).
    assert (k / 2 * m <= k / 2 * (e / (2 * k))) by (apply Rmult_le_compat_l; lra).
    replace (k / 2 * (e / (2 * k))) with (e / 4) in * by (field; lra). lra. }
  pose proof (hd s s1) as a. apply Rabs_def2 in a.
  pose proof (H_pos s (proj1 s1)) as b.
  unfold H in *. simpl in *. unfold e in *. lra.
Qed.

(** the quadratic majoriser of [G] touching at [r0] *)
Lemma super_gaussian_majoriser r : 0 <= r -> G r <= G r0 + dG r0 / (2 * r0) * (r ^ 2 - r0 ^ 2).
Proof.
  intros h. pose proof (H_all r h) as a. unfold H, k in a.
  replace (dG r0 / (2 * r0)) with (dG r0 / r0 / 2) by (field; lra). lra.
Qed.
End Major.

Lemma laplace_super_gaussian : super_gaussian (fun r => 2 * r) (fun _ => 2).
Proof.
  repeat split.
  - intros r _. assert (e2 : 2 * 1 = 2) by ring. rewrite <- e2 at 1.
    apply (derivable_pt_lim_scal (fun r => r)). apply derivable_pt_lim_id.
  - intros; lra.
  - intros r s r0 rs. unfold Rdiv. apply Rmult_le_compat_l; [lra|].
    apply Rinv_le_contravar; lra.
  - intros e e0. exists (e / 2). split; [lra|]. intros r hr.
    replace (2 * r - 2 * 0) with (2 * r) by ring. rewrite Rabs_pos_eq; lra.
Qed.

Lemma gauss_super_gaussian a v : 0 < v -> super_gaussian (fun r => a + r ^ 2 / v) (fun r => 2 * r / v).
Proof.
  intros v0. repeat split.
  - intros r _.
    replace (2 * r / v) with (0 + / v * (INR 2 * r ^ 1)) by (simpl; field; lra).
    apply derivable_pt_lim_plus; [apply derivable_pt_lim_const|].
    intros e e0. destruct (derivable_pt_lim_scal (fun r => r ^ 2) (/ v) r _ (derivable_pt_lim_pow r 2) e e0) as [d hd].
    exists d. intros h h0 hh. specialize (hd h h0 hh). unfold mult_real_fct in hd.
    unfold Rdiv in *. now rewrite !(Rmult_comm (_ ^ 2)).
  - intros; apply Rdiv_lt_0_compat; lra.
  - intros r s r0 rs. right. field; lra.
  - intros e e0. exists (Rmin 1 (e * v)).
    assert (0 < e * v) by (apply Rmult_lt_0_compat; lra).
    split; [apply Rmin_glb_lt; lra|]. intros r [h1 h2].
    assert (r < 1) by (eapply Rlt_le_trans; [apply h2|apply Rmin_l]).
    assert (r < e * v) by (eapply Rlt_le_trans; [apply h2|apply Rmin_r]).
    replace (a + r ^ 2 / v - (a + 0 ^ 2 / v)) with (r ^ 2 / v) by (field; lra).
    assert (0 < / v) by (apply Rinv_0_lt_compat; lra).
    assert (0 <= r ^ 2) by (apply pow2_ge_0).
    rewrite Rabs_pos_eq by (apply Rmult_le_pos; lra).
    assert (r ^ 2 < e * v) by (simpl; nra).
    replace e with (e * v / v) by (field; lra).
    apply Rmult_lt_compat_r; lra.
Qed.

(** the floored Laplace weight: [a = max(r0, eps / 2)] *)
Lemma laplace_floor_gap eps r0 r : 0 < eps -> 0 <= r0 ->
  2 * r <= 2 * r0 + 2 / Rmax (2 * r0) eps * (r ^ 2 - r0 ^ 2) + eps / 2.
Proof.
  intros e0 h. set (b := Rmax (2 * r0) eps).
  assert (b0 : 0 < b) by (eapply Rlt_le_trans; [apply e0|apply Rmax_r]).
  assert (hb : b = 2 * r0 \/ (b = eps /\ 2 * r0 <= eps)).
  { unfold b. destruct (Rle_or_lt eps (2 * r0)); [left; apply Rmax_left; lra|right; split; [apply Rmax_right|]; lra]. }
  assert (i : 0 < / b) by (apply Rinv_0_lt_compat; lra).
  assert (0 <= (b / 2 - r) ^ 2 * (2 / b)).
  { apply Rmult_le_pos; [apply pow2_ge_0|]. unfold Rdiv. lra. }
  replace ((b / 2 - r) ^ 2 * (2 / b)) with (b / 2 - 2 * r + 2 / b * r ^ 2) in * by (field; lra).
  assert (b / 2 + 2 / b * r0 ^ 2 - 2 * r0 <= eps / 2).
  { destruct hb as [e|[e l]].
    - replace (2 / b * r0 ^ 2) with (b / 2); [lra|]. rewrite e. field. lra.
    - assert (2 / b * r0 ^ 2 <= r0); [|lra].
      apply Rmult_le_reg_l with b; [lra|].
      replace (b * (2 / b * r0 ^ 2)) with (2 * r0 * r0) by (field; lra). apply Rmult_le_compat_r; lra. }
  lra.
Qed.

(** [n ln v + s / v] is least at [v = s / n] *)
Lemma variance_opt n s v : 0 < n -> 0 < s -> 0 < v ->
  n * ln (s / n) + s / (s / n) <= n * ln v + s / v.
Proof.
  intros n0 s0 v0.
  assert (w0 : 0 < s / n) by (apply Rdiv_lt_0_compat; lra).
  assert (x0 : 0 < s / n / v) by (apply Rdiv_lt_0_compat; lra).
  assert (h : ln (s / n / v) <= s / n / v - 1).
  { pose proof (exp_ineq1_le (ln (s / n / v))). rewrite exp_ln in *; lra. }
  unfold Rdiv at 1 in h. rewrite ln_mult, ln_Rinv in h; [|lra|lra|apply Rinv_0_lt_compat; lra].
  assert (n * (ln (s / n) - ln v) <= n * (s / n / v - 1)) by (apply Rmult_le_compat_l; lra).
  replace (n * (s / n / v - 1)) with (s / v - n) in * by (field; lra).
  replace (s / (s / n)) with n by (field; lra). lra.
Qed.

(** [2 w - 2 ln w] exceeds its value 2 at [w = 1] everywhere else *)
Lemma w_ln_strict w : 1 < w -> 2 < 2 * w - 2 * ln w.
Proof.
  intros h. assert (ln w < w - 1); [|lra].
  assert (n : ln w <> 0) by (intro e; assert (0 < ln w) by (rewrite <- ln_1; apply ln_increasing; lra); lra).
  pose proof (exp_ineq1 (ln w) n). rewrite exp_ln in *; lra.
Qed.
