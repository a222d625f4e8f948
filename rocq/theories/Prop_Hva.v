(** C70: the mask of harmonic vector analysis. *)
From Coq Require Import Reals Lra Psatz.
From mathcomp Require Import all_ssreflect all_algebra.
From mathcomp Require Import zify.
From Verif Require Import RStruct MxC CxR NpLin RealLemmas SpatialIP Hva HvaProofs.
Import Order.TTheory GRing.Theory Num.Theory.
Set Implicit Arguments.
Unset Strict Implicit.
Unset Printing Implicit Defensive.
Local Open Scope ring_scope.

Section C70.
Variables (N M : nat) (fl : R -> R) (mask_iter : nat).
Hypothesis M0 : (0 < M)%N.
Notation frame := ('I_N -> 'I_M.+1 -> Cx).
Implicit Types (y : frame) (gamma : R).
Notation mask := (hva_mask fl mask_iter).

Lemma vpow_gt0 y n i : (0 < vpow fl mask_iter y n i)%coqR. Proof. exact: exp_pos. Qed.
Lemma vsum_ge y (n : 'I_N) i : (vpow fl mask_iter y n i <= (\sum_m vpow fl mask_iter y m i)%R)%coqR.
Proof.
rewrite (bigD1 n) //=.
have : (0 <= (\sum_(m | m != n) vpow fl mask_iter y m i)%R)%coqR.
  by apply: sumR_ge0 => m _; apply: Rlt_le; apply: vpow_gt0.
by toR; move: (\sum_(_ | _) _) => s; lra.
Qed.
Lemma vsum_gt0 y (n : 'I_N) i : (0 < (\sum_m vpow fl mask_iter y m i)%R)%coqR.
Proof. exact: Rlt_le_trans (vpow_gt0 y n i) (vsum_ge y n i). Qed.
Lemma share_range y n i : (0 < vpow fl mask_iter y n i / (\sum_m vpow fl mask_iter y m i)%R <= 1)%coqR.
Proof.
have s0 := vsum_gt0 y n i; split; first by apply: Rdiv_lt_0_compat => //; exact: vpow_gt0.
apply: (Rmult_le_reg_r _ _ _ s0); rewrite /Rdiv Rmult_assoc Rinv_l ?Rmult_1_r ?Rmult_1_l; last lra.
exact: vsum_ge.
Qed.

(** the mask lies in (0, 1]: masking never amplifies *)
Theorem C70_range gamma y n i : (0 <= gamma)%coqR -> (0 < mask gamma y n i <= 1)%coqR.
Proof.
move=> g0; split; first exact: exp_pos.
have [p0 p1] := share_range y n i; rewrite /hva_mask -(Rpower_1 1); last lra.
have -> : Rpower 1 1 = Rpower 1 gamma by rewrite /Rpower ln_1 !Rmult_0_r.
by apply: Rle_Rpower_l.
Qed.
Theorem C70_bound gamma y n i : (0 <= gamma)%coqR -> (cabs (c (mask gamma y n i) * y n i)%R <= cabs (y n i))%coqR.
Proof.
move=> g0; have [p0 p1] := C70_range y n i g0; rewrite cabsM cabs_c Rabs_pos_eq; last lra.
by have := cabs_ge0 (y n i); move: (cabs _) p0 p1 => a; rewrite -RmulE; nra.
Qed.
(** the undamped masks of all sources sum to one in every bin *)
Theorem C70_partition gamma y i : gamma <> 0%coqR -> (0 < N)%N ->
  \sum_n Rpower (mask gamma y n i) (/ gamma)%coqR = 1%coqR.
Proof.
move=> g0 N0; have s0 := vsum_gt0 y (Ordinal N0) i.
transitivity (\sum_n (vpow fl mask_iter y n i / (\sum_m vpow fl mask_iter y m i)%R)%coqR).
  apply: eq_bigr => n _; rewrite /hva_mask Rpower_mult Rinv_r // Rpower_1 //.
  by have [] := share_range y n i.
rewrite /Rdiv; under eq_bigr do rewrite RmulE; rewrite -mulr_suml -RmulE Rinv_r //.
by move: s0; move: (\sum_m _) => s; lra.
Qed.
End C70.

(** gains of the sources multiply the powers, so a common gain leaves the mask unchanged *)
Section Gain.
Variables (N M : nat) (mask_iter : nat).
Hypothesis M0 : (0 < M)%N.
Notation frame := ('I_N -> 'I_M.+1 -> Cx).
Lemma zeta_gain fl (a : 'I_N -> Cx) (y : frame) :
  (forall n i, [/\ (0 < cabs (a n))%coqR, (0 < fl (cabs (y n i)))%coqR & fl (cabs (a n * y n i)) = (cabs (a n) * fl (cabs (y n i)))%coqR]) ->
  forall n, [/\ forall i, zeta fl (fun n i => a n * y n i) n i = (ln (cabs (a n)) + zeta fl y n i)%coqR,
     zeta_mean fl (fun n i => a n * y n i) n = (ln (cabs (a n)) + zeta_mean fl y n)%coqR &
     forall i, xi fl mask_iter (fun n i => a n * y n i) n i = xi fl mask_iter y n i].
Proof.
move=> h n.
have z i : zeta fl (fun n i => a n * y n i) n i = (ln (cabs (a n)) + zeta fl y n i)%coqR.
  by have [a0 y0 e] := h n i; rewrite /zeta e ln_mult.
have i0 : (0 < INR M.+1)%coqR by apply: lt_0_INR; lia.
have zm : zeta_mean fl (fun n i => a n * y n i) n = (ln (cabs (a n)) + zeta_mean fl y n)%coqR.
  rewrite /zeta_mean; under eq_bigr do rewrite z RaddE.
  have -> : \sum_(i < M.+1) (ln (cabs (a n)) + zeta fl y n i) = (INR M.+1 * ln (cabs (a n)) + \sum_i zeta fl y n i)%R.
    by rewrite big_split sumr_const card_ord -[in LHS]mulr_natl RnatE.
  toR; move: (\sum_i _) (ln _) (INR M.+1) i0 => s l m i0; Rfield; lra.
have r i : rho fl (fun n i => a n * y n i) n i = rho fl y n i by rewrite /rho z zm; lra.
have v k : nu fl (fun n i => a n * y n i) n k = nu fl y n k.
  by rewrite /nu /irfft_backward /irfft_forward; congr (_ / _)%coqR; apply: eq_bigr => i _; rewrite r.
by split=> // i; rewrite /xi /irfft_forward; apply: eq_bigr => k _; rewrite v.
Qed.
Lemma vpow_gain fl (a : 'I_N -> Cx) (y : frame) n i :
  (forall n i, [/\ (0 < cabs (a n))%coqR, (0 < fl (cabs (y n i)))%coqR & fl (cabs (a n * y n i)) = (cabs (a n) * fl (cabs (y n i)))%coqR]) ->
  vpow fl mask_iter (fun n i => a n * y n i) n i = (cabs (a n) ^ 2 * vpow fl mask_iter y n i)%coqR.
Proof.
move=> h; have [a0 _ _] := h n i; have [_ zm x] := zeta_gain h n; rewrite /vpow zm x.
have -> : (2 * (xi fl mask_iter y n i + (ln (cabs (a n)) + zeta_mean fl y n)) =
   (ln (cabs (a n)) + ln (cabs (a n))) + 2 * (xi fl mask_iter y n i + zeta_mean fl y n))%coqR by lra.
by rewrite exp_plus exp_plus exp_ln //; toR; rewrite /= Rmult_1_r.
Qed.

Definition unfloored (fl : R -> R) (x : R) := (0 < x)%coqR /\ fl x = x.
Theorem C70_gain fl gamma (a : 'I_N -> Cx) (y : frame) n i :
  (forall n i, a n != 0 /\ unfloored fl (cabs (y n i)) /\ unfloored fl (cabs (a n * y n i))) ->
  hva_mask fl mask_iter gamma (fun n i => a n * y n i) n i =
  Rpower (cabs (a n) ^ 2 * vpow fl mask_iter y n i / (\sum_m (cabs (a m) ^ 2 * vpow fl mask_iter y m i)%coqR)%R)%coqR gamma.
Proof.
move=> h; rewrite /hva_mask.
have h' m j : [/\ (0 < cabs (a m))%coqR, (0 < fl (cabs (y m j)))%coqR & fl (cabs (a m * y m j)) = (cabs (a m) * fl (cabs (y m j)))%coqR].
  have [a0 [[y0 e] [_ e']]] := h m j; split; rewrite ?e ?e' //; first exact: cabs_gt0.
  by rewrite cabsM.
by rewrite vpow_gain //; congr (Rpower (_ / _)%coqR _); apply: eq_bigr => m _; rewrite vpow_gain.
Qed.
Theorem C70_scale fl gamma (a : Cx) (y : frame) n i : a != 0 ->
  (forall n i, unfloored fl (cabs (y n i)) /\ unfloored fl (cabs (a * y n i))) ->
  hva_mask fl mask_iter gamma (fun n i => a * y n i) n i = hva_mask fl mask_iter gamma y n i.
Proof.
move=> a0 h; rewrite (@C70_gain fl gamma (fun _ => a)) // /hva_mask.
congr (Rpower _ _); have p0 : (0 < cabs a ^ 2)%coqR by apply: pow_lt; apply: cabs_gt0.
under eq_bigr do rewrite RmulE; rewrite -mulr_sumr -RmulE.
have := vsum_gt0 fl mask_iter y n i; move: (\sum_m _) (vpow _ _ _ _ _) (cabs a ^ 2)%coqR p0 => s v p p0 s0; Rfield; lra.
Qed.

(** cepstral coefficients that are zero or at least one are kept: then the mask is the
    (damped) Wiener mask of the floored amplitudes *)
Lemma cosine_shrink1 : cosine_shrink 1 = 1%coqR.
Proof. by rewrite /cosine_shrink Rmult_1_r cos_PI; lra. Qed.
Lemma varsigma1 k x : (1 <= x)%coqR -> varsigma k x = 1%coqR.
Proof.
move=> h; rewrite /varsigma Rmin_left //; elim: k => //= k ->; exact: cosine_shrink1.
Qed.
Theorem C70_wiener fl gamma (y : frame) n i : (forall n i, (0 < fl (cabs (y n i)))%coqR) ->
  (forall n k, nu fl y n k = 0%coqR \/ (1 <= nu fl y n k)%coqR) ->
  hva_mask fl mask_iter gamma y n i =
  Rpower (fl (cabs (y n i)) ^ 2 / (\sum_m (fl (cabs (y m i)) ^ 2)%coqR)%R)%coqR gamma.
Proof.
move=> p0 h.
have e m : vpow fl mask_iter y m i = (fl (cabs (y m i)) ^ 2)%coqR.
  rewrite /vpow; have -> : xi fl mask_iter y m i = rho fl y m i.
    rewrite -(irfft_inverse M0 (rho fl y m) i) /xi /irfft_forward; apply: eq_bigr => k _.
    rewrite -/(nu fl y m k); congr (_ * _ * _)%coqR.
    by case: (h m k) => [->|h1]; [rewrite Rmult_0_r|rewrite varsigma1 // Rmult_1_l].
  rewrite /rho /zeta; have -> : (2 * (ln (fl (cabs (y m i))) - zeta_mean fl y m + zeta_mean fl y m) =
    ln (fl (cabs (y m i))) + ln (fl (cabs (y m i))))%coqR by lra.
  by rewrite exp_plus exp_ln // /= Rmult_1_r.
by rewrite /hva_mask e; congr (Rpower (_ / _)%coqR _); apply: eq_bigr => m _.
Qed.
End Gain.

(** ** Calls of [mask_fn] *)
Section Call.
Variables (N M mask_iter : nat).
Notation frame := ('I_N -> 'I_M.+1 -> Cx).
(** with the default kind of floor the mask is defined for every input of at least two bins,
    and a given attenuation is used and kept *)
Theorem C70_defined eps att (y : frame) : (0 < eps)%coqR -> (0 < M)%N -> (0 < N)%N ->
  mask_fn (max_flooring eps) mask_iter att y =
  let gamma := if att is Some g then g else (1 / INR N)%coqR in
  Some (hva_mask (max_flooring eps) mask_iter gamma y, Some gamma).
Proof.
move=> e0 M0 N0; rewrite /mask_fn -!lt0n M0 N0 /=; case: ifP => // /negP[].
apply/forallP => n; apply/forallP => i; apply/RltbP.
exact: Rlt_le_trans e0 (Rmax_r _ _).
Qed.
Theorem C70_single_bin fl att (y : 'I_N -> 'I_1 -> Cx) : mask_fn fl mask_iter att y = None.
Proof. by []. Qed.
End Call.

(** the default attenuation is [1 / n_sources]: the [n_sources]-th powers of the masks sum to one *)
Theorem C70_default N M eps mask_iter (y : 'I_N -> 'I_M.+1 -> Cx) : (0 < eps)%coqR -> (0 < M)%N -> (0 < N)%N ->
  exists m a, mask_fn (max_flooring eps) mask_iter None y = Some (m, a) /\
  forall i, \sum_n (m n i ^ N)%coqR = 1%coqR.
Proof.
move=> e0 M0 N0; rewrite C70_defined //; do 2 eexists; split; first by [].
have i0 : (0 < INR N)%coqR by apply: lt_0_INR; apply/ssrnat.ltP.
move=> i; have P := @C70_partition N M (max_flooring eps) mask_iter (1 / INR N)%coqR y i.
rewrite -[RHS]P //; last by have := Rinv_0_lt_compat _ i0; rewrite /Rdiv; lra.
apply: eq_bigr => n _; rewrite -Rpower_pow; last by exact: exp_pos.
by congr (Rpower _ _); Rfield; lra.
Qed.

(** *** Disagreement: the attenuation chosen for the first call is kept, so on a later call with
    another number of sources it is not [1 / n_sources]: an object gives another mask than a
    fresh one *)
Lemma equal_mask N M fl mask_iter gamma (x : Cx) n i : (0 < N)%N ->
  hva_mask fl mask_iter gamma (fun (_ : 'I_N) (_ : 'I_M.+1) => x) n i = Rpower (/ INR N) gamma.
Proof.
move=> N0; rewrite /hva_mask; congr (Rpower _ _).
set v := vpow _ _ _ n i; have v0 : (0 < v)%coqR by exact: exp_pos.
have -> : \sum_m vpow fl mask_iter (fun (_ : 'I_N) (_ : 'I_M.+1) => x) m i = (INR N * v)%coqR.
  rewrite RmulE RnatE mulr_natl -[in RHS](card_ord N) -sumr_const; apply: eq_bigr => m _; by [].
have i0 : (0 < INR N)%coqR by apply: lt_0_INR; apply/ssrnat.ltP.
by Rfield; lra.
Qed.
Theorem C70_attenuation_refuted : exists (y2 : 'I_2 -> 'I_2 -> Cx) (y3 : 'I_3 -> 'I_2 -> Cx) m2 a m3 a3 m3' a3',
  [/\ mask_fn (max_flooring 1) 1 None y2 = Some (m2, a), mask_fn (max_flooring 1) 1 a y3 = Some (m3, a3),
      mask_fn (max_flooring 1) 1 None y3 = Some (m3', a3') & m3 0 0 <> m3' 0 0].
Proof.
exists (fun _ _ => 1), (fun _ _ => 1); rewrite !C70_defined //; try lra.
do 6 eexists; split; [by []|by rewrite C70_defined //; lra|by []|].
rewrite !equal_mask // => /(congr1 ln); rewrite !ln_exp ln_Rinv.
  have : (0 < ln (INR 3))%coqR by rewrite -ln_1; apply: ln_increasing => /=; lra.
  by move: (ln _) => l; rewrite /=; lra.
by rewrite /=; lra.
Qed.

(** *** the cosine shrinkage *)
Theorem C70_shrink k x : (0 <= varsigma k.+1 x <= 1)%coqR.
Proof.
rewrite /varsigma iterS /cosine_shrink; have := COS_bound (PI * iter k cosine_shrink (Rmin 1 x))%coqR.
by move: (cos _) => z; lra.
Qed.
(** Disagreement: it is not a shrinkage for negative coefficients, a larger one can be removed
    where a smaller one is kept *)
Theorem C70_shrink_refuted k : exists a b, [/\ (Rabs a < Rabs b)%coqR,
  (varsigma k.+1 a * a = a)%coqR & (varsigma k.+1 b * b = 0)%coqR].
Proof.
have it x z : cosine_shrink x = z -> cosine_shrink z = z -> iter k.+1 cosine_shrink x = z.
  by move=> e1 e2; rewrite iterSr e1; elim: (k) => //= j ->.
have s0 : cosine_shrink 0 = 0%coqR by rewrite /cosine_shrink Rmult_0_r cos_0; lra.
exists (-1)%coqR, (-2)%coqR; rewrite !Rabs_left; try lra; split; first lra.
  rewrite /varsigma Rmin_right; last lra.
  rewrite (it _ 1%coqR) ?cosine_shrink1 //; first lra.
  by rewrite /cosine_shrink (_ : (PI * -1 = - PI)%coqR) ?cos_neg ?cos_PI; lra.
rewrite /varsigma Rmin_right; last lra.
rewrite (it _ 0%coqR) // ?Rmult_0_l //.
by rewrite /cosine_shrink (_ : (PI * -2 = - (2 * PI))%coqR) ?cos_neg ?cos_2PI; lra.
Qed.

(** ** Instance: two sources, two bins, amplitudes e and 1/e for the first source and 1 for the second *)
Definition z_ex (n : 'I_2) (i : 'I_2) : R := if n == 0 then if i == 0 then 1%coqR else (-1)%coqR else 0%coqR.
Definition y_ex (n : 'I_2) (i : 'I_2) : Cx := c (exp (z_ex n i)).
Lemma y_ex_abs n i : cabs (y_ex n i) = exp (z_ex n i).
Proof. by rewrite cabs_c Rabs_pos_eq //; apply: Rlt_le; apply: exp_pos. Qed.
Example C70_instance k gamma : hva_mask identity_fl k gamma y_ex 0 0 = Rpower (exp 2 / (exp 2 + 1)) gamma.
Proof.
have z n i : zeta identity_fl y_ex n i = z_ex n i by rewrite /zeta /identity_fl y_ex_abs ln_exp.
have zm n : zeta_mean identity_fl y_ex n = 0%coqR.
  by rewrite /zeta_mean big_ord_recl big_ord_recl big_ord0 addr0 !z /z_ex; case: ifP => _ /=; toR; lra.
have r n i : rho identity_fl y_ex n i = z_ex n i by rewrite /rho z zm; lra.
rewrite C70_wiener // => [|n i|n j]; last 1 first.
- rewrite /nu /irfft_backward /irfft_forward big_ord_recl big_ord_recl big_ord0 addr0 !r /rwt /z_ex /=.
  case: ifP => _; last by left; toR; rewrite /Rdiv; lra.
  have [->|->] : j = 0 \/ j = 1.
    by case: j => [[|[|//]] h]; [left|right]; apply: val_inj.
  + by left; rewrite /= Rmult_0_r /Rdiv !Rmult_0_l cos_0; toR; lra.
  + right; rewrite /= !Rmult_1_r /Rdiv !Rmult_0_r !Rmult_0_l Rinv_1 Rmult_1_r cos_0 cos_PI; toR; lra.
- congr (Rpower _ _); rewrite /identity_fl big_ord_recl big_ord_recl big_ord0 addr0 !y_ex_abs /z_ex /= exp_0 -RaddE.
  have -> : exp 2 = (exp 1 * (exp 1 * 1))%coqR by rewrite Rmult_1_r -exp_plus; congr exp; lra.
  by congr (_ / (_ + _))%coqR; lra.
- by rewrite /identity_fl y_ex_abs; apply: exp_pos.
Qed.

Print Assumptions C70_range.
Print Assumptions C70_partition.
Print Assumptions C70_gain.
Print Assumptions C70_scale.
Print Assumptions C70_wiener.
Print Assumptions C70_defined.
Print Assumptions C70_attenuation_refuted.
Print Assumptions C70_shrink_refuted.
