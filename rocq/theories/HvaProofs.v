(** The cosine transform of hva.py is its own inverse. *)
From Coq Require Import Reals Lra Psatz.
From mathcomp Require Import all_ssreflect all_algebra.
From mathcomp Require Import zify.
From Verif Require Import RStruct MxC CxR NpLin RealLemmas Hva.
Import Order.TTheory GRing.Theory Num.Theory.
Set Implicit Arguments.
Unset Strict Implicit.
Unset Printing Implicit Defensive.
Local Open Scope ring_scope.

Lemma INR_mul a b : INR (a * b)%N = (INR a * INR b)%coqR. Proof. by rewrite -multE mult_INR. Qed.
Lemma INR_add a b : INR (a + b)%N = (INR a + INR b)%coqR. Proof. by rewrite -plusE plus_INR. Qed.
Lemma INR_sub a b : (b <= a)%N -> INR (a - b)%N = (INR a - INR b)%coqR.
Proof. by move=> /ssrnat.leP h; rewrite -minusE minus_INR. Qed.
Lemma INR2 : INR 2 = 2%coqR. Proof. by rewrite /=; lra. Qed.
Lemma sin_nPI m : sin (INR m * PI)%coqR = 0%coqR.
Proof.
elim: m => [|m IH]; first by rewrite /= Rmult_0_l sin_0.
have -> : (INR m.+1 * PI = INR m * PI + PI)%coqR by rewrite S_INR; lra.
by rewrite neg_sin IH; lra.
Qed.
(** partial sums of cosines *)
Lemma cos_sum n th : (2 * sin (th / 2) * (\sum_(k < n.+1) cos (INR k * th))%R =
  sin ((INR n + / 2) * th) + sin (th / 2))%coqR.
Proof.
elim: n => [|n IH].
  rewrite big_ord_recl big_ord0 addr0 /= Rmult_0_l cos_0.
  have -> : ((0 + / 2) * th = th / 2)%coqR by lra.
  lra.
have -> : \sum_(k < n.+2) cos (INR k * th)%coqR = (\sum_(k < n.+1) cos (INR k * th)%coqR + cos (INR n.+1 * th)%coqR)%R.
  exact: big_ord_recr.
rewrite -RaddE Rmult_plus_distr_l IH.
have e1 : ((INR n.+1 + / 2) * th = INR n.+1 * th + th / 2)%coqR by lra.
have e2 : ((INR n + / 2) * th = INR n.+1 * th - th / 2)%coqR by rewrite S_INR; lra.
rewrite e1 e2 sin_plus sin_minus; lra.
Qed.

Section Dct.
Variable M : nat.
Hypothesis M0 : (0 < M)%N.
Lemma IM0 : (0 < INR M)%coqR. Proof. by apply: lt_0_INR; apply/ssrnat.ltP. Qed.

Lemma rwt_split (f : nat -> R) : (\sum_(k < M.+1) (rwt M k * f k)%coqR =
  2 * (\sum_(k < M.+1) f k)%R - f 0%N - f M)%coqR.
Proof.
have -> : \sum_(k < M.+1) (rwt M k * f k)%coqR =
   \sum_(k < M.+1) (2%coqR * f k - (if k == ord0 then f k else 0) - (if k == ord_max then f k else 0))%R.
  apply: eq_bigr => k _; rewrite /rwt -!val_eqE /=; toR.
  by case: (eqVneq (k : nat) 0%N) => [e|_] /=; case: eqP => [e'|_]; try lra; have := M0; lia.
by rewrite !sumrB -mulr_sumr -!big_mkcond !big_pred1_eq; toR.
Qed.

Lemma cos_full m : (m < 2 * M)%N -> (0 < m)%N ->
  \sum_(k < M.+1) (rwt M k * cos (INR k * (PI * INR m / INR M)))%coqR = 0%coqR.
Proof.
move=> lm m0; rewrite (rwt_split (fun k => cos (INR k * (PI * INR m / INR M))%coqR)).
have i0 := IM0; set th := (PI * INR m / INR M)%coqR.
have im0 : (0 < INR m)%coqR by apply: lt_0_INR; apply/ssrnat.ltP.
have lt : (INR m < 2 * INR M)%coqR.
  have := lt_INR _ _ (ssrnat.ltP lm); by rewrite INR_mul INR2.
have s0 : (0 < sin (th / 2))%coqR.
  have p0 := PI_RGT_0.
  have e : (th / 2 = PI * (INR m / (2 * INR M)))%coqR by rewrite /th; Rfield; lra.
  have q0 : (0 < INR m / (2 * INR M) < 1)%coqR.
    split; first by apply: Rdiv_lt_0_compat; lra.
    by apply: (Rmult_lt_reg_r (2 * INR M)); [lra|]; rewrite /Rdiv Rmult_assoc Rinv_l; lra.
  by apply: sin_gt_0; rewrite e; nra.
have e1 : (INR M * th = INR m * PI)%coqR by rewrite /th; Rfield; lra.
have := cos_sum M th.
have -> : ((INR M + / 2) * th = INR m * PI + th / 2)%coqR by rewrite -e1; lra.
rewrite sin_plus sin_nPI e1 /= !Rmult_0_l cos_0.
move: (\sum_(_ < _) _) (sin (th / 2)) s0 (cos (INR m * PI)) => S s s0 q h.
have : (s * (2 * S - 1 - q) = 0)%coqR by lra.
by case/Rmult_integral; lra.
Qed.

Lemma cos_zero m : (m = 0 \/ m = 2 * M)%N ->
  \sum_(k < M.+1) (rwt M k * cos (INR k * (PI * INR m / INR M)))%coqR = (2 * INR M)%coqR.
Proof.
move=> hm; have i0 := IM0.
have c1 k : cos (INR k * (PI * INR m / INR M))%coqR = 1%coqR.
  case: hm => ->; first by rewrite /= /Rdiv Rmult_0_r Rmult_0_l Rmult_0_r cos_0.
  have -> : (INR k * (PI * INR (2 * M) / INR M) = 0 + 2 * INR k * PI)%coqR.
    by rewrite INR_mul INR2; Rfield; lra.
  by rewrite cos_period cos_0.
rewrite (rwt_split (fun k => cos (INR k * (PI * INR m / INR M))%coqR)) !c1.
under eq_bigr do rewrite c1.
rewrite sumr_const card_ord -mulr_natl -RnatE R1E mulr1 S_INR; toR; lra.
Qed.

Lemma rwt_pos i : (0 < rwt M i)%coqR. Proof. by rewrite /rwt; case: ifP; lra. Qed.

(** discrete orthogonality *)
Lemma orthogonal (i j : 'I_M.+1) :
  \sum_(k < M.+1) (rwt M k * (cos (PI * INR (i * k) / INR M) * cos (PI * INR (k * j) / INR M)))%coqR =
  if i == j then (2 * INR M / rwt M i)%coqR else 0%coqR.
Proof.
wlog ij : i j / (j <= i)%N => [wl|].
  case: (leqP j i) => [|ji]; first exact: wl.
  have := wl j i (ltnW ji); rewrite eq_sym => E.
  rewrite -[LHS]/(\sum_k _); transitivity (if i == j then (2 * INR M / rwt M j)%coqR else 0%coqR); last by case: eqP => // ->.
  rewrite -E; apply: eq_bigr => k _; rewrite [(i * k)%N]mulnC [(k * j)%N]mulnC; congr (_ * _)%coqR; exact: Rmult_comm.
have i0 := IM0.
pose S m := \sum_(k < M.+1) (rwt M k * cos (INR k * (PI * INR m / INR M)))%coqR.
have -> : \sum_(k < M.+1) (rwt M k * (cos (PI * INR (i * k) / INR M) * cos (PI * INR (k * j) / INR M)))%coqR =
   ((S (i + j)%N + S (i - j)%N) / 2)%coqR.
  rewrite /S /Rdiv RaddE -big_split RmulE mulr_suml; apply: eq_bigr => k _ /=.
  have -> : (INR k * (PI * INR (i + j) * / INR M) = PI * INR (i * k) / INR M + PI * INR (k * j) / INR M)%coqR.
    by rewrite INR_add !INR_mul; Rfield; lra.
  have -> : (INR k * (PI * INR (i - j) * / INR M) = PI * INR (i * k) / INR M - PI * INR (k * j) / INR M)%coqR.
    by rewrite INR_sub // !INR_mul; Rfield; lra.
  rewrite cos_plus cos_minus; toR; rewrite -/(Rdiv _ _).
  set a := cos _; set b := cos _; move: (sin _) (sin _) (rwt M k) => s t w; rewrite /Rdiv; lra.
have hi := ltn_ord i; have hj := ltn_ord j.
have [e|ne] := eqVneq i j.
  subst j; rewrite subnn /S (cos_zero (or_introl erefl)) /rwt.
  case: ifP => [/orP[/eqP->|/eqP->]|/negbT].
  - by rewrite (cos_zero (or_introl erefl)); lra.
  - by rewrite (cos_zero (or_intror _)); [lra|lia].
  - rewrite negb_or => /andP[n0 nM]; rewrite cos_full; [lra|lia|lia].
have d : (i - j)%N != 0%N by rewrite -lt0n subn_gt0 ltn_neqAle ij andbT; apply: contra ne => /eqP e; apply/eqP/val_inj.
by rewrite /S !cos_full; [lra|lia|lia|lia|lia].
Qed.

(** the forward transform inverts the backward one *)
Lemma irfft_inverse (x : 'I_M.+1 -> R) j : irfft_forward (irfft_backward x) j = x j.
Proof.
have i0 := IM0; rewrite /irfft_forward.
have -> : \sum_(k < M.+1) (rwt M k * irfft_backward x k * cos (PI * INR (k * j) / INR M))%coqR =
   \sum_(i < M.+1) (rwt M i * x i / (2 * INR M) * (if i == j then 2 * INR M / rwt M i else 0))%coqR.
  under [RHS]eq_bigr => i _ do rewrite -orthogonal RmulE mulr_sumr.
  rewrite exchange_big /=; apply: eq_bigr => k _; rewrite /irfft_backward /irfft_forward INR_mul INR2 /Rdiv.
  rewrite !RmulE !(mulr_suml, mulr_sumr); apply: eq_bigr => i _; toR; rewrite /Rdiv.
  set a := cos _; set b := cos _; move: (/ (2 * INR M))%coqR (rwt M k) (rwt M i) (x i) => u p q r; Rring.
rewrite (bigD1 j) //= eqxx big1 ?addr0 => [|i /negbTE->]; last by rewrite Rmult_0_r.
have := rwt_pos j; move=> ?; Rfield; lra.
Qed.
End Dct.
