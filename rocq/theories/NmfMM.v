(** The majorisation-minimisation argument of multiplicative NMF updates, for one block of
    variables: [q c = sum_k t k * v c k] over cells [c]. *)
From Coq Require Import Reals Lra Psatz.
From mathcomp Require Import all_ssreflect all_algebra.
From Verif Require Import RStruct MxC CxR NmfReal RealLemmas.
Import Order.TTheory GRing.Theory Num.Theory.
Set Implicit Arguments.
Unset Strict Implicit.
Unset Printing Implicit Defensive.
Local Open Scope ring_scope.

Ltac asR := match goal with |- @eq _ ?x ?y => change (@eq R x y) end.
Ltac Rf := asR; Rfield.
Ltac Rr := asR; Rring.

Lemma sumR_mull I (r : seq I) (P : pred I) (x : R) (f : I -> R) :
  (x * (\sum_(i <- r | P i) f i)%R = \sum_(i <- r | P i) (x * f i)%coqR)%coqR.
Proof. by rewrite RmulE mulr_sumr. Qed.
Lemma sumR_mulr I (r : seq I) (P : pred I) (x : R) (f : I -> R) :
  ((\sum_(i <- r | P i) f i)%R * x = \sum_(i <- r | P i) (f i * x)%coqR)%coqR.
Proof. by rewrite RmulE mulr_suml. Qed.
Lemma sumR_add I (r : seq I) (P : pred I) (f g : I -> R) :
  ((\sum_(i <- r | P i) f i)%R + (\sum_(i <- r | P i) g i)%R = \sum_(i <- r | P i) (f i + g i)%coqR)%coqR.
Proof. by rewrite RaddE -big_split. Qed.
Lemma sumR_sub I (r : seq I) (P : pred I) (f g : I -> R) :
  ((\sum_(i <- r | P i) f i)%R - (\sum_(i <- r | P i) g i)%R = \sum_(i <- r | P i) (f i - g i)%coqR)%coqR.
Proof. by rewrite RsubE -sumrB. Qed.
Lemma sumR_gt0 (I : finType) (f : I -> R) i : (forall i, (0 <= f i)%coqR) -> (0 < f i)%coqR ->
  (0 < (\sum_i f i)%R)%coqR.
Proof.
move=> h hi; rewrite (bigD1 i) //=.
have : (0 <= (\sum_(j | j != i) f j)%R)%coqR by apply: sumR_ge0.
by toR; move: (\sum_(j | _) _) => z; lra.
Qed.
Lemma sumR_pos_ex (I : finType) (f : I -> R) : (forall i, (0 <= f i)%coqR) ->
  (0 < (\sum_i f i)%R)%coqR -> exists i, (0 < f i)%coqR.
Proof.
move=> h s0; have [/existsP[i /RltbP hi]|] := boolP [exists i, Rltb 0 (f i)]; first by exists i.
rewrite negb_exists => /forallP n; move: s0; rewrite big1 => [/Rlt_irrefl //|i _].
by have [e|//] := h i; have /RltbP := n i.
Qed.

Section MM.
Variables (C K : finType) (v : C -> K -> R) (y : C -> R) (a b : R).
Hypotheses (a0 : (0 < a)%coqR) (b0 : (0 < b)%coqR).
Hypotheses (v0 : forall c k, (0 <= v c k)%coqR) (y0 : forall c, (0 <= y c)%coqR).
Definition qof (t : K -> R) (c : C) : R := \sum_k (t k * v c k)%coqR.
Variables (t t' : K -> R).
Hypotheses (t0 : forall k, (0 < t k)%coqR) (t0' : forall k, (0 < t' k)%coqR).
Hypothesis q0 : forall c, (0 < qof t c)%coqR.
Definition Anum k : R := \sum_c (y c * v c k * pw (qof t c) (- (1 + a)))%coqR.
Definition Bden k : R := \sum_c (v c k / qof t c)%coqR.

Lemma q0' c : (0 < qof t' c)%coqR.
Proof.
have h k : (0 <= t k * v c k)%coqR by apply: Rmult_le_pos => //; exact: Rlt_le.
have [k hk] := sumR_pos_ex h (q0 c); have vk : (0 < v c k)%coqR.
  by have [//|e] := v0 c k; move: hk; rewrite -e; lra.
apply: (@sumR_gt0 _ _ k) => [i|]; first by apply: Rmult_le_pos => //; exact: Rlt_le.
exact: Rmult_lt_0_compat.
Qed.

Lemma jensen c : (pw (qof t' c) (- a) <=
  (\sum_k (t k * v c k / qof t c * (pw (qof t c) (- a) * pw (t' k / t k) (- a)))%coqR)%R)%coqR.
Proof.
set q := qof t c; set q' := qof t' c; have hq : (0 < q)%coqR := q0 c; have hq' : (0 < q')%coqR := q0' c.
have iq := Rinv_0_lt_compat _ hq; have iq' := Rinv_0_lt_compat _ hq'.
apply: (Rle_trans _ (\sum_k (t k * v c k / q * (pw q' (- a) * (1 - a * (q * (t' k / t k) / q' - 1))))%coqR)%R).
  apply: Req_le; symmetry.
  have -> : (\sum_k (t k * v c k / q * (pw q' (- a) * (1 - a * (q * (t' k / t k) / q' - 1))))%coqR)%R =
    (\sum_k (pw q' (- a) * (1 + a) / q * (t k * v c k) - pw q' (- a) * a / q' * (t' k * v c k))%coqR)%R.
    by apply: eq_bigr => k _; have := t0 k => tk; Rf; lra.
  rewrite -sumR_sub -!sumR_mull -/(qof t c) -/(qof t' c) -/q -/q'.
  by Rf; lra.
apply: sumR_le => k _; have tk := t0 k; have tk' := t0' k.
have s0 : (0 < t' k / t k)%coqR by apply: Rdiv_lt_0_compat.
apply: Rmult_le_compat_l.
  by apply: Rmult_le_pos; [apply: Rmult_le_pos => //; lra|lra].
rewrite -pw_mult; [|lra|lra].
apply: pow_tangent => //; apply: Rmult_lt_0_compat; lra.
Qed.

Lemma mm_descent :
  (forall k, (Anum k * (pw (t' k / t k) (- a) - 1) + b * Bden k * (t' k / t k - 1) <= 0)%coqR) ->
  ((\sum_c (y c * (pw (qof t' c) (- a) - pw (qof t c) (- a)) +
            b * (ln (qof t' c) - ln (qof t c)))%coqR)%R <= 0)%coqR.
Proof.
move=> hk.
apply: (Rle_trans _ (\sum_k (t k * (Anum k * (pw (t' k / t k) (- a) - 1) + b * Bden k * (t' k / t k - 1)))%coqR)%R);
  last first.
  have -> : (0%coqR : R) = \sum_(k : K) 0 by rewrite big1.
  by apply: sumR_le => k _; have := hk k; have := t0 k; rewrite -R0E; nra.
apply: (Rle_trans _ (\sum_c \sum_k (y c * (t k * v c k / qof t c * pw (qof t c) (- a) * (pw (t' k / t k) (- a) - 1)) +
   b * (v c k / qof t c * (t' k - t k)))%coqR)%R).
  apply: sumR_le => c _; have hq := q0 c; have iq := Rinv_0_lt_compat _ hq.
  rewrite -sumR_add -!sumR_mull; apply: Rplus_le_compat; apply: Rmult_le_compat_l => //.
  - have -> : (\sum_k (t k * v c k / qof t c * pw (qof t c) (- a) * (pw (t' k / t k) (- a) - 1))%coqR)%R =
      ((\sum_k (t k * v c k / qof t c * (pw (qof t c) (- a) * pw (t' k / t k) (- a)))%coqR)%R -
       pw (qof t c) (- a))%coqR.
      rewrite [X in _ = (_ - X)%coqR](_ : _ = (\sum_k (pw (qof t c) (- a) / qof t c * (t k * v c k))%coqR)%R); last first.
        by rewrite -sumR_mull -/(qof t c); Rf; lra.
      by rewrite sumR_sub; apply: eq_bigr => k _; rewrite /Rdiv; Rr.
    by have := jensen c; move: (\sum_k _) => z; lra.
  - exact: Rlt_le.
  - have := ln_tangent _ _ hq (q0' c).
    have -> : (\sum_k (v c k / qof t c * (t' k - t k))%coqR)%R = ((qof t' c - qof t c) / qof t c)%coqR.
      rewrite {2}/qof {2}/qof sumR_sub /Rdiv sumR_mulr; apply: eq_bigr => k _; Rr.
    lra.
apply: Req_le; rewrite exchange_big; apply: eq_bigr => k _ /=.
have tk := t0 k.
have -> : (t k * (Anum k * (pw (t' k / t k) (- a) - 1) + b * Bden k * (t' k / t k - 1)) =
   t k * (pw (t' k / t k) (- a) - 1) * Anum k + b * (t' k - t k) * Bden k)%coqR by Rf; lra.
rewrite /Anum /Bden !sumR_mull sumR_add; apply: eq_bigr => c _.
have hq := q0 c.
have -> : pw (qof t c) (- (1 + a)) = (pw (qof t c) (- a) / qof t c)%coqR.
  have -> : (- (1 + a) = - (1) + - a)%coqR by Rr.
  by rewrite pw_plus // (pw_opp _ 1) // pw_1; [Rf|]; lra.
by Rf; lra.
Qed.
End MM.

(** the update of one block, [fl(t * (H / B) ** e)], with [H] the weighted sum of [h c] *)
Definition mu_step (fl : R -> R) (e : R) (H B t : R) : R := fl (pw (H / B) e * t)%coqR.

(** exponents for which a step is safe *)
Definition mm_exponent (a e : R) : Prop := (e * (1 + a) = 1)%coqR \/ (a = 1%coqR /\ e = 1%coqR).

Lemma mu_safe eps a b e A B t : (0 < a)%coqR -> (0 < b)%coqR -> mm_exponent a e ->
  (0 <= A)%coqR -> (0 < B)%coqR -> (0 < t)%coqR ->
  ((0 < eps)%coqR -> (eps <= t)%coqR) -> ((0 < eps)%coqR \/ (eps = 0%coqR /\ (0 < A)%coqR)) ->
  let t' := Rmax (pw (a / b * A / B)%coqR e * t)%coqR eps in
  (0 < t')%coqR /\ (A * (pw (t' / t) (- a) - 1) + b * B * (t' / t - 1) <= 0)%coqR.
Proof.
move=> a0 b0 he hA B0 t0 het hpos.
set x := (a / b * A / B)%coqR.
have x0 : (0 <= x)%coqR.
  rewrite /x; have ? := Rinv_0_lt_compat _ b0; have ? := Rinv_0_lt_compat _ B0.
  by repeat apply: Rmult_le_pos; lra.
set s := pw x e => t'.
have s0 : (0 <= s)%coqR by exact: pw_ge0.
have bB : (0 < b * B)%coqR by exact: Rmult_lt_0_compat.
have axA : (a * A = b * B * x)%coqR by rewrite /x; Rf; lra.
have e0 : (0 < e)%coqR by case: he => [h|[_ ->]]; [|lra]; case: (Rle_or_lt e 0) => [|//]; nra.
have t'0 : (0 < t')%coqR.
  case: hpos => [h|[_ h]]; first by exact: Rlt_le_trans h (Rmax_r _ _).
  apply: Rlt_le_trans (Rmax_l _ _); apply: Rmult_lt_0_compat => //; apply: pw_gt0.
  by rewrite /x; have ? := Rinv_0_lt_compat _ b0; have ? := Rinv_0_lt_compat _ B0;
   repeat apply: Rmult_lt_0_compat; lra.
split=> //.
have it := Rinv_0_lt_compat _ t0.
have r0 : (0 < t' / t)%coqR by apply: Rdiv_lt_0_compat.
(* either the unfloored factor, or between it and 1 *)
have [rE|[r1 rs]] : (t' / t = s)%coqR \/ ((t' / t <= 1)%coqR /\ (s <= t' / t)%coqR).
  rewrite /t'; case: (Rle_or_lt eps (s * t)) => [h|h].
    by left; rewrite Rmax_left //; Rf; lra.
  right; rewrite Rmax_right; last lra.
  have ep : (0 < eps)%coqR by case: hpos => [//|[z _]]; move: h; rewrite z; nra.
  have := het ep => le; split.
    by apply: (Rmult_le_reg_r t) => //; rewrite /Rdiv Rmult_assoc Rinv_l; lra.
  by apply: (Rmult_le_reg_r t) => //; rewrite /Rdiv Rmult_assoc Rinv_l; lra.
- have xp : (0 < x)%coqR.
    by case: x0 => // xz; move: r0; rewrite rE /s -xz pw0 => /Rlt_irrefl.
  rewrite rE; case: he => [h|[h1 h2]].
    apply: mm_scalar => //; first by rewrite -rE.
    by left; rewrite /s pw_pw // h pw_1 //; lra.
  rewrite h1; apply: me_scalar => //; first by rewrite -rE.
  by left; rewrite /s h2 pw_1 //; move: axA; rewrite h1; lra.
- case: he => [h|[h1 h2]].
    apply: mm_scalar => //; right; split=> //; rewrite axA; apply: Rmult_le_compat_l; first lra.
    case: x0 => [xp|<-]; last exact: pw_ge0.
    have -> : x = pw s (1 + a) by rewrite /s pw_pw // h pw_1 //; lra.
    have sp : (0 < s)%coqR by exact: pw_gt0.
    rewrite !pw_pos //; case: rs => [rs|<-]; last exact: Rle_refl.
    by apply: Rlt_le; rewrite /Rpower; apply: exp_increasing; apply: Rmult_lt_compat_l; [lra|exact: ln_increasing].
  rewrite h1; apply: me_scalar => //; right; split=> //.
  move: axA rs; rewrite h1 /s h2 pw_1 // => ax rs.
  have : (b * B * x <= b * B * (t' / t))%coqR by apply: Rmult_le_compat_l; lra.
  lra.
Qed.
