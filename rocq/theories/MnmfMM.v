(** Descent of the square-root multiplicative update for matrix-valued models
    R_c = sum_k t_k G_(c,k). *)
From Coq Require Import Reals Lra Psatz.
From mathcomp Require Import all_ssreflect all_algebra.
From mathcomp.algebra_tactics Require Import ring.
From Verif Require Import RStruct MxC CxR NpLin RealLemmas NmfReal NmfMM Eigh EighProofs ProxProofs TraceMM.
Import Order.TTheory GRing.Theory Num.Theory.
Set Implicit Arguments.
Unset Strict Implicit.
Unset Printing Implicit Defensive.
Local Open Scope ring_scope.

Lemma psd_neq0_factor n (G : 'M[Cx]_n) : psd G -> G != 0 -> exists2 L : 'M[Cx]_n, G = L *m L^H & L != 0.
Proof.
move=> pG G0; have [L e] := psd_factor pG; exists L => //.
by apply: contraNneq G0 => L0; rewrite e L0 mul0mx.
Qed.
Lemma rtr_psd_psd n (P G : 'M[Cx]_n) : psd P -> psd G -> (0 <= rtr (P *m G))%coqR.
Proof.
move=> pP pG; have [L ->] := psd_factor pG.
by rewrite mulmxA rtrC mulmxA; apply: rtr_congr.
Qed.
Lemma rtr_pd_psd n (P G : 'M[Cx]_n) : pd P -> psd G -> G != 0 -> (0 < rtr (P *m G))%coqR.
Proof.
move=> pP pG G0; have [L -> L0] := psd_neq0_factor pG G0.
by rewrite mulmxA rtrC mulmxA; apply: rtr_pd_gt0.
Qed.

Definition cost_at n (A X : 'M[Cx]_n) : R := re (\tr (invmx A *m X)) + ln (cabs (\det A)).

(** the dimension may depend on the cell *)
Section Generic.
Variables (C K : finType) (n : C -> nat) (G : forall x, K -> 'M[Cx]_(n x)) (XX : forall x, 'M[Cx]_(n x)) (t : K -> R) (eps : R).
Definition mixof (s : K -> R) x : 'M[Cx]_(n x) := \sum_k c (s k) *: G x k.
Definition mm_num k : R :=
  \sum_x re (\tr (invmx (mixof t x) *m XX x *m (invmx (mixof t x) *m G x k))).
Definition mm_den k : R := \sum_x re (\tr (invmx (mixof t x) *m G x k)).
Definition mm_new k : R := Rmax (t k * R_sqrt.sqrt (mm_num k / mm_den k)) eps.
Hypotheses (pG : forall x k, psd (G x k)) (pX : forall x, psd (XX x)).
Hypotheses (t0 : forall k, (0 < t k)%coqR) (te : forall k, (0 < eps)%coqR -> (eps <= t k)%coqR).
Hypothesis pR : forall x, pd (mixof t x).
Hypothesis Gk : forall k, exists x, G x k != 0.
Hypothesis live : (0 < eps)%coqR \/ (eps = 0%coqR /\ forall k, (0 < mm_num k)%coqR).

Lemma mm_term_num x k (A : 'M[Cx]_(n x)) : A^H = A -> psd (G x k) ->
  (0 <= rtr (A *m XX x *m (A *m G x k)))%coqR.
Proof.
move=> hA pg; have := rtr_psd_psd (psd_congr A (pX x)) pg.
by rewrite hA -!mulmxA.
Qed.
Lemma mm_num_ge0 k : (0 <= mm_num k)%coqR.
Proof.
by rewrite /mm_num; apply: sumR_ge0 => x _; apply: mm_term_num => //; have [] := pd_inv (pR x).
Qed.
Lemma mm_den_gt0 k : (0 < mm_den k)%coqR.
Proof.
have [x hx] := Gk k; rewrite /mm_den (bigD1 x) //.
have h1 := rtr_pd_psd (pd_inv (pR x)) (pG x k) hx.
have h2 : (0 <= (\sum_(i | i != x) re (\tr (invmx (mixof t i) *m G i k)))%R)%coqR.
  by apply: sumR_ge0 => y _; apply: rtr_psd_psd => //; apply/pd_psd/pd_inv.
exact: Rplus_lt_le_0_compat h1 h2.
Qed.
Lemma mm_ratio k : (0 <= mm_num k / mm_den k)%coqR.
Proof. by apply: Rmult_le_pos; [exact: mm_num_ge0|apply: Rlt_le; apply: Rinv_0_lt_compat; exact: mm_den_gt0]. Qed.

Lemma mm_step k : (0 < mm_new k)%coqR /\
    (mm_num k * (t k / mm_new k - 1) + mm_den k * (mm_new k / t k - 1) <= 0)%coqR.
Proof.
have lv : (0 < eps)%coqR \/ (eps = 0%coqR /\ (0 < mm_num k)%coqR) by case: live => [|[? h]]; [left|right].
have he : mm_exponent 1 (/ 2) by left; Rfield.
have := mu_safe Rlt_0_1 Rlt_0_1 he (mm_num_ge0 k) (mm_den_gt0 k) (t0 k) (te k) lv.
have hr := mm_ratio k.
have -> : pw (1 / 1 * mm_num k / mm_den k) (/ 2) = R_sqrt.sqrt (mm_num k / mm_den k)%coqR.
  have -> : (1 / 1 * mm_num k / mm_den k)%coqR = (mm_num k / mm_den k)%coqR.
    by rewrite /Rdiv Rinv_1 Rmult_1_r Rmult_1_l.
  case: (Rle_lt_or_eq_dec _ _ hr) => [h|<-]; first by rewrite pw_pos // Rpower_sqrt.
  by rewrite pw0 sqrt_0.
rewrite (Rmult_comm (R_sqrt.sqrt _)) -/(mm_new k) /=.
move=> [h1 h2]; split=> //.
have hq : (0 < mm_new k / t k)%coqR by apply: Rdiv_lt_0_compat.
move: h2; rewrite pw_opp // pw_1; last by lra.
have -> : (/ (mm_new k / t k))%coqR = (t k / mm_new k)%coqR.
  have ? := t0 k; Rfield; split; lra.
by rewrite Rmult_1_l.
Qed.

Lemma mm_descent_mx : [/\ forall k, (0 < mm_new k)%coqR, forall k, (eps <= mm_new k)%coqR,
  forall x, pd (mixof mm_new x) &
  ((\sum_x cost_at (mixof mm_new x) (XX x))%R <= (\sum_x cost_at (mixof t x) (XX x))%R)%coqR].
Proof.
have n0 k : (0 < mm_new k)%coqR by case: (mm_step k).
have pR' x : pd (mixof mm_new x) by apply: pd_weights (pR x).
split=> // [k|]; first exact: Rmax_r.
pose a x k : R := rtr (invmx (mixof t x) *m XX x *m (invmx (mixof t x) *m G x k)).
pose b x k : R := rtr (invmx (mixof t x) *m G x k).
have bound x : (cost_at (mixof mm_new x) (XX x) <= cost_at (mixof t x) (XX x) +
    (\sum_k (((t k) ^ 2 / mm_new k - t k) * a x k + (mm_new k - t k) * b x k)%coqR)%R)%coqR.
  have u := pd_unit (pR x).
  have hl := logdet_tangent (pR x) (pR' x).
  have e1 : rtr (invmx (mixof t x) *m mixof mm_new x) = \sum_k mm_new k * b x k.
    by rewrite {2}/mixof mulmx_sumr rtr_sum; apply: eq_bigr => k _; rewrite -scalemxAr rtrZ.
  have e2 : (n x)%:R = \sum_k t k * b x k.
    rewrite -(rtr1 (n x)) -(mulVmx u) {2}/mixof mulmx_sumr rtr_sum.
    by apply: eq_bigr => k _; rewrite -scalemxAr rtrZ.
  have e3 : rtr (invmx (mixof t x) *m XX x) = \sum_k t k * a x k.
    rewrite -[invmx _ *m XX x]mulmx1 -(mulVmx u) {3}/mixof !mulmx_sumr rtr_sum.
    by apply: eq_bigr => k _; rewrite -!scalemxAr rtrZ.
  have [L eL] := psd_factor (pX x).
  have ht := @trace_bound _ _ K (XX x) (fun k => c (t k) *: G x k) (fun k => c (mm_new k) *: G x k)
    (fun k => ((t k) ^ 2 / mm_new k * a x k)%coqR) L eL (pR x) (pR' x).
  have {}ht : (rtr (invmx (mixof mm_new x) *m XX x) <= (\sum_k ((t k) ^ 2 / mm_new k * a x k)%coqR)%R)%coqR.
    apply: ht => k; rewrite -!/(mixof _ x).
    move: (invmx (mixof mm_new x) *m L) => U.
    have -> : a x k = rtr ((invmx (mixof t x) *m L)^H *m G x k *m (invmx (mixof t x) *m L)).
      rewrite /a eL; have [h _] := pd_inv (pR x).
      by rewrite ctrM h -!mulmxA [in LHS]mulmxA [LHS]rtrC -!mulmxA.
    move: (invmx (mixof t x) *m L) => V0.
    have := trace_square U (c (t k / mm_new k)%coqR *: V0) (psdZ (c_ge0 (Rlt_le _ _ (n0 k))) (pG x k)).
    rewrite ctrZ c_conj -!(scalemxAr, scalemxAl) !rtrZ.
    have ? := n0 k; have ? := t0 k.
    move: (rtr (U^H *m _ *m V0)) (rtr (U^H *m _ *m U)) (rtr (V0^H *m _ *m V0)) => p q r.
    toR => h.
    have eq1 : (t k / mm_new k * (mm_new k * p) = t k * p)%coqR by Rfield; lra.
    have eq2 : (t k / mm_new k * (t k / mm_new k * (mm_new k * r)) = t k ^ 2 / mm_new k * r)%coqR by Rfield; lra.
    by move: h; rewrite eq1 eq2; lra.
  have -> : \sum_k (((t k) ^ 2 / mm_new k - t k) * a x k + (mm_new k - t k) * b x k)%coqR =
      \sum_k ((t k) ^ 2 / mm_new k * a x k)%coqR - \sum_k t k * a x k + (\sum_k mm_new k * b x k - \sum_k t k * b x k).
    rewrite -!sumrB -big_split; apply: eq_bigr => k _ /=; toR; Rring.
  move: hl ht; rewrite /cost_at -!/(rtr _) e1 e2 e3.
  move: (\sum_k _) (\sum_k _) (\sum_k _) (\sum_k _) => p q r s.
  by toR; lra.
apply: Rle_trans; first by apply: sumR_le => x _; exact: bound.
rewrite big_split /= exchange_big /=.
suff : ((\sum_k \sum_x (((t k) ^ 2 / mm_new k - t k) * a x k + (mm_new k - t k) * b x k)%coqR)%R <= 0)%coqR.
  by move: (\sum_k _) (\sum_x _) => p q; toR; lra.
apply: (Rle_trans _ (\sum_(k : K) 0)%R); last by rewrite big1 //; exact: Rle_refl.
apply: sumR_le => k _.
have [_ h] := mm_step k.
have -> : \sum_x (((t k) ^ 2 / mm_new k - t k) * a x k + (mm_new k - t k) * b x k)%coqR =
   (((t k) ^ 2 / mm_new k - t k) * mm_num k + (mm_new k - t k) * mm_den k)%coqR.
  by rewrite big_split /= RaddE /mm_num /mm_den !RmulE !mulr_sumr.
have ? := n0 k; have ? := t0 k.
have -> : (((t k) ^ 2 / mm_new k - t k) * mm_num k + (mm_new k - t k) * mm_den k =
  t k * (mm_num k * (t k / mm_new k - 1) + mm_den k * (mm_new k / t k - 1)))%coqR by Rfield; lra.
by rewrite -R0E; nra.
Qed.
End Generic.

(** Descent of the Riccati update of full-rank spatial covariances *)
Section Riccati.
Variables (C S : finType) (n : nat) (la : C -> S -> R) (XX : C -> 'M[Cx]_n) (H H' : S -> 'M[Cx]_n).
Definition mixH (h : S -> 'M[Cx]_n) x : 'M[Cx]_n := \sum_s c (la x s) *: h s.
Definition ricP s : 'M[Cx]_n := \sum_x c (la x s) *: invmx (mixH H x).
Definition ricQ s : 'M[Cx]_n := \sum_x c (la x s) *: (invmx (mixH H x) *m XX x *m invmx (mixH H x)).
Hypotheses (la0 : forall x s, (0 <= la x s)%coqR) (pX : forall x, psd (XX x)).
Hypotheses (pH : forall s, pd (H s)) (pH' : forall s, pd (H' s)).
Hypotheses (pR : forall x, pd (mixH H x)) (pR' : forall x, pd (mixH H' x)).
Hypothesis ric : forall s, H' s *m ricP s *m H' s = H s *m ricQ s *m H s.

Lemma ricP_psd s : psd (ricP s).
Proof. by apply: psd_sum => x _; apply: psdZ; [exact: c_ge0|apply/pd_psd/pd_inv]. Qed.

Lemma riccati_descent :
  ((\sum_x cost_at (mixH H' x) (XX x))%R <= (\sum_x cost_at (mixH H x) (XX x))%R)%coqR.
Proof.
pose a x s : R := rtr (invmx (mixH H x) *m XX x *m invmx (mixH H x) *m (H s *m invmx (H' s) *m H s - H s)).
pose b x s : R := rtr (invmx (mixH H x) *m (H' s - H s)).
have bound x : (cost_at (mixH H' x) (XX x) <= cost_at (mixH H x) (XX x) +
    (\sum_s la x s * (a x s + b x s))%R)%coqR.
  have u := pd_unit (pR x).
  have hl := logdet_tangent (pR x) (pR' x).
  have e1 : rtr (invmx (mixH H x) *m mixH H' x) - n%:R = \sum_s la x s * b x s.
    rewrite -(rtr1 n) -{1}(mulVmx u) -rtrB -mulmxBr {2 3}/mixH -sumrB mulmx_sumr rtr_sum.
    by apply: eq_bigr => s _; rewrite -scalerBr -scalemxAr rtrZ.
  pose d x s : R := rtr (invmx (mixH H x) *m XX x *m invmx (mixH H x) *m (H s *m invmx (H' s) *m H s)).
  have e3 : \sum_s la x s * d x s - rtr (invmx (mixH H x) *m XX x) = \sum_s la x s * a x s.
    rewrite -[invmx _ *m XX x]mulmx1 -(mulVmx u) {3}/mixH mulmxA mulmx_sumr rtr_sum -sumrB.
    apply: eq_bigr => s _; rewrite -scalemxAr rtrZ /a mulmxBr rtrB mulrBr.
    by [].
  have [L eL] := psd_factor (pX x).
  have ht := @trace_bound _ _ S (XX x) (fun s => c (la x s) *: H s) (fun s => c (la x s) *: H' s)
    (fun s => (la x s * d x s)%R) L eL (pR x) (pR' x).
  have {}ht : (rtr (invmx (mixH H' x) *m XX x) <= (\sum_s la x s * d x s)%R)%coqR.
    apply: ht => s; rewrite -!/(mixH _ x).
    move: (invmx (mixH H' x) *m L) => U.
    have -> : d x s = rtr ((invmx (mixH H x) *m L)^H *m (H s *m invmx (H' s) *m H s) *m (invmx (mixH H x) *m L)).
      rewrite /d eL; have [h _] := pd_inv (pR x).
      by rewrite ctrM h -!mulmxA [in LHS]mulmxA [LHS]rtrC -!mulmxA.
    move: (invmx (mixH H x) *m L) => Y.
    have [hH _] := pH s; have [hH' _] := pH' s; have uH' := pd_unit (pH' s).
    have := trace_square U (invmx (H' s) *m (H s *m Y)) (pd_psd (pH' s)).
    rewrite !ctrM ctr_inv hH hH' -!mulmxA !(mulKVmx uH').
    rewrite -!(scalemxAr, scalemxAl) !rtrZ.
    have := la0 x s.
    move: (rtr (U^H *m (H s *m Y))) (rtr (U^H *m (H' s *m U))) (rtr (Y^H *m _)) => p q r.
    by toR; nra.
  have -> : \sum_s la x s * (a x s + b x s) = \sum_s la x s * a x s + \sum_s la x s * b x s.
    by rewrite -big_split; apply: eq_bigr => s _; rewrite mulrDr.
  move: hl ht; rewrite -e1 -e3 /cost_at -!/(rtr _).
  move: (\sum_s _) => p.
  by toR; lra.
apply: Rle_trans; first by apply: sumR_le => x _; exact: bound.
rewrite big_split /= exchange_big /=.
suff : ((\sum_s \sum_x la x s * (a x s + b x s))%R <= 0)%coqR.
  by move: (\sum_s _) (\sum_x _) => p q; toR; lra.
apply: (Rle_trans _ (\sum_(s : S) 0)%R); last by rewrite big1 //; exact: Rle_refl.
apply: sumR_le => s _.
have -> : \sum_x la x s * (a x s + b x s) =
   rtr (ricQ s *m (H s *m invmx (H' s) *m H s - H s)) + rtr (ricP s *m (H' s - H s)).
  rewrite /ricQ /ricP !mulmx_suml !rtr_sum -big_split; apply: eq_bigr => x _.
  by rewrite -!scalemxAl !rtrZ mulrDr.
have [hH _] := pH s; have [hH' _] := pH' s; have uH' := pd_unit (pH' s); have uH := pd_unit (pH s).
have e1 : rtr (ricQ s *m (H s *m invmx (H' s) *m H s)) = rtr (ricP s *m H' s).
  have -> : rtr (ricQ s *m (H s *m invmx (H' s) *m H s)) = rtr (invmx (H' s) *m (H s *m ricQ s *m H s)).
    by rewrite -!mulmxA [in LHS]mulmxA [LHS]rtrC -!mulmxA.
  by rewrite -ric -!mulmxA mulKmx.
have e2 : rtr (ricQ s *m H s) = rtr (ricP s *m (H' s *m invmx (H s) *m H' s)).
  have -> : rtr (ricQ s *m H s) = rtr (invmx (H s) *m (H s *m ricQ s *m H s)).
    by rewrite -!mulmxA mulKmx.
  by rewrite -ric -!mulmxA [LHS]rtrC -!mulmxA [LHS]rtrC -!mulmxA.
rewrite !mulmxBr !rtrB e1 e2.
have [L ->] := psd_factor (ricP_psd s).
have := trace_square (H' s *m L) (H s *m L) (pd_psd (pd_inv (pH s))).
rewrite !ctrM hH hH' -!mulmxA !(mulKmx uH, mulKVmx uH).
have cyc (A : 'M[Cx]_n) : rtr (L *m (L^H *m A)) = rtr (L^H *m (A *m L)).
  by rewrite rtrC -!mulmxA.
rewrite !cyc -!mulmxA.
move: (rtr _) (rtr _) (rtr _) => p q r.
by toR; lra.
Qed.
End Riccati.
