(** Proofs about GaussMNMF. *)
From Coq Require Import Reals Lra Psatz FunctionalExtensionality.
From mathcomp Require Import all_ssreflect all_algebra.
From mathcomp Require Import ring.
From Verif Require Import RStruct MxC CxR NpLin RealLemmas NmfReal NmfMM Eigh EighProofs ProxProofs TraceMM MnmfMM.
From Verif Require Import SpatialIP SpatialISS SpatialIP2 Scale AuxIVA AuxIVAProofs Ilrma IlrmaReal IlrmaProofs Mnmf.
From Verif Require Import Prop_Linalg.
Import Order.TTheory GRing.Theory Num.Theory.
Set Implicit Arguments.
Unset Strict Implicit.
Unset Printing Implicit Defensive.
Local Open Scope ring_scope.

Lemma ratio_okP (a b : R) : (0 <= a)%coqR -> (0 < b)%coqR -> ratio_ok a b.
Proof.
move=> a0 b0; apply/andP; split; first by apply/eqP; have := b0; toR; lra.
by apply/RlebP; apply: Rmult_le_pos => //; apply/Rlt_le/Rinv_0_lt_compat.
Qed.
Lemma pd_neq0 n (A : 'M[Cx]_n) : (0 < n)%N -> pd A -> A != 0.
Proof.
move=> n0 pA; apply/eqP => A0; have := rtr_pd n0 pA.
by rewrite A0 rtr0; apply: Rlt_irrefl.
Qed.
(** the floor never acts on a matrix *)
Lemma to_psd_id eig n (A : 'M[Cx]_n) : eigh_contract eig -> A^H = A -> to_psd eig (fun x => x) A = A.
Proof.
move=> He hA; have s := He n _ (hpart_ctr A); rewrite /to_psd.
rewrite hpart_id // in s *.
case: (eig n _) s => l P s; rewrite hpart_id ?recompose_ctr //.
rewrite [RHS](eigh_recompose s); congr recompose.
by apply/rowP => i; rewrite mxE.
Qed.

Section Facts.
Variables (N M F T K : nat) (eps : R) (fl : R -> R) (eig : eigh_t) (chol : chol_t).
Hypothesis hfl : forall x, (0 <= x)%coqR -> fl x = Rmax x eps.
Hypotheses (M0 : (0 < M)%N) (T0 : (0 < T)%N).
Notation cells := ('I_N -> 'I_F -> 'I_T -> R).
Notation basis := ('I_N -> 'I_F -> 'I_K -> R).
Notation activ := ('I_N -> 'I_K -> 'I_T -> R).
Notation pbasis := ('I_F -> 'I_K -> R).
Notation pactiv := ('I_K -> 'I_T -> R).
Notation latent := ('I_N -> 'I_K -> R).
Notation spat := ('I_N -> 'I_F -> 'M[Cx]_M).
Notation covs := ('I_F -> 'I_T -> 'M[Cx]_M).
Implicit Types (B : basis) (V : activ) (L : cells) (H : spat) (XX : covs) (C : pbasis) (A : pactiv) (Z : latent).

Definition loss_mx XX (Rm : covs) : R := \sum_i meanR (fun j => cost_at (Rm i j) (XX i j)).
Definition inact L H : Prop := forall i j, to_psd eig fl (rmodel L H i j) = rmodel L H i j.

Lemma rmodel_pd L H i j : (0 < N)%N -> (forall n i j, (0 < L n i j)%coqR) -> (forall n i, pd (H n i)) ->
  pd (rmodel L H i j).
Proof.
move=> N0 L0 pH; rewrite /rmodel (bigD1 (Ordinal N0)) //=.
apply: pdD; first by apply: pdZ => //; exact: c_gt0.
by apply: psd_sum => n _; apply: psdZ; [apply/c_ge0/Rlt_le|apply: pd_psd].
Qed.
Lemma rmodel_herm L H i j : (forall n i, pd (H n i)) -> (rmodel L H i j)^H = rmodel L H i j.
Proof.
move=> pH; rewrite /rmodel ctr_sum; apply: eq_bigr => n _.
by rewrite ctrZ c_conj; have [->] := pH n i.
Qed.
Lemma inactE L H i j : inact L H -> rpsd fl eig L H i j = rmodel L H i j.
Proof. by move=> h; rewrite /rpsd h. Qed.
Lemma rpsd_unitP L H : inact L H -> (forall i j, pd (rmodel L H i j)) -> rpsd_unit fl eig L H.
Proof.
by move=> h p; apply/forallP => i; apply/forallP => j; rewrite inactE // pd_unit.
Qed.
Lemma gauss_lossE XX L H : inact L H -> (forall i j, pd (rmodel L H i j)) ->
  gauss_loss fl eig XX L H = Some (loss_mx XX (rmodel L H)).
Proof.
move=> h p; rewrite /gauss_loss -lt0n T0 rpsd_unitP //; congr Some.
apply: eq_bigr => i _; apply: eq_meanR => j; by rewrite inactE.
Qed.

Lemma loss_mx_bins XX (Rm Rm' : covs) :
  (forall i, ((\sum_j cost_at (Rm' i j) (XX i j))%R <= (\sum_j cost_at (Rm i j) (XX i j))%R)%coqR) ->
  (loss_mx XX Rm' <= loss_mx XX Rm)%coqR.
Proof. by move=> h; apply: sumR_le => i _; apply: meanR_le_sum. Qed.
Lemma loss_mx_all XX (Rm Rm' : covs) :
  ((\sum_i \sum_j cost_at (Rm' i j) (XX i j))%R <= (\sum_i \sum_j cost_at (Rm i j) (XX i j))%R)%coqR ->
  (loss_mx XX Rm' <= loss_mx XX Rm)%coqR.
Proof.
move=> h; rewrite /loss_mx /meanR -!mulr_sumr.
by apply: Rmult_le_compat_l => //; apply/RleP; rewrite invr_ge0 ler0n.
Qed.
Lemma loss_mx_frames XX (Rm Rm' : covs) :
  (forall j, ((\sum_i cost_at (Rm' i j) (XX i j))%R <= (\sum_i cost_at (Rm i j) (XX i j))%R)%coqR) ->
  (loss_mx XX Rm' <= loss_mx XX Rm)%coqR.
Proof.
move=> h; apply: loss_mx_all; rewrite exchange_big [X in (_ <= X)%coqR]exchange_big.
by apply: sumR_le => j _.
Qed.

Lemma mix_pair B V H i j :
  \sum_(p : 'I_N * 'I_K) c (B p.1 i p.2) *: (c (V p.1 p.2 j) *: H p.1 i) = rmodel (recon B V) H i j.
Proof.
rewrite -(pair_big predT predT (fun n k => c (B n i k) *: (c (V n k j) *: H n i))) /=.
apply: eq_bigr => n _; rewrite /recon c_sum scaler_suml; apply: eq_bigr => k _.
by rewrite cM scalerA.
Qed.
Lemma fl_sqrt (t x : R) : (0 < t)%coqR -> fl (t * R_sqrt.sqrt x) = Rmax (t * R_sqrt.sqrt x) eps.
Proof. by move=> t0; apply: hfl; apply: Rmult_le_pos; [exact: Rlt_le|exact: sqrt_pos]. Qed.

(** sources of positivity of the numerators *)
Lemma num_gt0 (Ri X Hn : 'M[Cx]_M) : pd Ri -> psd X -> X != 0 -> pd Hn ->
  (0 < rtr (Ri *m X *m (Ri *m Hn)))%coqR.
Proof.
move=> pR pX X0 pH; have [Lx e Lx0] := psd_neq0_factor pX X0; have [hR _] := pR.
have := @rtr_pd_gt0 _ _ Hn (Ri *m Lx) pH.
rewrite e ctrM hR.
have -> : rtr (Lx^H *m Ri *m Hn *m (Ri *m Lx)) = rtr (Ri *m (Lx *m Lx^H) *m (Ri *m Hn)).
  by rewrite rtrC -!mulmxA.
apply; apply: contraNneq Lx0 => z; apply/eqP; exact: (unit_inj (pd_unit pR) z).
Qed.

Definition live_b XX : Prop := (0 < eps)%coqR \/ (eps = 0%coqR /\ forall i, exists j, XX i j != 0).
Definition live_a XX : Prop := (0 < eps)%coqR \/ (eps = 0%coqR /\ forall j, exists i, XX i j != 0).

Lemma gauss_basis_step XX H B V : inact (recon B V) H -> (0 < N)%N -> (0 < K)%N ->
  (forall i j, psd (XX i j)) -> (forall n i, pd (H n i)) ->
  (forall n i k, (0 < B n i k)%coqR) -> (forall n k j, (0 < V n k j)%coqR) ->
  (forall n i k, (0 < eps)%coqR -> (eps <= B n i k)%coqR) -> live_b XX ->
  exists B', [/\ gauss_basis fl eig XX H B V = Some B', forall n i k, (0 < B' n i k)%coqR,
    forall n i k, (eps <= B' n i k)%coqR &
    (loss_mx XX (rmodel (recon B' V) H) <= loss_mx XX (rmodel (recon B V) H))%coqR].
Proof.
move=> ina N0 K0 pX pH B0 V0 Be live.
have L0 n i j := recon_gt0 n i j K0 B0 V0.
have pR i j := rmodel_pd i j N0 L0 pH.
pose G i (j : 'I_T) (p : 'I_N * 'I_K) := c (V p.1 p.2 j) *: H p.1 i.
pose t i (p : 'I_N * 'I_K) := B p.1 i p.2.
have mE B1 i j : mixof (G i) (fun p => B1 p.1 i p.2) j = rmodel (recon B1 V) H i j by exact: mix_pair.
have nE i p : mm_num (G i) (XX i) (t i) p = gb_num fl eig XX H B V p.1 i p.2.
  apply: eq_bigr => j _; rewrite mE /tr_RXXRH inactE //.
  by rewrite -!scalemxAr -[re _]/(rtr _) rtrZ.
have dE i p : mm_den (G i) (t i) p = gb_den fl eig H B V p.1 i p.2.
  by apply: eq_bigr => j _; rewrite mE /tr_RH inactE // -scalemxAr -[re _]/(rtr _) rtrZ.
have pG i j p : psd (G i j p) by apply: psdZ; [apply/c_ge0/Rlt_le|apply: pd_psd].
have G0 i p : exists j, G i j p != 0.
  exists (Ordinal T0); rewrite scaler_eq0 negb_or pd_neq0 // andbT.
  by apply: c_neq0; have := V0 p.1 p.2 (Ordinal T0); lra.
have lv i : (0 < eps)%coqR \/ (eps = 0%coqR /\ forall k, (0 < mm_num (G i) (XX i) (t i) k)%coqR).
  case: live => [|[e h]]; [by left|right; split=> // p].
  have [j hj] := h i.
  apply: (@sumR_gt0 _ _ j) => [j'|].
    rewrite mE; apply: mm_term_num => //; by have [] := pd_inv (pR i j').
  rewrite mE -!scalemxAr -[re _]/(rtr _) rtrZ; apply: Rmult_lt_0_compat => //.
  by apply: num_gt0 => //; apply: pd_inv.
have D i := @mm_descent_mx _ _ (fun _ => M) (G i) (XX i) (t i) eps (pG i) (pX i) (fun p => B0 p.1 i p.2)
   (fun p => Be p.1 i p.2) (fun j => eq_ind_r (fun z => pd z) (pR i j) (mE B i j)) (G0 i) (lv i).
pose B' n i k := mm_new (G i) (XX i) (t i) eps (n, k).
exists B'; split; [|by move=> n i k; have [h _ _ _] := D i; exact: h|by move=> n i k; have [_ h _ _] := D i; exact: h|].
- rewrite /gauss_basis rpsd_unitP // ifT; last first.
    apply/forallP => n; apply/forallP => i; apply/forallP => k.
    rewrite -(nE i (n, k)) -(dE i (n, k)).
    apply: ratio_okP; [apply: mm_num_ge0 => // j|apply: mm_den_gt0 => // j]; by rewrite mE.
  congr Some; do 3 (apply: functional_extensionality => ?); rewrite fl_sqrt // /B' /mm_new nE dE //.
- apply: loss_mx_bins => i; have [_ _ _] := D i.
  have e s : (\sum_x cost_at (mixof (G i) (fun p => s p.1 i p.2) x) (XX i x)) =
     \sum_j cost_at (rmodel (recon s V) H i j) (XX i j) by apply: eq_bigr => j _; rewrite mE.
  by rewrite -!e; congr (Rle _ _); apply: eq_bigr => j _; congr cost_at.
Qed.

Lemma gauss_activation_step XX H B V : inact (recon B V) H -> (0 < N)%N -> (0 < K)%N -> (0 < F)%N ->
  (forall i j, psd (XX i j)) -> (forall n i, pd (H n i)) ->
  (forall n i k, (0 < B n i k)%coqR) -> (forall n k j, (0 < V n k j)%coqR) ->
  (forall n k j, (0 < eps)%coqR -> (eps <= V n k j)%coqR) -> live_a XX ->
  exists V', [/\ gauss_activation fl eig XX H B V = Some V', forall n k j, (0 < V' n k j)%coqR,
    forall n k j, (eps <= V' n k j)%coqR &
    (loss_mx XX (rmodel (recon B V') H) <= loss_mx XX (rmodel (recon B V) H))%coqR].
Proof.
move=> ina N0 K0 F0 pX pH B0 V0 Ve live.
have L0 n i j := recon_gt0 n i j K0 B0 V0.
have pR i j := rmodel_pd i j N0 L0 pH.
pose G (i : 'I_F) (p : 'I_N * 'I_K) := c (B p.1 i p.2) *: H p.1 i.
pose t (j : 'I_T) (p : 'I_N * 'I_K) := V p.1 p.2 j.
have mE V1 i j : mixof G (fun p => V1 p.1 p.2 j) i = rmodel (recon B V1) H i j.
  by rewrite -mix_pair; apply: eq_bigr => p _; rewrite !scalerA mulrC.
have nE j p : mm_num G (XX^~ j) (t j) p = ga_num fl eig XX H B V p.1 p.2 j.
  apply: eq_bigr => i _; rewrite mE /tr_RXXRH inactE //.
  by rewrite -!scalemxAr -[re _]/(rtr _) rtrZ.
have dE j p : mm_den G (t j) p = ga_den fl eig H B V p.1 p.2 j.
  by apply: eq_bigr => i _; rewrite mE /tr_RH inactE // -scalemxAr -[re _]/(rtr _) rtrZ.
have pG i p : psd (G i p) by apply: psdZ; [apply/c_ge0/Rlt_le|apply: pd_psd].
have G0 p : exists i, G i p != 0.
  exists (Ordinal F0); rewrite scaler_eq0 negb_or pd_neq0 // andbT.
  by apply: c_neq0; have := B0 p.1 (Ordinal F0) p.2; lra.
have lv j : (0 < eps)%coqR \/ (eps = 0%coqR /\ forall k, (0 < mm_num G (XX^~ j) (t j) k)%coqR).
  case: live => [|[e h]]; [by left|right; split=> // p].
  have [i hi] := h j.
  apply: (@sumR_gt0 _ _ i) => [i'|].
    rewrite mE; apply: (@mm_term_num _ _ (fun _ => M) G (XX^~ j)) => //; by have [] := pd_inv (pR i' j).
  rewrite mE -!scalemxAr -[re _]/(rtr _) rtrZ; apply: Rmult_lt_0_compat => //.
  by apply: num_gt0 => //; apply: pd_inv.
have D j := @mm_descent_mx _ _ (fun _ => M) G (XX^~ j) (t j) eps pG (pX^~ j) (fun p => V0 p.1 p.2 j)
   (fun p => Ve p.1 p.2 j) (fun i => eq_ind_r (fun z => pd z) (pR i j) (mE V i j)) G0 (lv j).
pose V' n k j := mm_new G (XX^~ j) (t j) eps (n, k).
exists V'; split; [|by move=> n k j; have [h _ _ _] := D j; exact: h|by move=> n k j; have [_ h _ _] := D j; exact: h|].
- rewrite /gauss_activation rpsd_unitP // ifT; last first.
    apply/forallP => n; apply/forallP => k; apply/forallP => j.
    rewrite -(nE j (n, k)) -(dE j (n, k)).
    apply: ratio_okP; [apply: (@mm_num_ge0 _ _ (fun _ => M) G (XX^~ j)) => // i|apply: mm_den_gt0 => // i]; by rewrite mE.
  congr Some; do 3 (apply: functional_extensionality => ?); rewrite fl_sqrt // /V' /mm_new nE dE //.
- apply: loss_mx_frames => j; have [_ _ _] := D j.
  have e s : (\sum_x cost_at (mixof G (fun p => s p.1 p.2 j) x) (XX x j)) =
     \sum_i cost_at (rmodel (recon B s) H i j) (XX i j) by apply: eq_bigr => i _; rewrite mE.
  by rewrite -!e; congr (Rle _ _); apply: eq_bigr => i _; congr cost_at.
Qed.

(** *** with partitioning *)
Lemma recon_lat_gt0' Z C A n i j : (0 < K)%N -> (forall n k, (0 < Z n k)%coqR) ->
  (forall i k, (0 < C i k)%coqR) -> (forall k j, (0 < A k j)%coqR) -> (0 < recon_lat Z C A n i j)%coqR.
Proof. by move=> K0 Z0 C0 A0; apply: recon_lat_gt0. Qed.
Definition latG H Z (f : 'I_K -> R) i k : 'M[Cx]_M := \sum_n c (Z n k * f k) *: H n i.
Lemma latG_psd H Z f i k : (forall n i, pd (H n i)) -> (forall n k, (0 < Z n k)%coqR) -> (0 < f k)%coqR ->
  psd (latG H Z f i k).
Proof.
move=> pH Z0 f0; apply: psd_sum => n _; apply: psdZ; last exact: pd_psd.
by apply: c_ge0; apply: Rlt_le; apply: Rmult_lt_0_compat.
Qed.
Lemma latG_pd H Z f i k : (0 < N)%N -> (forall n i, pd (H n i)) -> (forall n k, (0 < Z n k)%coqR) -> (0 < f k)%coqR ->
  pd (latG H Z f i k).
Proof.
move=> N0 pH Z0 f0; rewrite /latG (bigD1 (Ordinal N0)) //=.
apply: pdD; first by apply: pdZ => //; apply: c_gt0; apply: Rmult_lt_0_compat.
apply: psd_sum => n _; apply: psdZ; last exact: pd_psd.
by apply: c_ge0; apply: Rlt_le; apply: Rmult_lt_0_compat.
Qed.
Lemma latG_mix Z C A H i j : \sum_k c (C i k) *: latG H Z (A^~ j) i k = rmodel (recon_lat Z C A) H i j.
Proof.
rewrite /rmodel /latG; under eq_bigr do rewrite scaler_sumr.
rewrite exchange_big; apply: eq_bigr => n _; rewrite /recon_lat c_sum scaler_suml.
by apply: eq_bigr => k _; rewrite scalerA -cM mulrCA.
Qed.
Lemma latG_mix' Z C A H i j : \sum_k c (A k j) *: latG H Z (C i) i k = rmodel (recon_lat Z C A) H i j.
Proof.
rewrite -latG_mix; apply: eq_bigr => k _; rewrite /latG !scaler_sumr; apply: eq_bigr => n _.
by rewrite !scalerA -!cM mulrCA [A k j * _]mulrC mulrCA.
Qed.
Lemma rtr_latG H Z f i k (P : 'M[Cx]_M) : rtr (P *m latG H Z f i k) = \sum_n Z n k * (f k * rtr (P *m H n i)).
Proof. by rewrite mulmx_sumr rtr_sum; apply: eq_bigr => n _; rewrite -scalemxAr rtrZ -mulrA. Qed.

Lemma gauss_pbasis_step XX H Z C A : inact (recon_lat Z C A) H -> (0 < N)%N -> (0 < K)%N ->
  (forall i j, psd (XX i j)) -> (forall n i, pd (H n i)) -> (forall n k, (0 < Z n k)%coqR) ->
  (forall i k, (0 < C i k)%coqR) -> (forall k j, (0 < A k j)%coqR) ->
  (forall i k, (0 < eps)%coqR -> (eps <= C i k)%coqR) -> live_b XX ->
  exists C', [/\ gauss_pbasis fl eig XX H Z C A = Some C', forall i k, (0 < C' i k)%coqR,
    forall i k, (eps <= C' i k)%coqR &
    (loss_mx XX (rmodel (recon_lat Z C' A) H) <= loss_mx XX (rmodel (recon_lat Z C A) H))%coqR].
Proof.
move=> ina N0 K0 pX pH Z0 C0 A0 Ce live.
have L0 n i j := recon_lat_gt0' n i j K0 Z0 C0 A0.
have pR i j := rmodel_pd i j N0 L0 pH.
pose G i (j : 'I_T) (k : 'I_K) := latG H Z (A^~ j) i k.
have mE C1 i j : mixof (G i) (C1 i) j = rmodel (recon_lat Z C1 A) H i j by exact: latG_mix.
have nE i k : mm_num (G i) (XX i) (C i) k = gpb_num fl eig XX H Z C A i k.
  rewrite /mm_num; under eq_bigr do rewrite mE mulmxA -[re _]/(rtr _) rtr_latG.
  rewrite exchange_big /gpb_num; apply: eq_bigr => n _; rewrite mulr_sumr; apply: eq_bigr => j _.
  by rewrite /tr_RXXRH inactE // mulmxA.
have dE i k : mm_den (G i) (C i) k = gpb_den fl eig H Z C A i k.
  rewrite /mm_den; under eq_bigr do rewrite mE -[re _]/(rtr _) rtr_latG.
  rewrite exchange_big /gpb_den; apply: eq_bigr => n _; rewrite mulr_sumr; apply: eq_bigr => j _.
  by rewrite /tr_RH inactE.
have pGd i j k : pd (G i j k) by exact: latG_pd.
have pG i j k := pd_psd (pGd i j k).
have G0 i k : exists j, G i j k != 0 by exists (Ordinal T0); exact: pd_neq0.
have lv i : (0 < eps)%coqR \/ (eps = 0%coqR /\ forall k, (0 < mm_num (G i) (XX i) (C i) k)%coqR).
  case: live => [|[e h]]; [by left|right; split=> // k].
  have [j hj] := h i.
  apply: (@sumR_gt0 _ _ j) => [j'|].
    rewrite mE; apply: mm_term_num => //; by have [] := pd_inv (pR i j').
  by rewrite mE; apply: num_gt0 => //; apply: pd_inv.
have D i := @mm_descent_mx _ _ (fun _ => M) (G i) (XX i) (C i) eps (pG i) (pX i) (C0 i)
   (Ce i) (fun j => eq_ind_r (fun z => pd z) (pR i j) (mE C i j)) (G0 i) (lv i).
pose C' i k := mm_new (G i) (XX i) (C i) eps k.
exists C'; split; [|by move=> i k; have [h _ _ _] := D i; exact: h|by move=> i k; have [_ h _ _] := D i; exact: h|].
- rewrite /gauss_pbasis rpsd_unitP // ifT; last first.
    apply/forallP => i; apply/forallP => k; rewrite -nE -dE.
    apply: ratio_okP; [apply: mm_num_ge0 => // j|apply: mm_den_gt0 => // j]; by rewrite mE.
  congr Some; do 2 (apply: functional_extensionality => ?); rewrite fl_sqrt // /C' /mm_new nE dE //.
- apply: loss_mx_bins => i; have [_ _ _] := D i.
  have e s : (\sum_x cost_at (mixof (G i) (s i) x) (XX i x)) =
     \sum_j cost_at (rmodel (recon_lat Z s A) H i j) (XX i j) by apply: eq_bigr => j _; rewrite mE.
  by rewrite -!e.
Qed.

Lemma gauss_pactivation_step XX H Z C A : inact (recon_lat Z C A) H -> (0 < N)%N -> (0 < K)%N -> (0 < F)%N ->
  (forall i j, psd (XX i j)) -> (forall n i, pd (H n i)) -> (forall n k, (0 < Z n k)%coqR) ->
  (forall i k, (0 < C i k)%coqR) -> (forall k j, (0 < A k j)%coqR) ->
  (forall k j, (0 < eps)%coqR -> (eps <= A k j)%coqR) -> live_a XX ->
  exists A', [/\ gauss_pactivation fl eig XX H Z C A = Some A', forall k j, (0 < A' k j)%coqR,
    forall k j, (eps <= A' k j)%coqR &
    (loss_mx XX (rmodel (recon_lat Z C A') H) <= loss_mx XX (rmodel (recon_lat Z C A) H))%coqR].
Proof.
move=> ina N0 K0 F0 pX pH Z0 C0 A0 Ae live.
have L0 n i j := recon_lat_gt0' n i j K0 Z0 C0 A0.
have pR i j := rmodel_pd i j N0 L0 pH.
pose G (i : 'I_F) (k : 'I_K) := latG H Z (C i) i k.
have mE A1 i j : mixof G (A1^~ j) i = rmodel (recon_lat Z C A1) H i j by exact: latG_mix'.
have nE k j : mm_num G (XX^~ j) (A^~ j) k = gpa_num fl eig XX H Z C A k j.
  rewrite /mm_num; under eq_bigr do rewrite mE mulmxA -[re _]/(rtr _) rtr_latG.
  rewrite exchange_big /gpa_num; apply: eq_bigr => n _; rewrite mulr_sumr; apply: eq_bigr => i _.
  by rewrite /tr_RXXRH inactE // mulmxA.
have dE k j : mm_den G (A^~ j) k = gpa_den fl eig H Z C A k j.
  rewrite /mm_den; under eq_bigr do rewrite mE -[re _]/(rtr _) rtr_latG.
  rewrite exchange_big /gpa_den; apply: eq_bigr => n _; rewrite mulr_sumr; apply: eq_bigr => i _.
  by rewrite /tr_RH inactE.
have pGd i k : pd (G i k) by exact: latG_pd.
have pG i k := pd_psd (pGd i k).
have G0 k : exists i, G i k != 0 by exists (Ordinal F0); exact: pd_neq0.
have lv j : (0 < eps)%coqR \/ (eps = 0%coqR /\ forall k, (0 < mm_num G (XX^~ j) (A^~ j) k)%coqR).
  case: live => [|[e h]]; [by left|right; split=> // k].
  have [i hi] := h j.
  apply: (@sumR_gt0 _ _ i) => [i'|].
    rewrite mE; apply: (@mm_term_num _ _ (fun _ => M) G (XX^~ j)) => //; by have [] := pd_inv (pR i' j).
  by rewrite mE; apply: num_gt0 => //; apply: pd_inv.
have D j := @mm_descent_mx _ _ (fun _ => M) G (XX^~ j) (A^~ j) eps pG (pX^~ j) (A0^~ j)
   (Ae^~ j) (fun i => eq_ind_r (fun z => pd z) (pR i j) (mE A i j)) G0 (lv j).
pose A' k j := mm_new G (XX^~ j) (A^~ j) eps k.
exists A'; split; [|by move=> k j; have [h _ _ _] := D j; exact: h|by move=> k j; have [_ h _ _] := D j; exact: h|].
- rewrite /gauss_pactivation rpsd_unitP // ifT; last first.
    apply/forallP => k; apply/forallP => j; rewrite -nE -dE.
    apply: ratio_okP; [apply: (@mm_num_ge0 _ _ (fun _ => M) G (XX^~ j)) => // i|apply: mm_den_gt0 => // i]; by rewrite mE.
  congr Some; do 2 (apply: functional_extensionality => ?); rewrite fl_sqrt // /A' /mm_new nE dE //.
- apply: loss_mx_frames => j; have [_ _ _] := D j.
  have e s : (\sum_x cost_at (mixof G (s^~ j) x) (XX x j)) =
     \sum_i cost_at (rmodel (recon_lat Z C s) H i j) (XX i j) by apply: eq_bigr => i _; rewrite mE.
  by rewrite -!e.
Qed.

Lemma gauss_latent_step_descent XX H Z C A : inact (recon_lat Z C A) H -> (0 < N)%N -> (0 < K)%N ->
  (forall i j, psd (XX i j)) -> (forall n i, pd (H n i)) -> (forall n k, (0 < Z n k)%coqR) ->
  (forall i k, (0 < C i k)%coqR) -> (forall k j, (0 < A k j)%coqR) ->
  (exists i j, XX i j != 0) ->
  exists Z', [/\ gauss_latent_step fl eig XX H Z C A = Some Z', forall n k, (0 < Z' n k)%coqR &
    (loss_mx XX (rmodel (recon_lat Z' C A) H) <= loss_mx XX (rmodel (recon_lat Z C A) H))%coqR].
Proof.
move=> ina N0 K0 pX pH Z0 C0 A0 [i0 [j0 X0]].
have L0 n i j := recon_lat_gt0' n i j K0 Z0 C0 A0.
have pR i j := rmodel_pd i j N0 L0 pH.
pose G (x : 'I_F * 'I_T) (p : 'I_N * 'I_K) := c (C x.1 p.2 * A p.2 x.2) *: H p.1 x.1.
pose t Z1 (p : 'I_N * 'I_K) : R := Z1 p.1 p.2.
pose XXp (x : 'I_F * 'I_T) := XX x.1 x.2.
have mE Z1 x : mixof G (t Z1) x = rmodel (recon_lat Z1 C A) H x.1 x.2.
  rewrite /mixof /G -(pair_big predT predT (fun n k => c (Z1 n k) *: (c (C x.1 k * A k x.2) *: H n x.1))) /=.
  apply: eq_bigr => n _; rewrite /recon_lat c_sum scaler_suml; apply: eq_bigr => k _.
  by rewrite scalerA -cM.
have nE p : mm_num G XXp (t Z) p = gl_num fl eig XX H Z C A p.1 p.2.
  rewrite /mm_num /gl_num; under eq_bigr do rewrite mE -!scalemxAr -[re _]/(rtr _) rtrZ.
  under [RHS]eq_bigr do rewrite mulr_sumr; rewrite pair_big; apply: eq_bigr => x _.
  by rewrite /tr_RXXRH inactE // mulrA.
have dE p : mm_den G (t Z) p = gl_den fl eig H Z C A p.1 p.2.
  rewrite /mm_den /gl_den; under eq_bigr do rewrite mE -!scalemxAr -[re _]/(rtr _) rtrZ.
  under [RHS]eq_bigr do rewrite mulr_sumr; rewrite pair_big; apply: eq_bigr => x _.
  by rewrite /tr_RH inactE // mulrA.
have g0 x (p : 'I_N * 'I_K) : (0 < C x.1 p.2 * A p.2 x.2)%coqR by exact: Rmult_lt_0_compat.
have pGd x p : pd (G x p) by apply: pdZ => //; exact: c_gt0.
have pG x p := pd_psd (pGd x p).
have G0 p : exists x, G x p != 0 by exists (i0, j0); exact: pd_neq0.
have lv : (0 < 0)%coqR \/ (0%R = 0%coqR /\ forall p, (0 < mm_num G XXp (t Z) p)%coqR).
  right; split=> // p; apply: (@sumR_gt0 _ _ (i0, j0)) => [x|].
    rewrite mE; apply: mm_term_num => //; [by move=> x'; exact: pX|by have [] := pd_inv (pR x.1 x.2)].
  by rewrite mE; apply: num_gt0 => //; [exact: pd_inv|exact: pX].
have [D1 _ _ D4] := @mm_descent_mx _ _ (fun _ => M) G XXp (t Z) 0 pG (fun x => pX x.1 x.2) (fun p => Z0 p.1 p.2)
   (fun p h => False_ind _ (Rlt_irrefl _ h)) (fun x => eq_ind_r (fun z => pd z) (pR x.1 x.2) (mE Z x)) G0 lv.
pose Z' n k := mm_new G XXp (t Z) 0 (n, k).
exists Z'; split; [|by move=> n k; exact: D1|].
- rewrite /gauss_latent_step rpsd_unitP // ifT; last first.
    apply/forallP => n; apply/forallP => k; rewrite -(nE (n, k)) -(dE (n, k)).
    apply: ratio_okP; [apply: mm_num_ge0 => // x|apply: mm_den_gt0 => // x]; try by rewrite mE.
    exact: pX.
  congr Some; do 2 (apply: functional_extensionality => ?); rewrite /Z' /mm_new nE dE /=.
  rewrite Rmax_left //; apply: Rmult_le_pos; [by apply: Rlt_le; exact: Z0|exact: sqrt_pos].
- apply: loss_mx_all.
  have e s : (\sum_x cost_at (mixof G (t s) x) (XXp x)) =
     \sum_i \sum_j cost_at (rmodel (recon_lat s C A) H i j) (XX i j).
    by rewrite pair_big; apply: eq_bigr => x _; rewrite mE.
  rewrite -!e; move: D4; congr (Rle _ _); apply: eq_bigr => x _; congr cost_at.
Qed.

(** ** Spatial covariances *)
Lemma sp_P_pd L H n i : (forall n i j, (0 < L n i j)%coqR) -> inact L H ->
  (forall i j, pd (rmodel L H i j)) -> pd (sp_P fl eig L H n i).
Proof.
move=> L0 ina pR; rewrite /sp_P (bigD1 (Ordinal T0)) //=.
have p j : pd (c (L n i j) *: invmx (rpsd fl eig L H i j)).
  by rewrite inactE //; apply: pdZ; [exact: c_gt0|exact: pd_inv].
by apply: pdD => //; apply: psd_sum => j _; apply: pd_psd.
Qed.
Lemma sp_Q_pd XX L H n i : (forall n i j, (0 < L n i j)%coqR) -> inact L H ->
  (forall i j, pd (rmodel L H i j)) -> (forall i j, pd (XX i j)) -> pd (sp_Q fl eig XX L H n i).
Proof.
move=> L0 ina pR pX; rewrite /sp_Q (bigD1 (Ordinal T0)) //=.
have p j : pd (c (L n i j) *: (invmx (rpsd fl eig L H i j) *m XX i j *m invmx (rpsd fl eig L H i j))).
  rewrite inactE //; apply: pdZ; first exact: c_gt0.
  have [h _] := pd_inv (pR i j); rewrite -{1}h; apply: pd_congr_unit => //.
  by rewrite unitmx_inv pd_unit.
by apply: pdD => //; apply: psd_sum => j _; apply: pd_psd.
Qed.

(** no floor acts in the spatial update *)
Definition inact_sp XX L H : Prop := forall n i,
  [/\ to_psd eig fl (sp_P fl eig L H n i) = sp_P fl eig L H n i,
      to_psd eig fl (H n i *m sp_Q fl eig XX L H n i *m H n i) = H n i *m sp_Q fl eig XX L H n i *m H n i &
      forall G : 'M[Cx]_M, pd G -> G *m sp_P fl eig L H n i *m G = H n i *m sp_Q fl eig XX L H n i *m H n i ->
        to_psd eig fl G = G].

Lemma gauss_spatial_riccati XX L H : eigh_contract eig -> chol_contract chol ->
  inact L H -> inact_sp XX L H -> (0 < N)%N ->
  (forall n i j, (0 < L n i j)%coqR) -> (forall n i, pd (H n i)) ->
  (forall n i, pd (sp_Q fl eig XX L H n i)) ->
  exists H', [/\ gauss_spatial fl eig chol XX L H = Some H', forall n i, pd (H' n i) &
    forall n i, H' n i *m sp_P fl eig L H n i *m H' n i = H n i *m sp_Q fl eig XX L H n i *m H n i].
Proof.
move=> He Hc ina isp N0 L0 pH pQ.
have pR i j := rmodel_pd i j N0 L0 pH.
have S n i : exists G, [/\ gauss_spatial_at fl eig chol XX L H n i = Some G, pd G &
   G *m sp_P fl eig L H n i *m G = H n i *m sp_Q fl eig XX L H n i *m H n i].
  have [eP eQ hG] := isp n i.
  have pP := sp_P_pd n i L0 ina pR.
  have pHQ : pd (H n i *m sp_Q fl eig XX L H n i *m H n i).
    have [h _] := pH n i; rewrite -{1}h; apply: pd_congr_unit => //; exact: pd_unit.
  have [G [e pG eG _]] := C24_type2 He Hc pP pHQ.
  by exists G; split=> //; rewrite /gauss_spatial_at eP eQ e hG.
exists (fun n i => odflt 0 (gauss_spatial_at fl eig chol XX L H n i)); split.
- rewrite /gauss_spatial rpsd_unitP // ifT //; apply/forallP => n; apply/forallP => i.
  by have [G [-> _ _]] := S n i.
- by move=> n i; have [G [-> ? _]] := S n i.
- by move=> n i; have [G [-> _ ?]] := S n i.
Qed.

Lemma spatial_descent XX L H (H' : spat) : inact L H -> (0 < N)%N ->
  (forall n i j, (0 < L n i j)%coqR) -> (forall n i, pd (H n i)) -> (forall n i, pd (H' n i)) ->
  (forall i j, psd (XX i j)) ->
  (forall n i, H' n i *m sp_P fl eig L H n i *m H' n i = H n i *m sp_Q fl eig XX L H n i *m H n i) ->
  (loss_mx XX (rmodel L H') <= loss_mx XX (rmodel L H))%coqR.
Proof.
move=> ina N0 L0 pH pH' pX ric; apply: loss_mx_bins => i.
have pR j := rmodel_pd i j N0 L0 pH; have pR' j := rmodel_pd i j N0 L0 pH'.
apply: (@riccati_descent _ _ M (fun j n => L n i j) (XX i) (H^~ i) (H'^~ i)) => //.
- by move=> j n; apply: Rlt_le.
- move=> n; have := ric n i.
  have -> : sp_P fl eig L H n i = ricP (fun j n => L n i j) (H^~ i) n by apply: eq_bigr => j _; rewrite inactE.
  have -> // : sp_Q fl eig XX L H n i = ricQ (fun j n => L n i j) (XX i) (H^~ i) n.
  by apply: eq_bigr => j _; rewrite inactE.
Qed.

(** ** Normalisation *)
Lemma rmodel_norm H B V (tr : 'I_N -> 'I_F -> R) : (forall n i, tr n i != 0) ->
  forall i j, rmodel (recon (fun n i k => tr n i * B n i k) V) (fun n i => (c (tr n i))^-1 *: H n i) i j =
    rmodel (recon B V) H i j.
Proof.
move=> t0 i j; apply: eq_bigr => n _; rewrite scalerA; congr (_ *: _).
have -> : recon (fun n i k => tr n i * B n i k) V n i j = tr n i * recon B V n i j.
  by rewrite /recon mulr_sumr; apply: eq_bigr => k _; rewrite mulrA.
by rewrite cM mulrAC mulfV ?mul1r // c_eq0.
Qed.

(** ** Separation *)
Lemma wiener_sum (Rn : 'I_N -> 'I_F -> 'I_T -> 'M[Cx]_M) (X : 'I_F -> 'M[Cx]_(M, T)) r :
  (forall i j, to_psd eig fl (\sum_n Rn n i j) = \sum_n Rn n i j) ->
  (forall i j, \sum_n Rn n i j \in unitmx) ->
  exists2 Y, wiener fl eig Rn X r = Some Y & forall i j, \sum_n Y n i j = X i r j.
Proof.
move=> ina u; rewrite /wiener ifT; last first.
  by apply/forallP => i; apply/forallP => j; rewrite ina.
eexists; first reflexivity; move=> i j /=.
rewrite exchange_big /=; under eq_bigr do rewrite -mulr_suml.
have e a : \sum_n (invmx (to_psd eig fl (\sum_n0 Rn n0 i j)) *m Rn n i j)^H r a = (r == a)%:R.
  transitivity ((invmx (\sum_n Rn n i j) *m \sum_n Rn n i j)^H r a).
    by rewrite mulmx_sumr ctr_sum summxE ina.
  by rewrite mulVmx // ctr1 mxE.
under eq_bigr do rewrite e.
by rewrite (bigD1 r) //= eqxx mul1r big1 ?addr0 // => a /negbTE h; rewrite eq_sym h mul0r.
Qed.
End Facts.
