(** Facts about the ILRMA updates. *)
From Coq Require Import Reals Lra Psatz FunctionalExtensionality.
From mathcomp Require Import all_ssreflect all_algebra.
From mathcomp Require Import ring.
From Verif Require Import RStruct MxC CxR NpLin RealLemmas NmfReal NmfMM Eigh EighProofs.
From Verif Require Import SpatialIP SpatialIPProofs SpatialISS SpatialISSProofs SpatialIP2 SpatialISS2.
From Verif Require Import Scale ScaleProofs AuxIVA AuxIVAProofs Ilrma IlrmaReal.
Import Order.TTheory GRing.Theory Num.Theory.
Set Implicit Arguments.
Unset Strict Implicit.
Unset Printing Implicit Defensive.
Local Open Scope ring_scope.

Section Generic.
Variables (C K : finType) (m : model) (alg : source_alg) (eps : R).
Variables (v : C -> K -> R) (ya : C -> R) (t : K -> R).
Definition mu_num k : R := \sum_c v c k * num_cell m alg (ya c) (qof v t c).
Definition mu_den k : R := \sum_c (v c k / qof v t c)%coqR.
Definition mu_new k : R := Rmax (pw (mu_num k / mu_den k)%coqR (expo m alg) * t k) eps.
Hypothesis hm : valid m alg.
Hypotheses (v0 : forall c k, (0 <= v c k)%coqR) (y0 : forall c, (0 <= ya c)%coqR).
Hypotheses (t0 : forall k, (0 < t k)%coqR) (te : forall k, (0 < eps)%coqR -> (eps <= t k)%coqR).
Hypothesis q0 : forall c, (0 < qof v t c)%coqR.
Hypothesis vk : forall k, exists c, (0 < v c k)%coqR.
Hypothesis live : (0 < eps)%coqR \/ (eps = 0%coqR /\ forall k, exists c, (0 < v c k)%coqR /\ (0 < ya c)%coqR).

Lemma mu_den_gt0 k : (0 < mu_den k)%coqR.
Proof.
have [c hc] := vk k; apply: (@sumR_gt0 _ _ c) => [d|]; last exact: Rdiv_lt_0_compat.
by apply: Rmult_le_pos => //; apply: Rlt_le; apply: Rinv_0_lt_compat.
Qed.
Let ys c := yof m (ya c) (qof v t c).
Lemma mu_numE k : mu_num k = (aof m / bof m * Anum v ys (aof m) t k)%coqR.
Proof.
rewrite /Anum sumR_mull; apply: eq_bigr => c _; rewrite (num_cellE _ hm) // -RmulE -/(ys c).
by move: (ys c) (pw _ _) (_ / _)%coqR => *; Rr.
Qed.
Lemma mu_model : [/\ forall k, (0 < mu_new k)%coqR, forall k, (eps <= mu_new k)%coqR &
  ((\sum_c cell_loss m (ya c) (qof v mu_new c))%R <= (\sum_c cell_loss m (ya c) (qof v t c))%R)%coqR].
Proof.
have a0 := aof_gt0 hm; have b0 := bof_gt0 hm.
have ys0 c : (0 <= ys c)%coqR by exact: (yof_ge0 _ hm).
have P c k : (0 <= ys c * v c k * pw (qof v t c) (- (1 + aof m)))%coqR.
  by apply: Rmult_le_pos; [exact: Rmult_le_pos|exact: pw_ge0].
have A0 k : (0 <= Anum v ys (aof m) t k)%coqR by apply: sumR_ge0 => c _.
have safe k : (0 < mu_new k)%coqR /\ (Anum v ys (aof m) t k * (pw (mu_new k / t k) (- aof m) - 1) +
    bof m * Bden v t k * (mu_new k / t k - 1) <= 0)%coqR.
  rewrite /mu_new mu_numE; apply: mu_safe => //.
  - exact: exponent_ok.
  - exact: mu_den_gt0.
  - exact: te.
  - case: live => [|[-> h]]; [by left|right; split=> //].
    have [c [h1 h2]] := h k; apply: (@sumR_gt0 _ _ c) => //.
    apply: Rmult_lt_0_compat; last exact: pw_gt0.
    by apply: Rmult_lt_0_compat => //; exact: (yof_gt0 hm).
have n0 k : (0 < mu_new k)%coqR by have [] := safe k.
split=> //; first by move=> k; exact: Rmax_r.
have q0n := q0' v0 t0 n0 q0.
have := @mm_descent C K v ys (aof m) (bof m) a0 b0 v0 ys0 t mu_new t0 n0 q0 (fun k => (proj2 (safe k))).
set S := (\sum_c _)%R => hS.
have : ((\sum_c cell_loss m (ya c) (qof v mu_new c))%R - (\sum_c cell_loss m (ya c) (qof v t c))%R <= S)%coqR.
  by rewrite sumR_sub; apply: sumR_le => c _; apply: (cell_majoriser _ hm).
by move: S hS (\sum_c _)%R (\sum_c _)%R => *; lra.
Qed.
Lemma mu_q_gt0 c : (0 < qof v mu_new c)%coqR.
Proof. by apply: q0' q0 c => //; have [] := mu_model. Qed.
End Generic.

Section Facts.
Variables (N F T K : nat).
Notation spec := ('I_F -> 'M[Cx]_(N, T)).
Notation filt := ('I_F -> 'M[Cx]_N).
Notation cells := ('I_N -> 'I_F -> 'I_T -> R).
Implicit Types (X Y : spec) (W : filt) (q : cells).

Lemma amp_ge0 Y n i j : (0 <= amp Y n i j)%coqR.
Proof. exact: cabs_ge0. Qed.
Lemma nzP q : (forall n i j, (0 < q n i j)%coqR) -> nz q.
Proof.
by move=> h; apply/forallP => n; apply/forallP => i; apply/forallP => j; apply/eqP; have := h n i j; toR; lra.
Qed.
Lemma posP q : (forall n i j, (0 < q n i j)%coqR) -> pos q.
Proof. by move=> h; apply/forallP => n; apply/forallP => i; apply/forallP => j; apply/RltbP. Qed.
Lemma posE q : pos q -> forall n i j, (0 < q n i j)%coqR.
Proof. by move=> /forallP h n i j; have /forallP/(_ i)/forallP/(_ j)/RltbP := h n. Qed.

Lemma meanR_le_sum (f g : 'I_T -> R) : ((\sum_j f j)%R <= (\sum_j g j)%R)%coqR -> (meanR f <= meanR g)%coqR.
Proof. by move=> h; apply: Rmult_le_compat_l => //; apply/RleP; rewrite invr_ge0 ler0n. Qed.

Lemma loss_of_le m Y W q q' :
  ((\sum_i \sum_n (\sum_j cell_loss m (amp Y n i j) (q' n i j)))%R <=
   (\sum_i \sum_n (\sum_j cell_loss m (amp Y n i j) (q n i j)))%R)%coqR ->
  (loss_of m Y W q' <= loss_of m Y W q)%coqR.
Proof.
move=> h.
have e q1 : loss_of m Y W q1 = T%:R^-1 * (\sum_i \sum_n \sum_j cell_loss m (amp Y n i j) (q1 n i j)) -
   \sum_i (2 * ln (cabs (\det (W i))))%coqR.
  rewrite /loss_of sumrB mulr_sumr; congr (_ - _); apply: eq_bigr => i _.
  by rewrite mulr_sumr.
rewrite !e; apply: Rplus_le_compat_r; apply: Rmult_le_compat_l => //.
by apply/RleP; rewrite invr_ge0 ler0n.
Qed.

Lemma loss_filterE m X W q : (0 < T)%N -> (forall i, W i \in unitmx) -> (forall n i j, (0 < q n i j)%coqR) ->
  loss_filter m X W q = Some (loss_of m (separate_all X W) W q).
Proof. by move=> T0 uW q0; rewrite /loss_filter -lt0n T0 (introT forallP uW) posP. Qed.
Lemma loss_filterP m X W q l : loss_filter m X W q = Some l ->
  [/\ (0 < T)%N, forall i, W i \in unitmx, forall n i j, (0 < q n i j)%coqR &
      l = loss_of m (separate_all X W) W q].
Proof.
rewrite /loss_filter; case: ifP => // /and3P[T0 /forallP uW /posE q0] [<-].
by split=> //; rewrite lt0n.
Qed.
Lemma loss_outputE m X W Y q : (0 < T)%N -> (forall i, W i \in unitmx) ->
  (forall i, row_free (X i)) -> (forall i, Y i = W i *m X i) -> (forall n i j, (0 < q n i j)%coqR) ->
  loss_output m X Y q = Some (loss_of m Y W q).
Proof.
move=> T0 uW fX eY q0; rewrite /loss_output.
have [|V -> hV] := @all_bins_ex F _ (fun _ => 0) (fun i => refit (Y i) (X i)) (fun i x => x = W i).
  move=> i; exists (W i) => //; rewrite /refit np_invE; last exact: row_free_gram.
  by rewrite eY -(mulmxA (W i)) mulmxK // row_free_gram.
have uV : [forall i, V i \in unitmx] by apply/forallP => i; have [_ ->] := hV i.
rewrite -lt0n T0 uV posP //; congr (Some _); rewrite /loss_of.
by apply: eq_bigr => i _; have [_ ->] := hV i.
Qed.

(** ** Source model *)
Section Source.
Variables (m : model) (alg : source_alg) (eps : R) (fl : R -> R).
Hypothesis hm : valid m alg.
Hypothesis hfl : forall x, (0 <= x)%coqR -> fl x = Rmax x eps.
Implicit Types (B : 'I_N -> 'I_F -> 'I_K -> R) (V : 'I_N -> 'I_K -> 'I_T -> R).

Lemma fl_step (x : R) (e t : R) : (0 < t)%coqR -> fl (pw x e * t) = Rmax (pw x e * t) eps.
Proof. by move=> t0; apply: hfl; apply: Rmult_le_pos; [exact: pw_ge0|exact: Rlt_le]. Qed.

Lemma recon_gt0 B V n i j : (0 < K)%N -> (forall n i k, (0 < B n i k)%coqR) ->
  (forall n k j, (0 < V n k j)%coqR) -> (0 < recon B V n i j)%coqR.
Proof.
move=> K0 B0 V0; apply: (@sumR_gt0 _ _ (Ordinal K0)); last exact: Rmult_lt_0_compat.
by move=> k; apply: Rlt_le; apply: Rmult_lt_0_compat.
Qed.

Lemma basis_step Y B V W : (0 < K)%N -> (0 < T)%N ->
  (forall n i k, (0 < B n i k)%coqR) -> (forall n k j, (0 < V n k j)%coqR) ->
  (forall n i k, (0 < eps)%coqR -> (eps <= B n i k)%coqR) ->
  (0 < eps)%coqR \/ (eps = 0%coqR /\ forall n i, exists j, (0 < amp Y n i j)%coqR) ->
  exists B', [/\ update_basis m alg fl Y B V = Some B', forall n i k, (0 < B' n i k)%coqR,
    forall n i k, (eps <= B' n i k)%coqR &
    (loss_of m Y W (recon B' V) <= loss_of m Y W (recon B V))%coqR].
Proof.
move=> K0 T0 B0 V0 Be live; have q0 n i j := recon_gt0 n i j K0 B0 V0.
pose v n (j : 'I_T) (k : 'I_K) := V n k j.
pose B' n i k := mu_new m alg eps (v n) (fun j => amp Y n i j) (B n i) k.
have G n i : [/\ forall k, (0 < B' n i k)%coqR, forall k, (eps <= B' n i k)%coqR &
   ((\sum_j cell_loss m (amp Y n i j) (qof (v n) (B' n i) j))%R <=
    (\sum_j cell_loss m (amp Y n i j) (qof (v n) (B n i) j))%R)%coqR].
  apply: mu_model => //.
  - by move=> j k; apply: Rlt_le; exact: V0.
  - by move=> k; exact: Be.
  - by move=> j; exact: (q0 n i j).
  - by move=> k; exists (Ordinal T0); exact: V0.
  - case: live => [|[e h]]; [by left|right; split=> // k].
    by have [j hj] := h n i; exists j; split=> //; exact: V0.
have D n i k : (0 < basis_den B V n i k)%coqR.
  apply: (@mu_den_gt0 _ _ (v n) (B n i)).
  - by move=> j k'; apply: Rlt_le; exact: V0.
  - by move=> j; exact: (q0 n i j).
  - by move=> k'; exists (Ordinal T0); exact: V0.
exists B'; split; [|by move=> n i; have [] := G n i|by move=> n i; have [] := G n i|].
- rewrite /update_basis nzP // ifT; last first.
    apply/andP; split=> //; apply/forallP => n; apply/forallP => i; apply/forallP => k.
    by apply/eqP; have := D n i k; toR; lra.
  congr Some; do 3 (apply: functional_extensionality => ?); exact: fl_step.
- apply: loss_of_le; apply: sumR_le => i _; apply: sumR_le => n _; have [_ _] := G n i.
  by [].
Qed.

Lemma activation_step Y B V W : (0 < K)%N -> (0 < F)%N ->
  (forall n i k, (0 < B n i k)%coqR) -> (forall n k j, (0 < V n k j)%coqR) ->
  (forall n k j, (0 < eps)%coqR -> (eps <= V n k j)%coqR) ->
  (0 < eps)%coqR \/ (eps = 0%coqR /\ forall n j, exists i, (0 < amp Y n i j)%coqR) ->
  exists V', [/\ update_activation m alg fl Y B V = Some V', forall n k j, (0 < V' n k j)%coqR,
    forall n k j, (eps <= V' n k j)%coqR &
    (loss_of m Y W (recon B V') <= loss_of m Y W (recon B V))%coqR].
Proof.
move=> K0 F0 B0 V0 Ve live; have q0 n i j := recon_gt0 n i j K0 B0 V0.
pose v n (i : 'I_F) (k : 'I_K) := B n i k.
have qE (V1 : 'I_N -> 'I_K -> 'I_T -> R) n j i : qof (v n) (fun k => V1 n k j) i = recon B V1 n i j.
  by apply: eq_bigr => k _; rewrite RmulE mulrC.
pose V' n k j := mu_new m alg eps (v n) (fun i => amp Y n i j) (fun k => V n k j) k.
have v0 n i k : (0 <= v n i k)%coqR by apply: Rlt_le; exact: B0.
have vq n j i : (0 < qof (v n) (fun k => V n k j) i)%coqR by rewrite qE; exact: q0.
have vk n k : exists i, (0 < v n i k)%coqR by exists (Ordinal F0); exact: B0.
have G n j : [/\ forall k, (0 < V' n k j)%coqR, forall k, (eps <= V' n k j)%coqR &
   ((\sum_i cell_loss m (amp Y n i j) (qof (v n) (fun k => V' n k j) i))%R <=
    (\sum_i cell_loss m (amp Y n i j) (qof (v n) (fun k => V n k j) i))%R)%coqR].
  apply: mu_model => //.
  - by move=> k; exact: Ve.
  - case: live => [|[e h]]; [by left|right; split=> // k].
    by have [i hi] := h n j; exists i; split=> //; exact: B0.
have numE n k j : mu_num m alg (v n) (fun i => amp Y n i j) (fun k => V n k j) k = act_num m alg B V Y n k j.
  by apply: eq_bigr => i _; rewrite qE.
have denE n k j : mu_den (v n) (fun k => V n k j) k = act_den B V n k j.
  by apply: eq_bigr => i _; rewrite qE.
have D n k j : (0 < act_den B V n k j)%coqR by rewrite -denE; apply: mu_den_gt0.
exists V'; split; [|by move=> n k j; have [] := G n j|by move=> n k j; have [] := G n j|].
- rewrite /update_activation nzP // ifT; last first.
    apply/andP; split=> //; apply/forallP => n; apply/forallP => k; apply/forallP => j.
    by apply/eqP; have := D n k j; toR; lra.
  congr Some; do 3 (apply: functional_extensionality => ?); rewrite fl_step //.
  by rewrite /V' /mu_new numE denE.
- apply: loss_of_le; rewrite exchange_big [X in (_ <= X)%coqR]exchange_big.
  apply: sumR_le => n _; rewrite exchange_big [X in (_ <= X)%coqR]exchange_big.
  apply: sumR_le => j _; have [_ _] := G n j.
  by under eq_bigr do rewrite qE; under [X in (_ <= X)%coqR -> _]eq_bigr do rewrite qE.
Qed.

(** ** With partitioning *)
Implicit Types (Z : 'I_N -> 'I_K -> R) (C : 'I_F -> 'I_K -> R) (A : 'I_K -> 'I_T -> R).
Lemma recon_lat_gt0 Z C A n i j : (0 < K)%N -> (forall n k, (0 < Z n k)%coqR) ->
  (forall i k, (0 < C i k)%coqR) -> (forall k j, (0 < A k j)%coqR) -> (0 < recon_lat Z C A n i j)%coqR.
Proof.
move=> K0 Z0 C0 A0.
have h k : (0 < Z n k * (C i k * A k j))%coqR by do 2! apply: Rmult_lt_0_compat => //.
by apply: (@sumR_gt0 _ _ (Ordinal K0)) => // k; apply: Rlt_le; exact: h.
Qed.

Lemma pbasis_step Y Z C A W : (0 < K)%N -> (0 < N)%N -> (0 < T)%N ->
  (forall n k, (0 < Z n k)%coqR) -> (forall i k, (0 < C i k)%coqR) -> (forall k j, (0 < A k j)%coqR) ->
  (forall i k, (0 < eps)%coqR -> (eps <= C i k)%coqR) ->
  (0 < eps)%coqR \/ (eps = 0%coqR /\ forall i, exists n j, (0 < amp Y n i j)%coqR) ->
  exists C', [/\ update_pbasis m alg fl Y Z C A = Some C', forall i k, (0 < C' i k)%coqR,
    forall i k, (eps <= C' i k)%coqR &
    (loss_of m Y W (recon_lat Z C' A) <= loss_of m Y W (recon_lat Z C A))%coqR].
Proof.
move=> K0 N0 T0 Z0 C0 A0 Ce live; have q0 n i j := recon_lat_gt0 n i j K0 Z0 C0 A0.
pose v (x : 'I_N * 'I_T) (k : 'I_K) : R := Z x.1 k * A k x.2.
have qE C1 i x : qof v (C1 i) x = recon_lat Z C1 A x.1 i x.2.
  by apply: eq_bigr => k _; rewrite RmulE mulrC -mulrA [A _ _ * _]mulrC.
pose ya i (x : 'I_N * 'I_T) := amp Y x.1 i x.2.
pose C' i k := mu_new m alg eps v (ya i) (C i) k.
have v1 x k : (0 < v x k)%coqR by apply: Rmult_lt_0_compat.
have v0 x k : (0 <= v x k)%coqR by exact: Rlt_le.
have vq i x : (0 < qof v (C i) x)%coqR by rewrite qE; exact: q0.
have vk k : exists x, (0 < v x k)%coqR by exists (Ordinal N0, Ordinal T0).
have G i : [/\ forall k, (0 < C' i k)%coqR, forall k, (eps <= C' i k)%coqR &
   ((\sum_x cell_loss m (ya i x) (qof v (C' i) x))%R <= (\sum_x cell_loss m (ya i x) (qof v (C i) x))%R)%coqR].
  apply: mu_model => //.
  - by move=> k; exact: Ce.
  - case: live => [|[e h]]; [by left|right; split=> // k].
    by have [n [j hj]] := h i; exists (n, j).
have numE i k : mu_num m alg v (ya i) (C i) k = pbasis_num m alg Z C A Y i k.
  by rewrite /pbasis_num pair_big; apply: eq_bigr => x _; rewrite qE.
have denE i k : mu_den v (C i) k = pbasis_den Z C A i k.
  by rewrite /pbasis_den pair_big; apply: eq_bigr => x _; rewrite qE.
have D i k : (0 < pbasis_den Z C A i k)%coqR by rewrite -denE; apply: mu_den_gt0.
exists C'; split; [|by move=> i k; have [] := G i|by move=> i k; have [] := G i|].
- rewrite /update_pbasis nzP // ifT; last first.
    apply/andP; split=> //; apply/forallP => i; apply/forallP => k.
    by apply/eqP; have := D i k; toR; lra.
  congr Some; do 2 (apply: functional_extensionality => ?); rewrite fl_step //.
  by rewrite /C' /mu_new numE denE.
- apply: loss_of_le; apply: sumR_le => i _; have [_ _] := G i.
  rewrite !pair_big; under eq_bigr do rewrite qE.
  by under [X in (_ <= X)%coqR -> _]eq_bigr do rewrite qE.
Qed.

Lemma pactivation_step Y Z C A W : (0 < K)%N -> (0 < N)%N -> (0 < F)%N ->
  (forall n k, (0 < Z n k)%coqR) -> (forall i k, (0 < C i k)%coqR) -> (forall k j, (0 < A k j)%coqR) ->
  (forall k j, (0 < eps)%coqR -> (eps <= A k j)%coqR) ->
  (0 < eps)%coqR \/ (eps = 0%coqR /\ forall j, exists n i, (0 < amp Y n i j)%coqR) ->
  exists A', [/\ update_pactivation m alg fl Y Z C A = Some A', forall k j, (0 < A' k j)%coqR,
    forall k j, (eps <= A' k j)%coqR &
    (loss_of m Y W (recon_lat Z C A') <= loss_of m Y W (recon_lat Z C A))%coqR].
Proof.
move=> K0 N0 F0 Z0 C0 A0 Ae live; have q0 n i j := recon_lat_gt0 n i j K0 Z0 C0 A0.
pose v (x : 'I_N * 'I_F) (k : 'I_K) : R := Z x.1 k * C x.2 k.
have qE A1 j x : qof v (fun k => A1 k j) x = recon_lat Z C A1 x.1 x.2 j.
  by apply: eq_bigr => k _; rewrite RmulE mulrC -mulrA.
pose ya j (x : 'I_N * 'I_F) := amp Y x.1 x.2 j.
pose A' k j := mu_new m alg eps v (ya j) (fun k => A k j) k.
have v1 x k : (0 < v x k)%coqR by apply: Rmult_lt_0_compat.
have v0 x k : (0 <= v x k)%coqR by exact: Rlt_le.
have vq j x : (0 < qof v (fun k => A k j) x)%coqR by rewrite qE; exact: q0.
have vk k : exists x, (0 < v x k)%coqR by exists (Ordinal N0, Ordinal F0).
have G j : [/\ forall k, (0 < A' k j)%coqR, forall k, (eps <= A' k j)%coqR &
   ((\sum_x cell_loss m (ya j x) (qof v (fun k => A' k j) x))%R <=
    (\sum_x cell_loss m (ya j x) (qof v (fun k => A k j) x))%R)%coqR].
  apply: mu_model => //.
  - by move=> k; exact: Ae.
  - case: live => [|[e h]]; [by left|right; split=> // k].
    by have [n [i hi]] := h j; exists (n, i).
have numE k j : mu_num m alg v (ya j) (fun k => A k j) k = pact_num m alg Z C A Y k j.
  by rewrite /pact_num pair_big; apply: eq_bigr => x _; rewrite qE.
have denE k j : mu_den v (fun k => A k j) k = pact_den Z C A k j.
  by rewrite /pact_den pair_big; apply: eq_bigr => x _; rewrite qE.
have D k j : (0 < pact_den Z C A k j)%coqR by rewrite -denE; apply: mu_den_gt0.
exists A'; split; [|by move=> k j; have [] := G j|by move=> k j; have [] := G j|].
- rewrite /update_pactivation nzP // ifT; last first.
    apply/andP; split=> //; apply/forallP => k; apply/forallP => j.
    by apply/eqP; have := D k j; toR; lra.
  congr Some; do 2 (apply: functional_extensionality => ?); rewrite fl_step //.
  by rewrite /A' /mu_new numE denE.
- apply: loss_of_le.
  have re (f : 'I_N -> 'I_F -> 'I_T -> R) :
     \sum_i \sum_n \sum_j f n i j = \sum_j \sum_(x : 'I_N * 'I_F) f x.1 x.2 j.
    under eq_bigr do rewrite exchange_big; rewrite exchange_big; apply: eq_bigr => j _.
    by rewrite exchange_big pair_big.
  rewrite (re (fun n i j => cell_loss m (amp Y n i j) (recon_lat Z C A' n i j))).
  rewrite (re (fun n i j => cell_loss m (amp Y n i j) (recon_lat Z C A n i j))).
  apply: sumR_le => j _; have [_ _] := G j.
  under eq_bigr do rewrite qE.
  by under [X in (_ <= X)%coqR -> _]eq_bigr do rewrite qE.
Qed.
End Source.

(** the multiplicative step on the latent variables is not floored *)
Section Latent.
Variables (m : model) (alg : source_alg).
Hypothesis hm : valid m alg.
Implicit Types (Z : 'I_N -> 'I_K -> R) (C : 'I_F -> 'I_K -> R) (A : 'I_K -> 'I_T -> R).
Lemma latent_step_descent Y Z C A W : (0 < K)%N -> (0 < F)%N -> (0 < T)%N ->
  (forall n k, (0 < Z n k)%coqR) -> (forall i k, (0 < C i k)%coqR) -> (forall k j, (0 < A k j)%coqR) ->
  (forall n, exists i j, (0 < amp Y n i j)%coqR) ->
  exists Z', [/\ latent_step m alg Y Z C A = Some Z', forall n k, (0 < Z' n k)%coqR &
    (loss_of m Y W (recon_lat Z' C A) <= loss_of m Y W (recon_lat Z C A))%coqR].
Proof.
move=> K0 F0 T0 Z0 C0 A0 live; have q0 n i j := recon_lat_gt0 n i j K0 Z0 C0 A0.
pose v (x : 'I_F * 'I_T) (k : 'I_K) : R := C x.1 k * A k x.2.
have qE Z1 n x : qof v (Z1 n) x = recon_lat Z1 C A n x.1 x.2 by [].
pose ya n (x : 'I_F * 'I_T) := amp Y n x.1 x.2.
pose Z' n k := mu_new m alg 0 v (ya n) (Z n) k.
have v1 x k : (0 < v x k)%coqR by apply: Rmult_lt_0_compat.
have v0 x k : (0 <= v x k)%coqR by exact: Rlt_le.
have vq n x : (0 < qof v (Z n) x)%coqR by rewrite qE; exact: q0.
have vk k : exists x, (0 < v x k)%coqR by exists (Ordinal F0, Ordinal T0).
have G n : [/\ forall k, (0 < Z' n k)%coqR, forall k, (0 <= Z' n k)%coqR &
   ((\sum_x cell_loss m (ya n x) (qof v (Z' n) x))%R <= (\sum_x cell_loss m (ya n x) (qof v (Z n) x))%R)%coqR].
  apply: mu_model => //.
  - by move=> k /Rlt_irrefl.
  - right; split=> // k; by have [i [j hj]] := live n; exists (i, j).
have numE n k : mu_num m alg v (ya n) (Z n) k = latent_num m alg Z C A Y n k.
  by rewrite /latent_num pair_big.
have denE n k : mu_den v (Z n) k = latent_den Z C A n k by rewrite /latent_den pair_big.
have D n k : (0 < latent_den Z C A n k)%coqR by rewrite -denE; apply: mu_den_gt0.
exists Z'; split; [|by move=> n k; have [] := G n|].
- rewrite /latent_step nzP // ifT; last first.
    apply/andP; split=> //; apply/forallP => n; apply/forallP => k.
    by apply/eqP; have := D n k; toR; lra.
  congr Some; do 2 (apply: functional_extensionality => ?); rewrite /Z' /mu_new numE denE Rmax_left //.
  by apply: Rmult_le_pos; [exact: pw_ge0|exact: Rlt_le].
- apply: loss_of_le; rewrite exchange_big [X in (_ <= X)%coqR]exchange_big.
  by apply: sumR_le => n _; rewrite !pair_big; have [_ _] := G n.
Qed.
End Latent.
End Facts.
