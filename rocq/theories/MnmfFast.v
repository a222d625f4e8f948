(** Proofs about FastGaussMNMF. *)
From Coq Require Import Reals Lra Psatz FunctionalExtensionality.
From mathcomp Require Import all_ssreflect all_algebra.
From mathcomp Require Import ring.
From Verif Require Import RStruct MxC CxR NpLin RealLemmas NmfReal NmfMM Eigh EighProofs.
From Verif Require Import SpatialIP SpatialIPProofs Prop_IP1 SpatialISS SpatialISSProofs SpatialIP2 Prop_IP2.
From Verif Require Import Scale AuxIVA AuxIVAProofs Ilrma IlrmaReal IlrmaProofs Prop_IlrmaRef.
From Verif Require Import TraceMM MnmfMM Mnmf MnmfGauss.
Import Order.TTheory GRing.Theory Num.Theory.
Set Implicit Arguments.
Unset Strict Implicit.
Unset Printing Implicit Defensive.
Local Open Scope ring_scope.
Arguments pow : simpl never.

(** Square-root multiplicative update of a scalar model *)
Section Sqrt.
Variables (C K : finType) (v : C -> K -> R) (y : C -> R) (t : K -> R) (eps : R).
Definition sq_num k : R := \sum_x v x k * (y x / qof v t x)%coqR ^+ 2.
Definition sq_den k : R := \sum_x (v x k / qof v t x)%coqR.
Definition sq_new k : R := Rmax (t k * R_sqrt.sqrt (sq_num k / sq_den k)) eps.
Hypothesis v0 : forall x k, (0 <= v x k)%coqR.
Hypotheses (t0 : forall k, (0 < t k)%coqR) (te : forall k, (0 < eps)%coqR -> (eps <= t k)%coqR).
Hypothesis q0 : forall x, (0 < qof v t x)%coqR.
Hypothesis vk : forall k, exists x, (0 < v x k)%coqR.
Hypothesis live : (0 < eps)%coqR \/ (eps = 0%coqR /\ forall k, exists x, (0 < v x k)%coqR /\ (0 < y x)%coqR).

Lemma sq_numE k : sq_num k = mu_num g2 MM v y t k.
Proof.
apply: eq_bigr => x _; congr (_ * _); rewrite g2_num // -RpowE; have := q0 x => ?.
by toR; Rf; lra.
Qed.
Lemma sq_num_ge0 k : (0 <= sq_num k)%coqR.
Proof.
apply: sumR_ge0 => x _; apply: Rmult_le_pos => //; rewrite -RpowE; exact: pow2_ge_0.
Qed.
Lemma sq_den_gt0 k : (0 < sq_den k)%coqR.
Proof. exact: mu_den_gt0. Qed.
Lemma sq_newE : sq_new = mu_new g2 MM eps v y t.
Proof.
apply: functional_extensionality => k; rewrite /sq_new /mu_new g2_expo -sq_numE.
congr Rmax; rewrite [RHS]Rmult_comm; congr Rmult.
have h : (0 <= sq_num k / sq_den k)%coqR.
  by apply: Rmult_le_pos; [exact: sq_num_ge0|apply/Rlt_le/Rinv_0_lt_compat; exact: sq_den_gt0].
case: (Rle_lt_or_eq_dec _ _ h) => [h1|h1]; first by rewrite pw_half.
by rewrite -[mu_den v t k]/(sq_den k) -h1 pw0 sqrt_0.
Qed.
Lemma sq_descent : [/\ forall k, (0 < sq_new k)%coqR, forall k, (eps <= sq_new k)%coqR,
  forall x, (0 < qof v sq_new x)%coqR &
  ((\sum_x (y x ^ 2 / qof v sq_new x + ln (qof v sq_new x))%coqR)%R <=
   (\sum_x (y x ^ 2 / qof v t x + ln (qof v t x))%coqR)%R)%coqR].
Proof.
rewrite sq_newE.
have [h1 h2 h3] := mu_model (g2_valid MM) v0 t0 te q0 vk live.
have q1 x : (0 < qof v (mu_new g2 MM eps v y t) x)%coqR by apply: mu_q_gt0 => //; exact: g2_valid.
split=> //.
by move: h3; congr (Rle _ _); apply: eq_bigr => x _; rewrite g2_loss.
Qed.
End Sqrt.

Section Facts.
Variables (N M F T K : nat) (eps : R) (fl : R -> R).
Hypothesis hfl : forall x, (0 <= x)%coqR -> fl x = Rmax x eps.
Hypotheses (N0 : (0 < N)%N) (T0 : (0 < T)%N) (K0 : (0 < K)%N).
Notation cells := ('I_N -> 'I_F -> 'I_T -> R).
Notation basis := ('I_N -> 'I_F -> 'I_K -> R).
Notation activ := ('I_N -> 'I_K -> 'I_T -> R).
Notation spec := ('I_F -> 'M[Cx]_(M, T)).
Notation diagz := ('I_F -> 'M[Cx]_M).
Notation spat := ('I_F -> 'I_N -> 'I_M -> R).
Implicit Types (B : basis) (V : activ) (L : cells) (X : spec) (Q : diagz) (D : spat).

Definition fcost X Q D L i j m : R := (qx X Q i m j ^ 2 / lambd L D i m j + ln (lambd L D i m j))%coqR.
Definition floss X Q D L : R :=
  \sum_i (meanR (fun j => \sum_m fcost X Q D L i j m) - (2 * ln (cabs (\det (Q i))))%coqR).

Lemma lambd_gt0 L D i m j : (forall n i j, (0 < L n i j)%coqR) -> (forall i n m, (0 < D i n m)%coqR) ->
  (0 < lambd L D i m j)%coqR.
Proof.
move=> L0 D0; apply: (@sumR_gt0 _ _ (Ordinal N0)) => [n|]; last exact: Rmult_lt_0_compat.
by apply: Rlt_le; apply: Rmult_lt_0_compat.
Qed.
Lemma all_imjP (p : 'I_F -> 'I_M -> 'I_T -> bool) : (forall i m j, p i m j) -> all_imj p.
Proof. by move=> h; apply/forallP => i; apply/forallP => m; apply/forallP => j. Qed.
Lemma lambd_nz L D : (forall n i j, (0 < L n i j)%coqR) -> (forall i n m, (0 < D i n m)%coqR) ->
  all_imj (fun i m j => lambd L D i m j != 0).
Proof.
move=> L0 D0; apply: all_imjP => i m j; apply/eqP.
by have := lambd_gt0 i m j L0 D0; toR; lra.
Qed.
Lemma fast_lossE X Q D L : (forall i, Q i \in unitmx) -> (forall n i j, (0 < L n i j)%coqR) ->
  (forall i n m, (0 < D i n m)%coqR) -> fast_loss X Q D L = Some (floss X Q D L).
Proof.
move=> uQ L0 D0; rewrite /fast_loss -lt0n T0 (introT forallP uQ) /= all_imjP // => i m j.
by apply/RltbP; exact: lambd_gt0.
Qed.
Lemma qx_ge0 X Q i m j : (0 <= qx X Q i m j)%coqR.
Proof. exact: cabs_ge0. Qed.

Lemma floss_bins X Q D D' L L' :
  (forall i, ((\sum_j \sum_m fcost X Q D' L' i j m)%R <= (\sum_j \sum_m fcost X Q D L i j m)%R)%coqR) ->
  (floss X Q D' L' <= floss X Q D L)%coqR.
Proof.
move=> h; apply: sumR_le => i _; apply: Rplus_le_compat_r; exact: meanR_le_sum.
Qed.
Lemma floss_frames X Q D D' L L' :
  (forall j, ((\sum_i \sum_m fcost X Q D' L' i j m)%R <= (\sum_i \sum_m fcost X Q D L i j m)%R)%coqR) ->
  (floss X Q D' L' <= floss X Q D L)%coqR.
Proof.
move=> h; rewrite /floss !sumrB; apply: Rplus_le_compat_r.
rewrite /meanR -!mulr_sumr; apply: Rmult_le_compat_l; first by apply/RleP; rewrite invr_ge0 ler0n.
rewrite exchange_big [X in (_ <= X)%coqR]exchange_big; exact: sumR_le.
Qed.
Lemma fl_sqrt' (t x : R) : (0 < t)%coqR -> fl (t * R_sqrt.sqrt x) = Rmax (t * R_sqrt.sqrt x) eps.
Proof. by move=> t0; apply: hfl; apply: Rmult_le_pos; [exact: Rlt_le|exact: sqrt_pos]. Qed.

Lemma lambd_recon D B V i m j :
  \sum_(p : 'I_N * 'I_K) B p.1 i p.2 * (D i p.1 m * V p.1 p.2 j) = lambd (recon B V) D i m j.
Proof.
rewrite -(pair_big predT predT (fun n k => B n i k * (D i n m * V n k j))) /=.
apply: eq_bigr => n _; rewrite /recon mulr_suml; apply: eq_bigr => k _.
by rewrite mulrA mulrAC.
Qed.

Definition flive_b X Q : Prop := (0 < eps)%coqR \/ (eps = 0%coqR /\ forall i, exists j m, (0 < qx X Q i m j)%coqR).
Definition flive_a X Q : Prop := (0 < eps)%coqR \/ (eps = 0%coqR /\ forall j, exists i m, (0 < qx X Q i m j)%coqR).

Lemma fast_basis_step X Q D B V : (0 < M)%N ->
  (forall n i k, (0 < B n i k)%coqR) -> (forall n k j, (0 < V n k j)%coqR) ->
  (forall i n m, (0 < D i n m)%coqR) ->
  (forall n i k, (0 < eps)%coqR -> (eps <= B n i k)%coqR) -> flive_b X Q ->
  exists B', [/\ fast_basis fl X Q D B V = Some B', forall n i k, (0 < B' n i k)%coqR,
    forall n i k, (eps <= B' n i k)%coqR &
    (floss X Q D (recon B' V) <= floss X Q D (recon B V))%coqR].
Proof.
move=> M0 B0 V0 D0 Be live.
have L0 n i j := recon_gt0 n i j K0 B0 V0.
have l0 i m j := lambd_gt0 i m j L0 D0.
pose v i (x : 'I_T * 'I_M) (p : 'I_N * 'I_K) : R := D i p.1 x.2 * V p.1 p.2 x.1.
pose y i (x : 'I_T * 'I_M) := qx X Q i x.2 x.1.
pose t B1 i (p : 'I_N * 'I_K) : R := B1 p.1 i p.2.
have qE B1 i x : qof (v i) (t B1 i) x = lambd (recon B1 V) D i x.2 x.1 by exact: lambd_recon.
have v0 i x p : (0 < v i x p)%coqR by exact: Rmult_lt_0_compat.
have nE i p : sq_num (v i) (y i) (t B i) p = fb_num X Q D B V p.1 i p.2.
  rewrite /fb_num; under [RHS]eq_bigr do rewrite mulr_sumr; rewrite pair_big; apply: eq_bigr => x _.
  by rewrite qE /v mulrA [V _ _ _ * _]mulrC.
have dE i p : sq_den (v i) (t B i) p = fb_den D B V p.1 i p.2.
  rewrite /fb_den; under [RHS]eq_bigr do rewrite mulr_sumr; rewrite pair_big; apply: eq_bigr => x _ /=.
  by rewrite qE /v; toR; rewrite /Rdiv; rewrite (Rmult_comm (D _ _ _)) Rmult_assoc.
have S i : [/\ forall p, (0 < sq_new (v i) (y i) (t B i) eps p)%coqR, forall p, (eps <= sq_new (v i) (y i) (t B i) eps p)%coqR,
  forall x, (0 < qof (v i) (sq_new (v i) (y i) (t B i) eps) x)%coqR &
  ((\sum_x (y i x ^ 2 / qof (v i) (sq_new (v i) (y i) (t B i) eps) x + ln (qof (v i) (sq_new (v i) (y i) (t B i) eps) x))%coqR)%R <=
   (\sum_x (y i x ^ 2 / qof (v i) (t B i) x + ln (qof (v i) (t B i) x))%coqR)%R)%coqR].
  apply: sq_descent.
  - by move=> x p; apply: Rlt_le.
  - by move=> p; exact: B0.
  - by move=> p; exact: Be.
  - by move=> x; rewrite qE.
  - by move=> p; exists (Ordinal T0, Ordinal M0).
  - case: live => [|[e h]]; [by left|right; split=> // p].
    by have [j [m hy]] := h i; exists (j, m).
pose B' n i k := sq_new (v i) (y i) (t B i) eps (n, k).
exists B'; split; [|by move=> n i k; have [h _ _ _] := S i; exact: h|by move=> n i k; have [_ h _ _] := S i; exact: h|].
- rewrite /fast_basis lambd_nz // ifT; last first.
    apply/forallP => n; apply/forallP => i; apply/forallP => k.
    rewrite -(nE i (n, k)) -(dE i (n, k)).
    apply: ratio_okP; first by apply: sq_num_ge0 => x p; exact: Rlt_le.
    apply: sq_den_gt0 => [x p|x|p]; [exact: Rlt_le|by rewrite qE|by exists (Ordinal T0, Ordinal M0)].
  by congr Some; do 3 (apply: functional_extensionality => ?); rewrite fl_sqrt' // /B' /sq_new nE dE.
- apply: floss_bins => i; have [_ _ _] := S i.
  have e s : \sum_x (y i x ^ 2 / qof (v i) (t s i) x + ln (qof (v i) (t s i) x))%coqR =
     \sum_j \sum_m fcost X Q D (recon s V) i j m.
    by rewrite pair_big; apply: eq_bigr => x _; rewrite qE.
  by rewrite -!e; congr (Rle _ _); apply: eq_bigr => x _; rewrite !qE.
Qed.

Lemma fast_activation_step X Q D B V : (0 < M)%N -> (0 < F)%N ->
  (forall n i k, (0 < B n i k)%coqR) -> (forall n k j, (0 < V n k j)%coqR) ->
  (forall i n m, (0 < D i n m)%coqR) ->
  (forall n k j, (0 < eps)%coqR -> (eps <= V n k j)%coqR) -> flive_a X Q ->
  exists V', [/\ fast_activation fl X Q D B V = Some V', forall n k j, (0 < V' n k j)%coqR,
    forall n k j, (eps <= V' n k j)%coqR &
    (floss X Q D (recon B V') <= floss X Q D (recon B V))%coqR].
Proof.
move=> M0 F0 B0 V0 D0 Ve live.
have L0 n i j := recon_gt0 n i j K0 B0 V0.
have l0 i m j := lambd_gt0 i m j L0 D0.
pose v (x : 'I_F * 'I_M) (p : 'I_N * 'I_K) : R := B p.1 x.1 p.2 * D x.1 p.1 x.2.
pose y j (x : 'I_F * 'I_M) := qx X Q x.1 x.2 j.
pose t V1 j (p : 'I_N * 'I_K) : R := V1 p.1 p.2 j.
have qE V1 j x : qof v (t V1 j) x = lambd (recon B V1) D x.1 x.2 j.
  by rewrite -lambd_recon; apply: eq_bigr => p _; rewrite /t /v RmulE mulrCA [V1 _ _ _ * _]mulrC.
have v0 x p : (0 < v x p)%coqR by exact: Rmult_lt_0_compat.
have nE j p : sq_num v (y j) (t V j) p = fa_num X Q D B V p.1 p.2 j.
  rewrite /fa_num; under [RHS]eq_bigr do rewrite mulr_sumr; rewrite pair_big; apply: eq_bigr => x _.
  by rewrite qE /v mulrA.
have dE j p : sq_den v (t V j) p = fa_den D B V p.1 p.2 j.
  rewrite /fa_den; under [RHS]eq_bigr do rewrite mulr_sumr; rewrite pair_big; apply: eq_bigr => x _ /=.
  by rewrite qE /v; toR; rewrite /Rdiv Rmult_assoc.
have S j : [/\ forall p, (0 < sq_new v (y j) (t V j) eps p)%coqR, forall p, (eps <= sq_new v (y j) (t V j) eps p)%coqR,
  forall x, (0 < qof v (sq_new v (y j) (t V j) eps) x)%coqR &
  ((\sum_x (y j x ^ 2 / qof v (sq_new v (y j) (t V j) eps) x + ln (qof v (sq_new v (y j) (t V j) eps) x))%coqR)%R <=
   (\sum_x (y j x ^ 2 / qof v (t V j) x + ln (qof v (t V j) x))%coqR)%R)%coqR].
  apply: sq_descent.
  - by move=> x p; apply: Rlt_le.
  - by move=> p; exact: V0.
  - by move=> p; exact: Ve.
  - by move=> x; rewrite qE.
  - by move=> p; exists (Ordinal F0, Ordinal M0).
  - case: live => [|[e h]]; [by left|right; split=> // p].
    by have [i [m hy]] := h j; exists (i, m).
pose V' n k j := sq_new v (y j) (t V j) eps (n, k).
exists V'; split; [|by move=> n k j; have [h _ _ _] := S j; exact: h|by move=> n k j; have [_ h _ _] := S j; exact: h|].
- rewrite /fast_activation lambd_nz // ifT; last first.
    apply/forallP => n; apply/forallP => k; apply/forallP => j.
    rewrite -(nE j (n, k)) -(dE j (n, k)).
    apply: ratio_okP; first by apply: sq_num_ge0 => x p; exact: Rlt_le.
    apply: sq_den_gt0 => [x p|x|p]; [exact: Rlt_le|by rewrite qE|by exists (Ordinal F0, Ordinal M0)].
  by congr Some; do 3 (apply: functional_extensionality => ?); rewrite fl_sqrt' // /V' /sq_new nE dE.
- apply: floss_frames => j; have [_ _ _] := S j.
  have e s : \sum_x (y j x ^ 2 / qof v (t s j) x + ln (qof v (t s j) x))%coqR =
     \sum_i \sum_m fcost X Q D (recon B s) i j m.
    by rewrite pair_big; apply: eq_bigr => x _; rewrite qE.
  by rewrite -!e; congr (Rle _ _); apply: eq_bigr => x _; rewrite !qE.
Qed.

Lemma fast_spatial_step X Q D L : (forall n i j, (0 < L n i j)%coqR) -> (forall i n m, (0 < D i n m)%coqR) ->
  (forall i m, exists j, (0 < qx X Q i m j)%coqR) ->
  exists D', [/\ fast_spatial X Q D L = Some D', forall i n m, (0 < D' i n m)%coqR &
    (floss X Q D' L <= floss X Q D L)%coqR].
Proof.
move=> L0 D0 live.
have l0 i m j := lambd_gt0 i m j L0 D0.
pose v i (j : 'I_T) (n : 'I_N) : R := L n i j.
pose y i m (j : 'I_T) := qx X Q i m j.
pose t D1 i m (n : 'I_N) : R := D1 i n m.
have qE D1 i m j : qof (v i) (t D1 i m) j = lambd L D1 i m j.
  by apply: eq_bigr => n _; rewrite mulrC.
have nE i m n : sq_num (v i) (y i m) (t D i m) n = fs_num X Q D L i n m.
  apply: eq_bigr => j _; rewrite qE -RpowE; have := l0 i m j => ?.
  by toR; rewrite /v /y; Rf; lra.
have dE i m n : sq_den (v i) (t D i m) n = fs_den D L i n m by apply: eq_bigr => j _; rewrite qE.
have S i m : [/\ forall p, (0 < sq_new (v i) (y i m) (t D i m) 0 p)%coqR, forall p, (0 <= sq_new (v i) (y i m) (t D i m) 0 p)%coqR,
  forall x, (0 < qof (v i) (sq_new (v i) (y i m) (t D i m) 0) x)%coqR &
  ((\sum_x (y i m x ^ 2 / qof (v i) (sq_new (v i) (y i m) (t D i m) 0) x + ln (qof (v i) (sq_new (v i) (y i m) (t D i m) 0) x))%coqR)%R <=
   (\sum_x (y i m x ^ 2 / qof (v i) (t D i m) x + ln (qof (v i) (t D i m) x))%coqR)%R)%coqR].
  apply: sq_descent.
  - by move=> j n; apply: Rlt_le; exact: L0.
  - by move=> n; exact: D0.
  - by move=> n /Rlt_irrefl.
  - by move=> j; rewrite qE.
  - by move=> n; exists (Ordinal T0); exact: L0.
  - right; split=> // n; have [j hy] := live i m; exists j; split=> //; exact: L0.
pose D' i n m := sq_new (v i) (y i m) (t D i m) 0 n.
exists D'; split; [|by move=> i n m; have [h _ _ _] := S i m; exact: h|].
- rewrite /fast_spatial lambd_nz // ifT; last first.
    apply/forallP => i; apply/forallP => n; apply/forallP => m.
    rewrite -nE -dE.
    apply: ratio_okP; first by apply: sq_num_ge0 => x p; apply: Rlt_le; exact: L0.
    apply: sq_den_gt0 => [x p|x|p]; [by apply: Rlt_le; exact: L0|by rewrite qE|exists (Ordinal T0); exact: L0].
  congr Some; apply: functional_extensionality => i; apply: functional_extensionality => n.
  apply: functional_extensionality => m; rewrite /D' /sq_new nE dE [RHS]Rmax_left.
    by rewrite mulrC.
  by apply: Rmult_le_pos; [apply: Rlt_le; exact: D0|exact: sqrt_pos].
- apply: floss_bins => i; rewrite exchange_big [X in (_ <= X)%coqR]exchange_big.
  apply: sumR_le => m _; have [_ _ _] := S i m.
  have e s : \sum_x (y i m x ^ 2 / qof (v i) (t s i m) x + ln (qof (v i) (t s i m) x))%coqR =
     \sum_j fcost X Q s L i j m by apply: eq_bigr => x _; rewrite qE.
  by rewrite -!e.
Qed.

(** ** Diagonaliser *)
Lemma floss_split X Q D L : (forall n i j, (0 < L n i j)%coqR) -> (forall i n m, (0 < D i n m)%coqR) ->
  floss X Q D L = \sum_i aux_cost (wcov (fast_phi D L i) (X i)) (Q i) +
    \sum_i meanR (fun j => \sum_m ln (lambd L D i m j)).
Proof.
move=> L0 D0; rewrite -big_split; apply: eq_bigr => i _ /=.
rewrite aux_iss /iss_cost -RsubE addrAC; congr (_ - _).
rewrite /wpower /wpower1 /meanR -mulr_sumr -mulrDr; congr (_ * _).
rewrite [X in _ = X + _]exchange_big -big_split; apply: eq_bigr => j _ /=.
rewrite -big_split; apply: eq_bigr => m _ /=.
rewrite /fcost [fast_phi _ _ _ _ _]mxE -RpowE; have := lambd_gt0 i m j L0 D0 => ?.
by toR; congr Rplus; rewrite -/(qx X Q i m j); Rf; lra.
Qed.

Lemma fast_phi_gt0 D L i m j : (forall n i j, (0 < L n i j)%coqR) -> (forall i n m, (0 < D i n m)%coqR) ->
  (0 < fast_phi D L i m j)%coqR.
Proof.
move=> L0 D0; rewrite mxE; apply: Rdiv_lt_0_compat; [exact: Rlt_0_1|exact: lambd_gt0].
Qed.

Lemma fast_diag_generic X D L Q (f : 'I_F -> option 'M[Cx]_M) :
  (forall n i j, (0 < L n i j)%coqR) -> (forall i n m, (0 < D i n m)%coqR) ->
  (forall i, exists W1, [/\ f i = Some W1, W1 \in unitmx &
     (aux_cost (wcov (fast_phi D L i) (X i)) W1 <= aux_cost (wcov (fast_phi D L i) (X i)) (Q i))%coqR]) ->
  exists Q', [/\ all_bins Q f = Some Q', forall i, Q' i \in unitmx &
    (floss X Q' D L <= floss X Q D L)%coqR].
Proof.
move=> L0 D0 hf.
have [|Q' e h] := @all_bins_ex F _ Q f (fun i W1 => W1 \in unitmx /\
     (aux_cost (wcov (fast_phi D L i) (X i)) W1 <= aux_cost (wcov (fast_phi D L i) (X i)) (Q i))%coqR).
  by move=> i; have [W1 [e1 u1 c1]] := hf i; exists W1.
exists Q'; split=> // [i|]; first by have [_ []] := h i.
rewrite !floss_split //; apply: Rplus_le_compat_r; apply: sumR_le => i _.
by have [_ []] := h i.
Qed.
End Facts.
