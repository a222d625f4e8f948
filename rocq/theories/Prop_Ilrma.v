(** C46: the NMF updates of ILRMA do not increase the loss.
    C47: the normalisations of ILRMA leave the loss unchanged.
    C49: the update of the partitioning function. *)
From Coq Require Import Reals Lra Psatz FunctionalExtensionality.
From mathcomp Require Import all_ssreflect all_algebra.
From mathcomp Require Import ring.
From Verif Require Import RStruct MxC CxR NpLin RealLemmas NmfReal NmfMM Eigh EighProofs.
From Verif Require Import SpatialIP SpatialIPProofs SpatialISS SpatialISSProofs SpatialIP2 SpatialISS2.
From Verif Require Import Scale ScaleProofs AuxIVA AuxIVAProofs Ilrma IlrmaReal IlrmaProofs.
Import Order.TTheory GRing.Theory Num.Theory.
Set Implicit Arguments.
Unset Strict Implicit.
Unset Printing Implicit Defensive.
Local Open Scope ring_scope.

Section Ilrma.
Variables (N F T K : nat).
Notation spec := ('I_F -> 'M[Cx]_(N, T)).
Notation filt := ('I_F -> 'M[Cx]_N).
Notation cells := ('I_N -> 'I_F -> 'I_T -> R).
Notation basis := ('I_N -> 'I_F -> 'I_K -> R).
Notation activ := ('I_N -> 'I_K -> 'I_T -> R).
Implicit Types (X Y : spec) (W : filt) (B : basis) (V : activ) (q : cells).

(** ** C46 *)
Lemma max_fl eps x : (0 <= x)%coqR -> max_flooring eps x = Rmax x eps.
Proof. by []. Qed.
Lemma id_fl x : (0 <= x)%coqR -> identity_fl x = Rmax x 0.
Proof. by move=> x0; rewrite Rmax_left. Qed.

(** with the default flooring, from any parameters that are at least [eps] (as those produced
    by the initialisation and by the updates are), for every class, domain and algorithm *)
Theorem C46_basis m alg eps X W B V : valid m alg -> (0 < eps)%coqR -> (0 < K)%N -> (0 < T)%N ->
  (forall i, W i \in unitmx) ->
  (forall n i k, (eps <= B n i k)%coqR) -> (forall n k j, (eps <= V n k j)%coqR) ->
  exists B' l l', [/\ update_basis m alg (max_flooring eps) (separate_all X W) B V = Some B',
    forall n i k, (eps <= B' n i k)%coqR,
    loss_filter m X W (recon B V) = Some l, loss_filter m X W (recon B' V) = Some l' & (l' <= l)%coqR].
Proof.
move=> hm e0 K0 T0 uW Be Ve.
have B0 n i k : (0 < B n i k)%coqR by have := Be n i k; lra.
have V0 n k j : (0 < V n k j)%coqR by have := Ve n k j; lra.
have [|B' [e B'0 B'e le]] := @basis_step N F T K m alg eps _ hm (@max_fl eps) (separate_all X W) B V W K0 T0 B0 V0 (fun n i k _ => Be n i k).
  by left.
exists B'; do 2 eexists; split; [exact: e|exact: B'e| | |exact: le].
- by apply: loss_filterE => // n i j; exact: recon_gt0.
- by apply: loss_filterE => // n i j; exact: recon_gt0.
Qed.
Theorem C46_activation m alg eps X W B V : valid m alg -> (0 < eps)%coqR -> (0 < K)%N -> (0 < F)%N ->
  (0 < T)%N -> (forall i, W i \in unitmx) ->
  (forall n i k, (eps <= B n i k)%coqR) -> (forall n k j, (eps <= V n k j)%coqR) ->
  exists V' l l', [/\ update_activation m alg (max_flooring eps) (separate_all X W) B V = Some V',
    forall n k j, (eps <= V' n k j)%coqR,
    loss_filter m X W (recon B V) = Some l, loss_filter m X W (recon B V') = Some l' & (l' <= l)%coqR].
Proof.
move=> hm e0 K0 F0 T0 uW Be Ve.
have B0 n i k : (0 < B n i k)%coqR by have := Be n i k; lra.
have V0 n k j : (0 < V n k j)%coqR by have := Ve n k j; lra.
have [|V' [e V'0 V'e le]] := @activation_step N F T K m alg eps _ hm (@max_fl eps) (separate_all X W) B V W K0 F0 B0 V0 (fun n k j _ => Ve n k j).
  by left.
exists V'; do 2 eexists; split; [exact: e|exact: V'e| | |exact: le].
- by apply: loss_filterE => // n i j; exact: recon_gt0.
- by apply: loss_filterE => // n i j; exact: recon_gt0.
Qed.
(** without flooring, when no row of the separated signal is silent *)
Theorem C46_basis_no_flooring m alg X W B V : valid m alg -> (0 < K)%N -> (0 < T)%N ->
  (forall i, W i \in unitmx) ->
  (forall n i k, (0 < B n i k)%coqR) -> (forall n k j, (0 < V n k j)%coqR) ->
  (forall n i, exists j, separate_all X W i n j != 0) ->
  exists B' l l', [/\ update_basis m alg identity_fl (separate_all X W) B V = Some B',
    forall n i k, (0 < B' n i k)%coqR,
    loss_filter m X W (recon B V) = Some l, loss_filter m X W (recon B' V) = Some l' & (l' <= l)%coqR].
Proof.
move=> hm K0 T0 uW B0 V0 live.
have [||B' [e B'0 B'e le]] := @basis_step N F T K m alg 0 _ hm id_fl (separate_all X W) B V W K0 T0 B0 V0.
- by move=> n i k /Rlt_irrefl.
- by right; split=> // n i; have [j hj] := live n i; exists j; exact: cabs_gt0.
exists B'; do 2 eexists; split; [exact: e|exact: B'0| | |exact: le].
- by apply: loss_filterE => // n i j; exact: recon_gt0.
- by apply: loss_filterE => // n i j; exact: recon_gt0.
Qed.
Theorem C46_activation_no_flooring m alg X W B V : valid m alg -> (0 < K)%N -> (0 < F)%N -> (0 < T)%N ->
  (forall i, W i \in unitmx) ->
  (forall n i k, (0 < B n i k)%coqR) -> (forall n k j, (0 < V n k j)%coqR) ->
  (forall n j, exists i, separate_all X W i n j != 0) ->
  exists V' l l', [/\ update_activation m alg identity_fl (separate_all X W) B V = Some V',
    forall n k j, (0 < V' n k j)%coqR,
    loss_filter m X W (recon B V) = Some l, loss_filter m X W (recon B V') = Some l' & (l' <= l)%coqR].
Proof.
move=> hm K0 F0 T0 uW B0 V0 live.
have [||V' [e V'0 V'e le]] := @activation_step N F T K m alg 0 _ hm id_fl (separate_all X W) B V W K0 F0 B0 V0.
- by move=> n k j /Rlt_irrefl.
- by right; split=> // n j; have [i hi] := live n j; exists i; exact: cabs_gt0.
exists V'; do 2 eexists; split; [exact: e|exact: V'0| | |exact: le].
- by apply: loss_filterE => // n i j; exact: recon_gt0.
- by apply: loss_filterE => // n i j; exact: recon_gt0.
Qed.
(** with partitioning function *)
Implicit Types (Z : 'I_N -> 'I_K -> R) (C : 'I_F -> 'I_K -> R) (A : 'I_K -> 'I_T -> R).
Theorem C46_partitioned_basis m alg eps X W Z C A : valid m alg -> (0 < eps)%coqR -> (0 < K)%N ->
  (0 < N)%N -> (0 < T)%N -> (forall i, W i \in unitmx) -> (forall n k, (0 < Z n k)%coqR) ->
  (forall i k, (eps <= C i k)%coqR) -> (forall k j, (eps <= A k j)%coqR) ->
  exists C' l l', [/\ update_pbasis m alg (max_flooring eps) (separate_all X W) Z C A = Some C',
    forall i k, (eps <= C' i k)%coqR,
    loss_filter m X W (recon_lat Z C A) = Some l, loss_filter m X W (recon_lat Z C' A) = Some l' & (l' <= l)%coqR].
Proof.
move=> hm e0 K0 N0 T0 uW Z0 Ce Ae.
have C0 i k : (0 < C i k)%coqR by have := Ce i k; lra.
have A0 k j : (0 < A k j)%coqR by have := Ae k j; lra.
have [|C' [e C'0 C'e le]] := @pbasis_step N F T K m alg eps _ hm (@max_fl eps) (separate_all X W) Z C A W K0 N0 T0 Z0 C0 A0 (fun i k _ => Ce i k).
  by left.
exists C'; do 2 eexists; split; [exact: e|exact: C'e| | |exact: le].
- by apply: loss_filterE => // n i j; exact: recon_lat_gt0.
- by apply: loss_filterE => // n i j; exact: recon_lat_gt0.
Qed.
Theorem C46_partitioned_activation m alg eps X W Z C A : valid m alg -> (0 < eps)%coqR -> (0 < K)%N ->
  (0 < N)%N -> (0 < F)%N -> (0 < T)%N -> (forall i, W i \in unitmx) -> (forall n k, (0 < Z n k)%coqR) ->
  (forall i k, (eps <= C i k)%coqR) -> (forall k j, (eps <= A k j)%coqR) ->
  exists A' l l', [/\ update_pactivation m alg (max_flooring eps) (separate_all X W) Z C A = Some A',
    forall k j, (eps <= A' k j)%coqR,
    loss_filter m X W (recon_lat Z C A) = Some l, loss_filter m X W (recon_lat Z C A') = Some l' & (l' <= l)%coqR].
Proof.
move=> hm e0 K0 N0 F0 T0 uW Z0 Ce Ae.
have C0 i k : (0 < C i k)%coqR by have := Ce i k; lra.
have A0 k j : (0 < A k j)%coqR by have := Ae k j; lra.
have [|A' [e A'0 A'e le]] := @pactivation_step N F T K m alg eps _ hm (@max_fl eps) (separate_all X W) Z C A W K0 N0 F0 Z0 C0 A0 (fun k j _ => Ae k j).
  by left.
exists A'; do 2 eexists; split; [exact: e|exact: A'e| | |exact: le].
- by apply: loss_filterE => // n i j; exact: recon_lat_gt0.
- by apply: loss_filterE => // n i j; exact: recon_lat_gt0.
Qed.

(** ** C49: the multiplicative step of the latent variables does not increase the loss;
    afterwards every column sums to one *)
Theorem C49_latent_step m alg X W Z C A : valid m alg -> (0 < K)%N -> (0 < F)%N -> (0 < T)%N ->
  (forall i, W i \in unitmx) -> (forall n k, (0 < Z n k)%coqR) ->
  (forall i k, (0 < C i k)%coqR) -> (forall k j, (0 < A k j)%coqR) ->
  (forall n, exists i j, separate_all X W i n j != 0) ->
  exists Z' l l', [/\ latent_step m alg (separate_all X W) Z C A = Some Z', forall n k, (0 < Z' n k)%coqR,
    loss_filter m X W (recon_lat Z C A) = Some l, loss_filter m X W (recon_lat Z' C A) = Some l' & (l' <= l)%coqR].
Proof.
move=> hm K0 F0 T0 uW Z0 C0 A0 live.
have [|Z' [e Z'0 le]] := @latent_step_descent N F T K m alg hm (separate_all X W) Z C A W K0 F0 T0 Z0 C0 A0.
  by move=> n; have [i [j h]] := live n; exists i, j; exact: cabs_gt0.
exists Z'; do 2 eexists; split; [exact: e|exact: Z'0| | |exact: le].
- by apply: loss_filterE => // n i j; exact: recon_lat_gt0.
- by apply: loss_filterE => // n i j; exact: recon_lat_gt0.
Qed.
Theorem C49_latent_sums_to_one m alg X W Z C A : valid m alg -> (0 < K)%N -> (0 < F)%N -> (0 < T)%N ->
  (0 < N)%N -> (forall i, W i \in unitmx) -> (forall n k, (0 < Z n k)%coqR) ->
  (forall i k, (0 < C i k)%coqR) -> (forall k j, (0 < A k j)%coqR) ->
  (forall n, exists i j, separate_all X W i n j != 0) ->
  exists Z', [/\ update_latent m alg (separate_all X W) Z C A = Some Z', forall n k, (0 < Z' n k)%coqR &
    forall k, \sum_n Z' n k = 1].
Proof.
move=> hm K0 F0 T0 N0 uW Z0 C0 A0 live.
have [Z1 [_ [_ [e Z10 _ _ _]]]] := C49_latent_step hm K0 F0 T0 uW Z0 C0 A0 live.
have s0 k : (0 < (\sum_n Z1 n k)%R)%coqR.
  by apply: (@sumR_gt0 _ _ (Ordinal N0)) => // n; apply: Rlt_le; exact: Z10.
rewrite /update_latent e /latent_normalise ifT; last first.
  by apply/forallP => k; apply/eqP; have := s0 k; rewrite -R0E => h1 h2; rewrite h2 in h1; lra.
eexists; split; first by [].
- by move=> n k; apply: Rdiv_lt_0_compat.
- move=> k; rewrite /Rdiv -sumR_mulr Rinv_r //.
  by have := s0 k; move: (\sum_n _)%R => z; lra.
Qed.

(** ** C47 *)
(** multiplying the signals of a source by [s] and its variance by [|s|^p] *)
Lemma loss_of_scale m alg (s : 'I_F -> 'rV[Cx]_N) Y W q : (0 < T)%N -> valid m alg ->
  (forall i n, s i 0%R n != 0) -> (forall i, W i \in unitmx) -> (forall n i j, (0 < q n i j)%coqR) ->
  loss_of m (fun i => diag_mx (s i) *m Y i) (fun i => diag_mx (s i) *m W i)
    (fun n i j => q n i j * pw (cabs (s i 0%R n)) (domain m)) = loss_of m Y W q.
Proof.
move=> T0 hm s0 uW q0; apply: eq_bigr => i _.
have S0 n : (0 < cabs (s i 0%R n))%coqR by exact: cabs_gt0.
have D0 : (0 < cabs (\det (W i)))%coqR by apply: cabs_gt0; rewrite -unitfE -unitmxE.
have -> : \sum_n meanR (fun j => cell_loss m (amp (fun i0 => diag_mx (s i0) *m Y i0) n i j)
     (q n i j * pw (cabs (s i 0%R n)) (domain m))) =
   \sum_n meanR (fun j => cell_loss m (amp Y n i j) (q n i j)) + \sum_n (2 * ln (cabs (s i 0%R n)))%coqR.
  rewrite -big_split; apply: eq_bigr => n _ /=.
  rewrite -[(2 * _)%coqR](@meanR_const T) // -meanRD; apply: eq_meanR => j.
  rewrite /amp mul_diag_mx mxE cabsM [cabs _ * cabs _]mulrC -!RmulE.
  by rewrite (cell_loss_scale hm) //; exact: cabs_ge0.
rewrite det_mulmx det_diag cabsM.
have -> : cabs (\prod_n s i 0%R n) = \prod_n cabs (s i 0%R n).
  by elim/big_rec2: _ => [|n a b _ <-]; rewrite ?cabs1 ?cabsM.
have P0 : (0 < \prod_n cabs (s i 0%R n))%coqR /\
    ln (\prod_n cabs (s i 0%R n)) = \sum_n ln (cabs (s i 0%R n)).
  elim/big_rec2: _ => [|n a b _ [b0 e]]; first by rewrite [ln _]ln_1; split=> //; toR; lra.
  have h := S0 n; split; first exact: Rmult_lt_0_compat.
  by rewrite -RmulE ln_mult // RaddE -e.
rewrite -RmulE ln_mult //; last by have [] := P0.
have [_ ->] := P0; rewrite -sumR_mull.
by toR; move: (\sum_n meanR _) (\sum_n ln _) (ln _) => a b d; Rr.
Qed.

Lemma div_rowsE p (s : 'I_N -> R) (A : 'M[Cx]_(N, p)) :
  div_rows s A = diag_mx (\row_n (c (s n))^-1) *m A.
Proof. by apply/matrixP => i j; rewrite mul_diag_mx !mxE mulrC. Qed.
Lemma psi_gt0 fl Y : (forall x, (0 <= x)%coqR -> (0 <= fl x)%coqR) -> psi_ok fl Y ->
  forall n, (0 < psi fl Y n)%coqR.
Proof.
move=> fl0 /andP[_ /forallP h] n; have [//|e] : (0 <= psi fl Y n)%coqR by apply: fl0; exact: sqrt_pos.
by have := h n; rewrite -e eqxx.
Qed.
Lemma psi_scale m p0 fl Y n (x : R) : (0 < psi fl Y n)%coqR -> p0 = domain m ->
  (x / pw (psi fl Y n) p0)%coqR = x * pw (cabs ((\row_n (c (psi fl Y n))^-1 : 'rV[Cx]_N) 0 n)) (domain m).
Proof.
move=> h ->; rewrite mxE cabsV cabs_c Rabs_pos_eq; last by exact: Rlt_le.
by rewrite -RinvE; [rewrite pw_inv // -RmulE|lra].
Qed.

Theorem C47_power m alg fl X W B V W' B' l : valid m alg ->
  (forall x, (0 <= x)%coqR -> (0 <= fl x)%coqR) ->
  norm_power m fl X W B = Some (W', B') ->
  loss_filter m X W (recon B V) = Some l -> loss_filter m X W' (recon B' V) = Some l.
Proof.
move=> hm fl0; rewrite /norm_power; case: ifP => // ok [<- <-] /loss_filterP[T0 uW q0 ->].
have p0 := psi_gt0 fl0 ok.
set Y := separate_all X W in ok p0 *.
pose s (i : 'I_F) : 'rV[Cx]_N := \row_n (c (psi fl Y n))^-1.
have sn i n : s i 0%R n != 0 by rewrite mxE invr_eq0; apply: c_neq0; have := p0 n; lra.
have qE n i j : recon (fun n i k => (B n i k / pw (psi fl Y n) (domain m))%coqR) V n i j =
   recon B V n i j * pw (cabs (s i 0%R n)) (domain m).
  rewrite /recon mulr_suml; apply: eq_bigr => k _; rewrite (@psi_scale m) //.
  by rewrite mulrAC.
rewrite loss_filterE //; last 2 first.
- move=> i; rewrite div_rowsE unitmx_mul uW andbT unitmxE det_diag unitfE.
  by apply/prodf_neq0 => n _; exact: (sn i).
- by move=> n i j; rewrite qE; apply: Rmult_lt_0_compat => //; apply: pw_gt0; exact: cabs_gt0.
congr Some; rewrite -(loss_of_scale (s := s) _ T0 hm sn uW q0).
have -> : (fun n i j => recon B V n i j * pw (cabs (s i 0%R n)) (domain m)) =
  recon (fun n i k => (B n i k / pw (psi fl Y n) (domain m))%coqR) V.
  by do 3 (apply: functional_extensionality => ?); rewrite qE.
apply: eq_bigr => i _; rewrite div_rowsE; congr (_ - _).
apply: eq_bigr => n _; apply: eq_meanR => j.
by rewrite /amp /separate_all /separate div_rowsE mulmxA.
Qed.
(** when the floor is inactive every source has unit mean power afterwards *)
Theorem C47_power_unit m fl X W B W' B' : norm_power m fl X W B = Some (W', B') ->
  (forall n, psi fl (separate_all X W) n = psi identity_fl (separate_all X W) n) ->
  forall n, (F * T)%:R^-1 * (\sum_i \sum_j (cabs (separate_all X W' i n j) ^ 2)%coqR) = 1.
Proof.
rewrite /norm_power; case: ifP => // /andP[FT /forallP ok] [<- _] hid n.
set Y := separate_all X W in ok hid *.
set S := \sum_i \sum_j (amp Y n i j ^ 2)%coqR.
have S0 : (0 <= S)%coqR by do 2! (apply: sumR_ge0 => ? _); exact: pow2_ge_0.
have FT0 : (0 <= ((F * T)%:R^-1 : R))%coqR by apply/RleP; rewrite invr_ge0 ler0n.
have M0 : (0 <= (F * T)%:R^-1 * S)%coqR by apply: Rmult_le_pos.
have pE : psi fl Y n = R_sqrt.sqrt ((F * T)%:R^-1 * S) by rewrite hid.
have p0 : (0 < psi fl Y n)%coqR.
  have [//|e] : (0 <= psi fl Y n)%coqR by rewrite pE; exact: sqrt_pos.
  by have := ok n; rewrite -e eqxx.
have -> : \sum_i \sum_j (cabs (separate_all X (fun i => div_rows (psi fl Y) (W i)) i n j) ^ 2)%coqR =
   (S / psi fl Y n ^ 2)%coqR.
  rewrite /S /Rdiv sumR_mulr; apply: eq_bigr => i _; rewrite sumR_mulr; apply: eq_bigr => j _.
  rewrite /separate_all /separate div_rowsE -mulmxA mul_diag_mx mxE [X in X * _]mxE cabsM cabsV cabs_c.
  rewrite Rabs_pos_eq; last exact: Rlt_le.
  rewrite -RmulE -RinvE; last by lra.
  by rewrite -/(separate (X i) (W i)) -/(Y i) -/(amp Y n i j); move: (amp _ _ _ _) => a; Rf; lra.
have pp : (psi fl Y n ^ 2 = (F * T)%:R^-1 * S)%coqR by rewrite pE pow2_sqrt.
rewrite -[X in _ = X]R1E.
have -> : ((F * T)%:R^-1 * (S / psi fl Y n ^ 2)%coqR)%R = (((F * T)%:R^-1 * S)%coqR / psi fl Y n ^ 2)%coqR.
  by rewrite -RmulE /Rdiv Rmult_assoc.
rewrite -pp /Rdiv Rinv_r //; apply: pow_nonzero; lra.
Qed.

(** the output given, filters implicit *)
Lemma refit_scale (s : 'rV[Cx]_N) (Y X : 'M[Cx]_(N, T)) (W : 'M[Cx]_N) :
  refit Y X = Some W -> refit (diag_mx s *m Y) X = Some (diag_mx s *m W).
Proof. by rewrite /refit; case: np_inv => // a [<-]; rewrite !mulmxA. Qed.
Lemma loss_output_scale m alg (s : 'I_F -> 'rV[Cx]_N) X Y q l : valid m alg ->
  (forall i n, s i 0%R n != 0) -> loss_output m X Y q = Some l ->
  loss_output m X (fun i => diag_mx (s i) *m Y i)
    (fun n i j => q n i j * pw (cabs (s i 0%R n)) (domain m)) = Some l.
Proof.
move=> hm sn; rewrite /loss_output; case e: (all_bins _ _) => [W|//]; have h := all_binsP e.
case: ifP => // /and3P[T0 /forallP uW /posE q0] [<-].
have [|W' -> hW'] := @all_bins_ex F _ (fun _ => 0) (fun i => refit (diag_mx (s i) *m Y i) (X i))
   (fun i x => x = diag_mx (s i) *m W i).
  by move=> i; exists (diag_mx (s i) *m W i) => //; apply: refit_scale; exact: h.
have eW' i : W' i = diag_mx (s i) *m W i by have [] := hW' i.
rewrite ifT; last first.
  rewrite T0 posP ?andbT /=; last first.
    by move=> n i j; apply: Rmult_lt_0_compat => //; apply: pw_gt0; exact: cabs_gt0.
  apply/forallP => i; rewrite eW' unitmx_mul uW andbT unitmxE det_diag unitfE.
  by apply/prodf_neq0 => n _; exact: (sn i).
congr Some; rewrite -(loss_of_scale (s := s) _ _ hm sn uW q0) ?lt0n //.
by apply: eq_bigr => i _; rewrite eW'.
Qed.
Theorem C47_power_output m alg fl X Y B V Y' B' l : valid m alg ->
  (forall x, (0 <= x)%coqR -> (0 <= fl x)%coqR) ->
  norm_power_output m fl Y B = Some (Y', B') ->
  loss_output m X Y (recon B V) = Some l -> loss_output m X Y' (recon B' V) = Some l.
Proof.
move=> hm fl0; rewrite /norm_power_output; case: ifP => // ok [<- <-] hl.
have p0 := psi_gt0 fl0 ok.
pose s (i : 'I_F) : 'rV[Cx]_N := \row_n (c (psi fl Y n))^-1.
have sn i n : s i 0%R n != 0 by rewrite mxE invr_eq0; apply: c_neq0; have := p0 n; lra.
rewrite -(loss_output_scale hm sn hl); congr loss_output.
- by apply: functional_extensionality => i; rewrite div_rowsE.
- apply: functional_extensionality => n; apply: functional_extensionality => i.
  apply: functional_extensionality => j.
  rewrite /recon mulr_suml; apply: eq_bigr => k _; rewrite (@psi_scale m) //.
  by rewrite mulrAC.
Qed.
(** with partitioning function: the latent variables still sum to one *)
Theorem C47_power_latent m alg fl X W Z C A W' Z' C' l : valid m alg ->
  (forall x, (0 <= x)%coqR -> (0 <= fl x)%coqR) ->
  norm_power_latent m fl X W Z C = Some (W', Z', C') ->
  loss_filter m X W (recon_lat Z C A) = Some l ->
  loss_filter m X W' (recon_lat Z' C' A) = Some l /\ forall k, \sum_n Z' n k = 1.
Proof.
move=> hm fl0; rewrite /norm_power_latent; case: ifP => // /andP[ok /forallP sc] [<- <- <-].
move=> /loss_filterP[T0 uW q0 ->]; have p0 := psi_gt0 fl0 ok.
set Y := separate_all X W in ok p0 sc *.
pose s (i : 'I_F) : 'rV[Cx]_N := \row_n (c (psi fl Y n))^-1.
have sn i n : s i 0%R n != 0 by rewrite mxE invr_eq0; apply: c_neq0; have := p0 n; lra.
split; last first.
  move=> k; rewrite /Rdiv -sumR_mulr Rinv_r //; apply/eqP; exact: sc.
pose sk k := \sum_n (Z n k / pw (psi fl Y n) (domain m))%coqR.
pose Z1 n k := (Z n k / pw (psi fl Y n) (domain m) / sk k)%coqR.
pose C1 (i : 'I_F) k := C i k * sk k; rewrite -/Z1 -/C1.
have qE n i j : recon_lat Z1 C1 A n i j = recon_lat Z C A n i j * pw (cabs (s i 0%R n)) (domain m).
  rewrite /recon_lat mulr_suml; apply: eq_bigr => k _; rewrite /Z1 /C1 (@psi_scale m) //.
  have S0 : sk k != 0 := sc k; rewrite RdivE; last exact/eqP.
  by rewrite -[in RHS]mulrA [_ * _ * pw _ _]mulrC !mulrA; congr (_ * _); rewrite -!mulrA; congr (_ * (_ * _));
     rewrite mulrC -mulrA mulfV ?mulr1.
rewrite loss_filterE //; last 2 first.
- move=> i; rewrite div_rowsE unitmx_mul uW andbT unitmxE det_diag unitfE.
  by apply/prodf_neq0 => n _; exact: (sn i).
- by move=> n i j; rewrite qE; apply: Rmult_lt_0_compat => //; apply: pw_gt0; exact: cabs_gt0.
congr Some; rewrite -(loss_of_scale (s := s) _ T0 hm sn uW q0).
have -> : (fun n i j => recon_lat Z C A n i j * pw (cabs (s i 0%R n)) (domain m)) = recon_lat Z1 C1 A.
  by do 3 (apply: functional_extensionality => ?); rewrite qE.
apply: eq_bigr => i _; rewrite div_rowsE; congr (_ - _).
apply: eq_bigr => n _; apply: eq_meanR => j.
by rewrite /amp /separate_all /separate div_rowsE mulmxA.
Qed.
(** normalisation by projection back, if no source has a zero reference entry *)
Theorem C47_projection_back m alg r X W B V W' B' l : valid m alg ->
  (forall i n, invmx (W i) r n != 0) ->
  norm_pb m r W B = Some (W', B') ->
  loss_filter m X W (recon B V) = Some l -> loss_filter m X W' (recon B' V) = Some l.
Proof.
move=> hm nz0; rewrite /norm_pb; case e: (all_bins _ _) => [S|//] [<- <-].
move=> /loss_filterP[T0 uW q0 ->]; have hS i : S i = invmx (W i).
  by have := all_binsP e i; rewrite np_invE // => -[<-].
pose s (i : 'I_F) : 'rV[Cx]_N := row r (S i).
have sn i n : s i 0%R n != 0 by rewrite mxE hS; exact: nz0.
have qE n i j : recon (fun n i k => B n i k * pw (cabs (S i r n)) (domain m)) V n i j =
   recon B V n i j * pw (cabs (s i 0%R n)) (domain m).
  by rewrite /recon mulr_suml; apply: eq_bigr => k _; rewrite mxE mulrAC.
rewrite loss_filterE //; last 2 first.
- move=> i; rewrite scale_rowsE unitmx_mul uW andbT unitmxE det_diag unitfE.
  by apply/prodf_neq0 => n _; exact: (sn i).
- by move=> n i j; rewrite qE; apply: Rmult_lt_0_compat => //; apply: pw_gt0; exact: cabs_gt0.
congr Some; rewrite -(loss_of_scale (s := s) _ T0 hm sn uW q0).
have -> : (fun n i j => recon B V n i j * pw (cabs (s i 0%R n)) (domain m)) =
  recon (fun n i k => B n i k * pw (cabs (S i r n)) (domain m)) V.
  by do 3 (apply: functional_extensionality => ?); rewrite qE.
apply: eq_bigr => i _; rewrite scale_rowsE; congr (_ - _).
apply: eq_bigr => n _; apply: eq_meanR => j.
by rewrite /amp /separate_all /separate scale_rowsE mulmxA.
Qed.
Theorem C47_projection_back_output m alg r X Y B V Y' B' l : valid m alg ->
  (forall i n, (X i *m (Y i)^H *m invmx (Y i *m (Y i)^H)) r n != 0) ->
  norm_pb_output m r X Y B = Some (Y', B') ->
  loss_output m X Y (recon B V) = Some l -> loss_output m X Y' (recon B' V) = Some l.
Proof.
move=> hm nz0; rewrite /norm_pb_output; case e: (all_bins _ _) => [S|//] [<- <-] hl.
have hS i : S i = X i *m (Y i)^H *m invmx (Y i *m (Y i)^H).
  by have := all_binsP e i; rewrite /np_inv; case: ifP => //= _ [<-].
pose s (i : 'I_F) : 'rV[Cx]_N := row r (S i).
have sn i n : s i 0%R n != 0 by rewrite mxE hS; exact: nz0.
rewrite -(loss_output_scale hm sn hl); congr loss_output.
- by apply: functional_extensionality => i; rewrite scale_rowsE.
- apply: functional_extensionality => n; apply: functional_extensionality => i.
  apply: functional_extensionality => j.
  by rewrite /recon mulr_suml; apply: eq_bigr => k _; rewrite mxE mulrAC.
Qed.
End Ilrma.
