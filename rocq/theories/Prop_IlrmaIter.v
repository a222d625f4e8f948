(** C48: spatial updates and complete iterations of ILRMA do not increase the loss. *)
From Coq Require Import Reals Lra Psatz FunctionalExtensionality.
From mathcomp Require Import all_ssreflect all_algebra.
From mathcomp Require Import ring.
From Verif Require Import RStruct MxC CxR NpLin RealLemmas NmfReal NmfMM Eigh EighProofs.
From Verif Require Import SpatialIP SpatialIPProofs Prop_IP1 SpatialISS SpatialISSProofs Prop_ISS1.
From Verif Require Import SpatialIP2 SpatialIP2Proofs Prop_IP2 SpatialISS2 SpatialISS2Proofs Prop_ISS2.
From Verif Require Import Scale ScaleProofs AuxIVA AuxIVAProofs Prop_AuxIVA.
From Verif Require Import Ilrma IlrmaReal IlrmaProofs Prop_Ilrma.
Import Order.TTheory GRing.Theory Num.Theory.
Set Implicit Arguments.
Unset Strict Implicit.
Unset Printing Implicit Defensive.
Local Open Scope ring_scope.

Section Iter.
Variables (N F T : nat).
Notation spec := ('I_F -> 'M[Cx]_(N, T)).
Notation filt := ('I_F -> 'M[Cx]_N).
Notation cells := ('I_N -> 'I_F -> 'I_T -> R).
Implicit Types (X Y : spec) (W : filt) (q : cells).

Lemma loss_spatial m alg fl Y Y' W W' q : valid m alg -> (forall n i j, (0 < q n i j)%coqR) ->
  (forall n i j, floor_inactive_at m fl (amp Y n i j)) ->
  (forall i, (iss_cost (varphi m fl Y q i) (Y' i) (W' i) <= iss_cost (varphi m fl Y q i) (Y i) (W i))%coqR) ->
  (loss_of m Y' W' q <= loss_of m Y W q)%coqR.
Proof.
move=> hm q0 fi hc; apply: sumR_le => i _; have := hc i; rewrite /iss_cost.
have e (Z : spec) : wpower (varphi m fl Y q i) (Z i) =
    \sum_n meanR (fun j => (spatial_weight m fl (amp Y n i j) (q n i j) * amp Z n i j ^ 2)%coqR).
  apply: eq_bigr => n _; congr (_ * _); apply: eq_bigr => j _.
  by rewrite mxE /amp -RmulE -RpowE.
rewrite !e.
have : (\sum_n meanR (fun j => cell_loss m (amp Y' n i j) (q n i j)) <=
   \sum_n meanR (fun j => cell_loss m (amp Y n i j) (q n i j)) +
   (\sum_n meanR (fun j => (spatial_weight m fl (amp Y n i j) (q n i j) * amp Y' n i j ^ 2)%coqR) -
    \sum_n meanR (fun j => (spatial_weight m fl (amp Y n i j) (q n i j) * amp Y n i j ^ 2)%coqR)))%coqR.
  apply: (Rle_trans _ (\sum_n meanR (fun j => (cell_loss m (amp Y n i j) (q n i j) +
     (spatial_weight m fl (amp Y n i j) (q n i j) * amp Y' n i j ^ 2 -
      spatial_weight m fl (amp Y n i j) (q n i j) * amp Y n i j ^ 2))%coqR))%R).
    apply: sumR_le => n _; apply: meanR_le => j.
    have := @spatial_majoriser m alg fl (amp Y n i j) (q n i j) (amp Y' n i j) hm (q0 n i j)
      (amp_ge0 _ _ _ _) (amp_ge0 _ _ _ _) (fi n i j); lra.
  apply: Req_le; rewrite !RaddE !RsubE -sumrB -!big_split; apply: eq_bigr => n _ /=.
  by rewrite -meanRB -!meanRD; apply: eq_meanR => t; toR.
toR; move: (\sum_n meanR _) (\sum_n meanR _) (\sum_n meanR _) (\sum_n meanR _) => *; lra.
Qed.

Lemma weights_ok m alg fl Y q : valid m alg -> (forall n i j, (0 < q n i j)%coqR) ->
  (forall n i j, floor_inactive_at m fl (amp Y n i j)) ->
  varphi_ok m fl Y q /\ forall i n j, (0 < varphi m fl Y q i n j)%coqR.
Proof.
move=> hm q0 fi; have gg n i j : weight_pos m fl (amp Y n i j).
  by have := fi n i j; case: (m) => //= be p [y0 ->]; exact: pw_gt0.
split; last by move=> i n j; rewrite mxE; exact: (spatial_weight_gt0 hm (q0 n i j) (gg n i j)).
rewrite /varphi_ok nzP //=; apply/forallP => n; apply/forallP => i; apply/forallP => j.
have := gg n i j; rewrite /weight_ok; case: (m) => //= be p h.
by apply/eqP; toR; lra.
Qed.

(** ** Spatial updates *)
Lemma ip_generic m alg fl X W q (f : 'I_F -> option 'M[Cx]_N) : valid m alg -> (0 < T)%N ->
  (forall i, W i \in unitmx) -> (forall n i j, (0 < q n i j)%coqR) ->
  (forall n i j, floor_inactive_at m fl (amp (separate_all X W) n i j)) ->
  (forall i, exists2 x, f i = Some x & x \in unitmx /\
     (aux_cost (wcov (varphi m fl (separate_all X W) q i) (X i)) x <=
      aux_cost (wcov (varphi m fl (separate_all X W) q i) (X i)) (W i))%coqR) ->
  exists W' l l', [/\ all_bins W f = Some W', forall i, W' i \in unitmx,
    loss_filter m X W q = Some l, loss_filter m X W' q = Some l' & (l' <= l)%coqR].
Proof.
move=> hm T0 uW q0 fi hf; have [W' e hW'] := @all_bins_ex F _ W f _ hf.
have uW' i : W' i \in unitmx by have [_ []] := hW' i.
exists W'; do 2 eexists; split; [exact: e|exact: uW'|exact: loss_filterE|exact: loss_filterE|].
apply: (loss_spatial hm q0 fi) => i; have [_ [_]] := hW' i.
by rewrite !aux_iss.
Qed.
Theorem C48_spatial_ip1 m alg eps X W q : valid m alg -> (0 < eps <= 1)%coqR -> (0 < T)%N ->
  (forall i, W i \in unitmx) -> (forall i, row_free (X i)) -> (forall n i j, (0 < q n i j)%coqR) ->
  (forall n i j, floor_inactive_at m (max_flooring eps) (amp (separate_all X W) n i j)) ->
  exists W' l l', [/\ spatial_ip1 m (max_flooring eps) X W q = Some W', forall i, W' i \in unitmx,
    loss_filter m X W q = Some l, loss_filter m X W' q = Some l' & (l' <= l)%coqR].
Proof.
move=> hm he T0 uW fX q0 fi; have [ok w0] := weights_ok hm q0 fi.
rewrite /spatial_ip1 -lt0n T0 ok; apply: (ip_generic hm) => // i.
have pU n := wcov_pd (w0 i n) (fX i).
have [W1 e1 h1] := C40_sweep_monotone he pU (uW i).
have [|W2] := @C39_sweep _ (max_flooring eps) _ (W i) _ pU (uW i).
  by move=> x x0; apply: Rlt_le_trans (Rmax_l _ _).
by rewrite e1 => -[<-] u2; exists W1.
Qed.
Theorem C48_spatial_ip1_no_flooring m alg X W q : valid m alg -> (0 < T)%N ->
  (forall i, W i \in unitmx) -> (forall i, row_free (X i)) -> (forall n i j, (0 < q n i j)%coqR) ->
  (forall n i j, if m is GGD _ _ then separate_all X W i n j != 0 else true) ->
  exists W' l l', [/\ spatial_ip1 m identity_fl X W q = Some W', forall i, W' i \in unitmx,
    loss_filter m X W q = Some l, loss_filter m X W' q = Some l' & (l' <= l)%coqR].
Proof.
move=> hm T0 uW fX q0 hg.
have fi n i j : floor_inactive_at m identity_fl (amp (separate_all X W) n i j).
  by have := hg n i j; case: (m) => //= be p h; split=> //; exact: cabs_gt0.
have [ok w0] := weights_ok hm q0 fi.
rewrite /spatial_ip1 -lt0n T0 ok; apply: (ip_generic hm) => // i.
have pU n := wcov_pd (w0 i n) (fX i).
have [W1 e1 h1] := C40_sweep_monotone_identity pU (uW i).
have [|W2] := @C39_sweep _ identity_fl _ (W i) _ pU (uW i); first by [].
by rewrite e1 => -[<-] u2; exists W1.
Qed.
Lemma iss_generic m alg fl X W Y q (f : 'I_F -> option 'M[Cx]_(N, T)) : valid m alg -> (0 < T)%N ->
  (forall i, W i \in unitmx) -> (forall i, row_free (X i)) -> (forall i, Y i = W i *m X i) ->
  (forall n i j, (0 < q n i j)%coqR) ->
  (forall n i j, floor_inactive_at m fl (amp Y n i j)) ->
  (forall i, exists2 x, f i = Some x & exists V : 'M[Cx]_N, [/\ x = V *m X i, V \in unitmx &
     (iss_cost (varphi m fl Y q i) x V <= iss_cost (varphi m fl Y q i) (Y i) (W i))%coqR]) ->
  exists Y' W' l l', [/\ all_bins Y f = Some Y', forall i, W' i \in unitmx /\ Y' i = W' i *m X i,
    loss_output m X Y q = Some l, loss_output m X Y' q = Some l' & (l' <= l)%coqR].
Proof.
move=> hm T0 uW fX eY q0 fi hf; have [Y' e hY'] := @all_bins_ex F _ Y f _ hf.
have [W' hW'] : exists W' : filt, forall i, [/\ Y' i = W' i *m X i, W' i \in unitmx &
    (iss_cost (varphi m fl Y q i) (Y' i) (W' i) <= iss_cost (varphi m fl Y q i) (Y i) (W i))%coqR].
  apply: (@fin_all_exists _ (fun _ => 'M[Cx]_N) (fun i V => [/\ Y' i = V *m X i, V \in unitmx &
    (iss_cost (varphi m fl Y q i) (Y' i) V <= iss_cost (varphi m fl Y q i) (Y i) (W i))%coqR])) => i.
  by have [_] := hY' i.
have uW' i : W' i \in unitmx by have [] := hW' i.
have eW' i : Y' i = W' i *m X i by have [] := hW' i.
exists Y', W'; do 2 eexists; split; [exact: e|by move=> i; split| | |].
- exact: (loss_outputE _ T0 uW fX eY).
- exact: (loss_outputE _ T0 uW' fX eW').
- by apply: (loss_spatial hm q0 fi) => i; have [] := hW' i.
Qed.
Theorem C48_spatial_iss1 m alg eps X W Y q : valid m alg -> (0 < eps <= 1)%coqR -> (0 < T)%N ->
  (forall i, W i \in unitmx) -> (forall i, row_free (X i)) -> (forall i, Y i = W i *m X i) ->
  (forall n i j, (0 < q n i j)%coqR) ->
  (forall n i j, floor_inactive_at m (max_flooring eps) (amp Y n i j)) ->
  exists Y' W' l l', [/\ spatial_iss1 m (max_flooring eps) Y q = Some Y',
    forall i, W' i \in unitmx /\ Y' i = W' i *m X i,
    loss_output m X Y q = Some l, loss_output m X Y' q = Some l' & (l' <= l)%coqR].
Proof.
move=> hm he T0 uW fX eY q0 fi; have [ok w0] := weights_ok hm q0 fi.
rewrite /spatial_iss1 ok; apply: (iss_generic hm T0 uW fX eY q0 fi) => i.
have [V [e uV cV]] := @C43_sweep_monotone N T eps (varphi m (max_flooring eps) Y q i) (W i) (X i) T0
  (fun k t => Rlt_le _ _ (w0 i k t)) he (uW i).
by rewrite eY e; eexists; [|exists V].
Qed.
Section Pairwise.
Variables (eig : eigh_t) (chol : chol_t).
Hypotheses (He : eigh_contract eig) (Hc : chol_contract chol).
(** IP2 and ISS2 without flooring (see C41, C44) *)
Theorem C48_spatial_ip2 m alg X W q ps : valid m alg -> (0 < T)%N -> all (fun p => p.1 != p.2) ps ->
  (forall i, W i \in unitmx) -> (forall i, row_free (X i)) -> (forall n i j, (0 < q n i j)%coqR) ->
  (forall n i j, if m is GGD _ _ then separate_all X W i n j != 0 else true) ->
  exists W' l l', [/\ spatial_ip2 m identity_fl eig chol X ps W q = Some W', forall i, W' i \in unitmx,
    loss_filter m X W q = Some l, loss_filter m X W' q = Some l' & (l' <= l)%coqR].
Proof.
move=> hm T0 ap uW fX q0 hg.
have fi n i j : floor_inactive_at m identity_fl (amp (separate_all X W) n i j).
  by have := hg n i j; case: (m) => //= be p h; split=> //; exact: cabs_gt0.
have [ok w0] := weights_ok hm q0 fi.
rewrite /spatial_ip2 -lt0n T0 ok; apply: (ip_generic hm) => // i.
have pU n := wcov_pd (w0 i n) (fX i).
have [W1 [e1 u1 h1]] := C41_sweep_monotone He Hc pU (uW i) ap.
by exists W1.
Qed.
Theorem C48_spatial_iss2 m alg X W Y q (ps : seq ('I_N * 'I_N)) : valid m alg -> (0 < T)%N ->
  all (fun p => p.1 != p.2) ps ->
  (forall i, W i \in unitmx) -> (forall i, row_free (X i)) -> (forall i, Y i = W i *m X i) ->
  (forall n i j, (0 < q n i j)%coqR) ->
  (forall n i j, if m is GGD _ _ then Y i n j != 0 else true) ->
  exists Y' W' l l', [/\ spatial_iss2 m identity_fl eig chol [seq (val p.1, val p.2) | p <- ps] Y q = Some Y',
    forall i, W' i \in unitmx /\ Y' i = W' i *m X i,
    loss_output m X Y q = Some l, loss_output m X Y' q = Some l' & (l' <= l)%coqR].
Proof.
move=> hm T0 ap uW fX eY q0 hg.
have fi n i j : floor_inactive_at m identity_fl (amp Y n i j).
  by have := hg n i j; case: (m) => //= be p h; split=> //; exact: cabs_gt0.
have [ok w0] := weights_ok hm q0 fi.
rewrite /spatial_iss2 ok; apply: (iss_generic hm T0 uW fX eY q0 fi) => i.
have [V [e uV cV]] := C44_sweep_monotone He Hc T0 (w0 i) (fX i) (uW i) ap.
by rewrite !to_rowsE eY e /= of_rowsK; eexists; [|exists V].
Qed.
End Pairwise.

(** ** Complete iterations *)
Variable K : nat.
Notation basis := ('I_N -> 'I_F -> 'I_K -> R).
Notation activ := ('I_N -> 'I_K -> 'I_T -> R).
Implicit Types (B : basis) (V : activ).

Theorem C48_ip1 m alg eps nrm X W B V : valid m alg -> (0 < eps <= 1)%coqR ->
  (0 < K)%N -> (0 < F)%N -> (0 < T)%N ->
  (forall i, W i \in unitmx) -> (forall i, row_free (X i)) ->
  (forall n i k, (eps <= B n i k)%coqR) -> (forall n k j, (eps <= V n k j)%coqR) ->
  (forall n i j, floor_inactive_at m (max_flooring eps) (amp (separate_all X W) n i j)) ->
  exists W' B' V' l l', [/\ ilrma_once_ip1 m alg (max_flooring eps) nrm X (StateW W B V) = Some (StateW W' B' V'),
    [/\ forall i, W' i \in unitmx, forall n i k, ((if nrm then 0 else eps) <= B' n i k)%coqR &
        forall n k j, (eps <= V' n k j)%coqR],
    loss_filter m X W (recon B V) = Some l, loss_filter m X W' (recon B' V') = Some l' & (l' <= l)%coqR].
Proof.
move=> hm he K0 F0 T0 uW fX Be Ve fi; have e0 : (0 < eps)%coqR by lra.
have [B1 [l [l1 [eB B1e El El1 le1]]]] := C46_basis X hm e0 K0 T0 uW Be Ve.
have [V1 [l1' [l2 [eV V1e El1' El2 le2]]]] := C46_activation X hm e0 K0 F0 T0 uW B1e Ve.
have q0 n i j : (0 < recon B1 V1 n i j)%coqR.
  apply: recon_gt0 => // [n' i' k'|n' k' j']; [have := B1e n' i' k'|have := V1e n' k' j']; lra.
have [W1 [l2' [l3 [eW uW1 El2' El3 le3]]]] := C48_spatial_ip1 hm he T0 uW fX q0 fi.
move: El1' El2' le2 le3; rewrite El1 El2 => -[<-] [<-] le2 le3.
rewrite /ilrma_once_ip1 eB eV eW; case: nrm; last first.
  by exists W1, B1, V1, l, l3; split=> //; lra.
case eN: (norm_power m (max_flooring eps) X W1 B1) => [[W2 B2]|]; last first.
  move: eN; rewrite /norm_power; case: ifP => // /negP[]; rewrite /psi_ok muln_eq0 negb_or -!lt0n F0 T0 /=.
  by apply/forallP => n; apply/eqP; rewrite /psi /max_flooring => h; have := Rmax_r (R_sqrt.sqrt ((F * T)%:R^-1 *
    (\sum_i \sum_j (amp (separate_all X W1) n i j ^ 2)%coqR))) eps; rewrite h; toR; lra.
have fl0 x : (0 <= x)%coqR -> (0 <= max_flooring eps x)%coqR.
  by move=> _; apply: Rle_trans (Rmax_r _ _); lra.
have El3' := C47_power hm fl0 eN El3.
exists W2, B2, V1, l, l3; split=> //; last by lra.
split=> //; first by have [] := loss_filterP El3'.
move: eN; rewrite /norm_power; case: ifP => // ok [_ <-] n i k.
have p0 := psi_gt0 fl0 ok n; have := B1e n i k => h.
by apply: Rlt_le; apply: Rdiv_lt_0_compat; [lra|exact: pw_gt0].
Qed.
Theorem C48_iss1 m alg eps nrm X W Y B V : valid m alg -> (0 < eps <= 1)%coqR ->
  (0 < K)%N -> (0 < F)%N -> (0 < T)%N ->
  (forall i, W i \in unitmx) -> (forall i, row_free (X i)) -> (forall i, Y i = W i *m X i) ->
  (forall n i k, (eps <= B n i k)%coqR) -> (forall n k j, (eps <= V n k j)%coqR) ->
  (forall n i j, floor_inactive_at m (max_flooring eps) (amp Y n i j)) ->
  exists Y' W' B' V' l l', [/\ ilrma_once_iss1 m alg (max_flooring eps) nrm (StateY Y B V) = Some (StateY Y' B' V'),
    [/\ forall i, W' i \in unitmx /\ Y' i = W' i *m X i, forall n i k, ((if nrm then 0 else eps) <= B' n i k)%coqR &
        forall n k j, (eps <= V' n k j)%coqR],
    loss_output m X Y (recon B V) = Some l, loss_output m X Y' (recon B' V') = Some l' & (l' <= l)%coqR].
Proof.
move=> hm he K0 F0 T0 uW fX eY Be Ve fi; have e0 : (0 < eps)%coqR by lra.
have sY : separate_all X W = Y by apply: functional_extensionality => i; rewrite eY.
have lossE q : (forall n i j, (0 < q n i j)%coqR) -> loss_output m X Y q = loss_filter m X W q.
  by move=> q0; rewrite (loss_outputE _ T0 uW fX eY q0) loss_filterE // sY.
have [B1 [l [l1 [eB B1e El El1 le1]]]] := C46_basis X hm e0 K0 T0 uW Be Ve.
have [V1 [l1' [l2 [eV V1e El1' El2 le2]]]] := C46_activation X hm e0 K0 F0 T0 uW B1e Ve.
have q0 B2 V2 : (forall n i k, (eps <= B2 n i k)%coqR) -> (forall n k j, (eps <= V2 n k j)%coqR) ->
  forall n i j, (0 < recon B2 V2 n i j)%coqR.
  move=> h1 h2 n i j; apply: recon_gt0 => // [n' i' k'|n' k' j'].
    by have := h1 n' i' k'; lra.
  by have := h2 n' k' j'; lra.
have [Y1 [W1 [l2' [l3 [eW uW1 El2' El3 le3]]]]] := C48_spatial_iss1 hm he T0 uW fX eY (q0 _ _ B1e V1e) fi.
move: El2'; rewrite lossE; last exact: q0.
move: El1' le2 le3; rewrite El1 El2 => -[<-] le2 le3 [E2]; rewrite -E2 in le3.
rewrite sY in eB eV; rewrite /ilrma_once_iss1 eB eV eW lossE; last exact: q0.
case: nrm; last by exists Y1, W1, B1, V1, l, l3; split=> //; lra.
case eN: (norm_power_output m (max_flooring eps) Y1 B1) => [[Y2 B2]|]; last first.
  move: eN; rewrite /norm_power_output; case: ifP => // /negP[]; rewrite /psi_ok muln_eq0 negb_or -!lt0n F0 T0 /=.
  by apply/forallP => n; apply/eqP; rewrite /psi /max_flooring => h; have := Rmax_r (R_sqrt.sqrt ((F * T)%:R^-1 *
    (\sum_i \sum_j (amp Y1 n i j ^ 2)%coqR))) eps; rewrite h; toR; lra.
have fl0 x : (0 <= x)%coqR -> (0 <= max_flooring eps x)%coqR.
  by move=> _; apply: Rle_trans (Rmax_r _ _); lra.
have El3' := C47_power_output hm fl0 eN El3.
move: eN; rewrite /norm_power_output; case: ifP => // ok [eY2 eB2].
have p0 := psi_gt0 fl0 ok.
exists Y2, (fun i => div_rows (psi (max_flooring eps) Y1) (W1 i)), B2, V1, l, l3; split=> //; last by lra.
split=> //.
- move=> i; have [u e] := uW1 i; split.
    rewrite div_rowsE unitmx_mul u andbT unitmxE det_diag unitfE.
    by apply/prodf_neq0 => n _; rewrite mxE invr_eq0; apply: c_neq0; have := p0 n; lra.
  by rewrite -eY2 !div_rowsE e mulmxA.
- move=> n i k; rewrite -eB2; have := B1e n i k => h.
  by apply: Rlt_le; apply: Rdiv_lt_0_compat; [lra|exact: pw_gt0].
Qed.

(** any number of iterations of GaussILRMA or TILRMA with IP1 without normalisation *)
Fixpoint ilrma_iter m alg fl nrm X (k : nat) (s : state_w N F T K) : option (state_w N F T K) :=
  if k is k'.+1 then if ilrma_once_ip1 m alg fl nrm X s is Some s1 then ilrma_iter m alg fl nrm X k' s1 else None
  else Some s.
Lemma ilrma_iterS m alg fl nrm X k s : ilrma_iter m alg fl nrm X k.+1 s =
  if ilrma_once_ip1 m alg fl nrm X s is Some s1 then ilrma_iter m alg fl nrm X k s1 else None.
Proof. by []. Qed.
Theorem C48_run m alg eps X W B V k : (if m is GGD _ _ then false else true) ->
  valid m alg -> (0 < eps <= 1)%coqR -> (0 < K)%N -> (0 < F)%N -> (0 < T)%N ->
  (forall i, W i \in unitmx) -> (forall i, row_free (X i)) ->
  (forall n i k, (eps <= B n i k)%coqR) -> (forall n k j, (eps <= V n k j)%coqR) ->
  exists W' B' V' l l', [/\ ilrma_iter m alg (max_flooring eps) false X k (StateW W B V) = Some (StateW W' B' V'),
    forall i, W' i \in unitmx,
    loss_filter m X W (recon B V) = Some l, loss_filter m X W' (recon B' V') = Some l' & (l' <= l)%coqR].
Proof.
move=> nG hm he K0 F0 T0 uW fX Be Ve.
elim: k W B V uW Be Ve => [|k IH] W B V uW Be Ve.
  have q0 n i j : (0 < recon B V n i j)%coqR.
    by apply: recon_gt0 => // [n' i' k'|n' k' j']; [have := Be n' i' k'|have := Ve n' k' j']; lra.
  have E := loss_filterE m X T0 uW q0.
  by exists W, B, V; do 2 eexists; split; [|exact: uW|exact: E|exact: E|exact: Rle_refl].
have fi n i j : floor_inactive_at m (max_flooring eps) (amp (separate_all X W) n i j) by case: (m) nG.
rewrite ilrma_iterS; have [W1 [B1 [V1 [l [l1 [-> [uW1 B1e V1e] El El1 le1]]]]]] := C48_ip1 false hm he K0 F0 T0 uW fX Be Ve fi.
have [W2 [B2 [V2 [l1' [l2 [-> uW2 El1' El2 le2]]]]]] := IH W1 B1 V1 uW1 B1e V1e.
exists W2, B2, V2, l, l2; split=> //.
by move: El1'; rewrite El1 => -[h]; rewrite -h in le2; lra.
Qed.
End Iter.
