(** C79 for ILRMA: the frames of the recording and of the activations in another order, or
    repeated, give the same filters, bases and losses. *)
From Coq Require Import Reals Lra FunctionalExtensionality.
From mathcomp Require Import all_ssreflect all_algebra.
From mathcomp Require Import ring.
From Verif Require Import RStruct MxC CxR NpLin RealLemmas NmfReal Eigh SpatialIP SpatialIP2 SpatialISS SpatialISS2 Scale AuxIVA AuxIVARun.
From Verif Require Import CubicProofs AuxFDICA AuxIVACall ScaleProofs Ilrma IlrmaRun EighProofs Prop_AuxGain Prop_IlrmaIter Prop_AuxIVAFloor Prop_IlrmaRef Prop_Frames.
Import Order.TTheory GRing.Theory Num.Theory.
Set Implicit Arguments.
Unset Strict Implicit.
Unset Printing Implicit Defensive.
Local Open Scope ring_scope.

Section ILRMA.
Variables (N F T T' K : nat) (f : 'I_T' -> 'I_T) (ef : even_frames f).
Variables (m : model) (alg : source_alg) (fl : R -> R) (eig : eigh_t) (chol : chol_t).
Notation spec T := ('I_F -> 'M[Cx]_(N, T)).
Notation filt := ('I_F -> 'M[Cx]_N).
Notation cells T := ('I_N -> 'I_F -> 'I_T -> R).
Notation basis := ('I_N -> 'I_F -> 'I_K -> R).
Notation activ T := ('I_N -> 'I_K -> 'I_T -> R).
Notation latent := ('I_N -> 'I_K -> R).
Notation pbasis := ('I_F -> 'I_K -> R).
Notation pactiv T := ('I_K -> 'I_T -> R).
Implicit Types (X Y : spec T) (W : filt) (B : basis) (V : activ T) (q : cells T).
(** the activations at the frames [f] *)
Definition fact (V : activ T) : activ T' := fun n k s => V n k (f s).
Definition fpact (A : pactiv T) : pactiv T' := fun k s => A k (f s).
Definition fcells (q : cells T) : cells T' := fun n i s => q n i (f s).
Notation fs := (fspec f).

Lemma fun3 (S1 S2 S3 S4 : Type) (g h : S1 -> S2 -> S3 -> S4) : (forall a b d, g a b d = h a b d) -> g = h.
Proof. by move=> E; do 3![apply: functional_extensionality => ?]. Qed.
Lemma fun2 (S1 S2 S3 : Type) (g h : S1 -> S2 -> S3) : (forall a b, g a b = h a b) -> g = h.
Proof. by move=> E; do 2![apply: functional_extensionality => ?]. Qed.
Lemma amp_frames Y n i s : amp (fs Y) n i s = amp Y n i (f s).
Proof. by rewrite /amp /fspec mxE. Qed.
Lemma recon_frames B V : recon B (fact V) = fcells (recon B V).
Proof. by apply: fun3. Qed.
Lemma cells_frames (P : 'I_N -> 'I_F -> pred 'I_T) :
  [forall n, [forall i, [forall s, P n i (f s)]]] = [forall n, [forall i, [forall t, P n i t]]].
Proof. by apply: eq_forallb => n; apply: eq_forallb => i; exact: (forall_frames ef (P n i)). Qed.
Lemma nz_frames q : nz (fcells q) = nz q.
Proof. exact: (cells_frames (fun n i t => q n i t != 0)). Qed.
Lemma pos_frames q : pos (fcells q) = pos q.
Proof. exact: (cells_frames (fun n i t => Rltb 0 (q n i t))). Qed.
(** ** source model *)
Lemma quot_frames (a b : R) k : (0 < k)%N -> b != 0 -> ((a *+ k)%R / (b *+ k)%R = a / b)%coqR.
Proof.
move=> k0 b0; rewrite -[(a *+ k)%R]mulr_natl -[(b *+ k)%R]mulr_natl -!RmulE -RnatE.
have hk : (0 < INR k)%coqR by apply: lt_0_INR; exact/ssrnat.ltP.
have hb : b <> 0%coqR by apply/eqP.
Rfield; split => //; lra.
Qed.
Lemma mulrn_neq0 (b : R) k : (0 < k)%N -> (b *+ k != 0) = (b != 0).
Proof. by move=> k0; rewrite mulrn_eq0 eqn0Ngt k0. Qed.
Lemma update_basis_frames Y B V : update_basis m alg fl (fs Y) B (fact V) = update_basis m alg fl Y B V.
Proof.
have [k k0 ek] := ef; rewrite /update_basis recon_frames nz_frames.
have dE n i j : basis_den B (fact V) n i j = basis_den B V n i j *+ k.
  by rewrite /basis_den recon_frames -(sum_frames _ ek).
have nE n i j : basis_num m alg B (fact V) (fs Y) n i j = basis_num m alg B V Y n i j *+ k.
  rewrite /basis_num recon_frames -(sum_frames _ ek); apply: eq_bigr => s _.
  by rewrite amp_frames.
have -> : [forall n, [forall i, [forall k, basis_den B (fact V) n i k != 0]]] =
          [forall n, [forall i, [forall k, basis_den B V n i k != 0]]].
  by do 3![apply: eq_forallb => ?]; rewrite dE mulrn_neq0.
case: (boolP (_ && _)) => [/andP[_ /forallP h]|_]; last by [].
congr Some; apply: fun3 => n i j; have /forallP/(_ i)/forallP/(_ j) d0 := h n.
by rewrite nE dE quot_frames.
Qed.
Lemma update_activation_frames Y B V :
  update_activation m alg fl (fs Y) B (fact V) = omap fact (update_activation m alg fl Y B V).
Proof.
rewrite /update_activation recon_frames nz_frames.
have dE n k s : act_den B (fact V) n k s = act_den B V n k (f s) by rewrite /act_den recon_frames.
have nE n k s : act_num m alg B (fact V) (fs Y) n k s = act_num m alg B V Y n k (f s).
  by rewrite /act_num recon_frames; apply: eq_bigr => i _; rewrite amp_frames.
have -> : [forall n, [forall k, [forall j, act_den B (fact V) n k j != 0]]] =
          [forall n, [forall k, [forall j, act_den B V n k j != 0]]].
  do 2![apply: eq_forallb => ?]; rewrite -(forall_frames ef (fun j => act_den B V _ _ j != 0)).
  by apply: eq_forallb => s; rewrite dE.
case: (_ && _); last by [].
by congr Some; apply: fun3 => n k s; rewrite nE dE.
Qed.
(** ** spatial model *)
Lemma varphi_frames Y q i : varphi m fl (fs Y) (fcells q) i = frames f (varphi m fl Y q i).
Proof. by apply/matrixP=> n s; rewrite !mxE amp_frames. Qed.
Lemma varphi_ok_frames Y q : varphi_ok m fl (fs Y) (fcells q) = varphi_ok m fl Y q.
Proof.
rewrite /varphi_ok nz_frames; congr (_ && _).
rewrite -(cells_frames (fun n i t => weight_ok m fl (amp Y n i t))).
by do 3![apply: eq_forallb => ?]; rewrite amp_frames.
Qed.
Lemma spatial_ip1_frames X W q : spatial_ip1 m fl (fs X) W (fcells q) = spatial_ip1 m fl X W q.
Proof.
rewrite /spatial_ip1 separate_frames varphi_ok_frames (T0E ef); case: (_ && _); last by [].
by apply: eq_all_bins => i; rewrite varphi_frames (wcov_framesE ef).
Qed.
Lemma spatial_ip2_frames X ps W q : spatial_ip2 m fl eig chol (fs X) ps W (fcells q) = spatial_ip2 m fl eig chol X ps W q.
Proof.
rewrite /spatial_ip2 separate_frames varphi_ok_frames (T0E ef); case: (_ && _); last by [].
by apply: eq_all_bins => i; rewrite varphi_frames (wcov_framesE ef).
Qed.
Lemma spatial_iss1_frames Y q : spatial_iss1 m fl (fs Y) (fcells q) = omap fs (spatial_iss1 m fl Y q).
Proof.
rewrite /spatial_iss1 varphi_ok_frames; case: (varphi_ok _ _ _ _); last by [].
apply: (@all_bins_map _ _ _ Y (fs Y) _ _ (fun i => frames f)) => i.
by rewrite varphi_frames (iss1_frames ef).
Qed.
Lemma spatial_iss2_frames ps Y q : spatial_iss2 m fl eig chol ps (fs Y) (fcells q) = omap fs (spatial_iss2 m fl eig chol ps Y q).
Proof.
rewrite /spatial_iss2 varphi_ok_frames; case: (varphi_ok _ _ _ _); last by [].
apply: (@all_bins_map _ _ _ Y (fs Y) _ _ (fun i => frames f)) => i.
rewrite varphi_frames !to_rows_frames (iss2_frames ef); case: iss2 => [s|] //=.
by rewrite of_rows_frames.
Qed.
Lemma spatial_f_frames a X W q : spatial_f m fl eig chol a (fs X) W (fcells q) = spatial_f m fl eig chol a X W q.
Proof. by case: a => [|ps]; [exact: spatial_ip1_frames|exact: spatial_ip2_frames]. Qed.
Lemma spatial_o_frames a Y q : spatial_o m fl eig chol a (fs Y) (fcells q) = omap fs (spatial_o m fl eig chol a Y q).
Proof. by case: a => [|ps]; [exact: spatial_iss1_frames|exact: spatial_iss2_frames]. Qed.
(** ** normalisation *)
Lemma psi_frames Y n : psi fl (fs Y) n = psi fl Y n.
Proof.
have [k k0 ek] := ef; rewrite /psi; congr (fl (R_sqrt.sqrt _)).
have -> : \sum_i \sum_j (amp (fs Y) n i j ^ 2)%coqR = (\sum_i \sum_j (amp Y n i j ^ 2)%coqR) *+ k.
  rewrite -sumrMnl; apply: eq_bigr => i _; rewrite -(sum_frames (fun j => amp Y n i j ^ 2)%coqR ek).
  by apply: eq_bigr => s _; rewrite amp_frames.
rewrite !RmulE -[X in (_ * X)%R]mulr_natl mulrA; congr (_ * _).
rewrite [(F * T')%N]mulnC natrM invfM mulrAC (weight_frames ek k0).
by rewrite -invfM -natrM mulnC.
Qed.
Lemma psi_framesE Y : psi fl (fs Y) = psi fl Y.
Proof. by apply: functional_extensionality => n; exact: psi_frames. Qed.
Lemma psi_ok_frames Y : psi_ok fl (fs Y) = psi_ok fl Y.
Proof. by rewrite /psi_ok psi_framesE !muln_eq0 (T0E ef). Qed.
Lemma div_rows_frames (s : 'I_N -> R) (Y : 'M[Cx]_(N, T)) : div_rows s (frames f Y) = frames f (div_rows s Y).
Proof. by apply/matrixP=> n t; rewrite !mxE. Qed.
Lemma norm_f_frames o X W B : norm_f m fl o (fs X) W B = norm_f m fl o X W B.
Proof.
case: o => [||r] //=; rewrite /norm_power separate_frames psi_ok_frames psi_framesE.
by case: (psi_ok _ _).
Qed.
Lemma norm_o_frames o X Y B :
  norm_o m fl o (fs X) (fs Y) B = omap (fun p : spec T * basis => (fs p.1, p.2)) (norm_o m fl o X Y B).
Proof.
case: o => [||r] //=.
  rewrite /norm_power_output psi_ok_frames psi_framesE; case: (psi_ok _ _); last by [].
  by congr (Some (_, _)); apply: functional_extensionality => i; rewrite div_rows_frames.
rewrite /norm_pb_output.
have -> : all_bins (fun=> 0) (fun i => omap (mulmx (fs X i *m (fs Y i)^H)) (np_inv (fs Y i *m (fs Y i)^H))) =
          all_bins (fun=> 0) (fun i => omap (mulmx (X i *m (Y i)^H)) (np_inv (Y i *m (Y i)^H))).
  apply: eq_all_bins => i; have [k k0 ek] := ef; rewrite !(gram_frames _ _ ek).
  have kc : (k%:R : Cx) != 0 by rewrite pnatr_eq0 -lt0n.
  rewrite /np_inv unitmxZ ?unitfE //; case: ifP => //= u; congr Some.
  by rewrite invmxZ ?unitmxZ ?unitfE // -scalemxAl -scalemxAr scalerA mulfV // scale1r.
case: all_bins => // s /=; congr (Some (_, _)); apply: functional_extensionality => i.
by rewrite scale_rows_frames.
Qed.
(** ** losses *)
Lemma loss_of_frames Y W q : loss_of m (fs Y) W (fcells q) = loss_of m Y W q.
Proof.
apply: eq_bigr => i _; congr (_ - _); apply: eq_bigr => n _; rewrite -(meanR_frames ef); congr meanR.
by apply: functional_extensionality => s; rewrite amp_frames.
Qed.
Lemma loss_filter_frames X W q : loss_filter m (fs X) W (fcells q) = loss_filter m X W q.
Proof. by rewrite /loss_filter pos_frames (T0E ef) separate_frames loss_of_frames. Qed.
Lemma loss_output_frames X Y q : Ilrma.loss_output m (fs X) (fs Y) (fcells q) = Ilrma.loss_output m X Y q.
Proof.
rewrite /Ilrma.loss_output.
have -> : all_bins (fun=> 0) (fun i => refit (fs Y i) (fs X i)) = all_bins (fun=> 0) (fun i => refit (Y i) (X i)).
  by apply: eq_all_bins => i; exact: (refit_frames ef).
by case: all_bins => // W; rewrite pos_frames (T0E ef) loss_of_frames.
Qed.
(** ** iterations *)
Definition fst_w (s : state_w N F T K) : state_w N F T' K := StateW (st_W s) (st_B s) (fact (st_V s)).
Definition fst_y (s : state_y N F T K) : state_y N F T' K := StateY (fs (st_Y s)) (st_yB s) (fact (st_yV s)).
Lemma source_step_frames Y B V : source_step m alg fl (fs Y) B (fact V) =
  omap (fun p : basis * activ T => (p.1, fact p.2)) (source_step m alg fl Y B V).
Proof.
rewrite /source_step update_basis_frames; case: update_basis => // B1.
by rewrite update_activation_frames; case: update_activation.
Qed.
Lemma ilrma_once_f_frames a o X s : once_f m alg fl eig chol a o (fs X) (fst_w s) = omap fst_w (once_f m alg fl eig chol a o X s).
Proof.
case: s => W B V; rewrite /once_f /fst_w separate_frames source_step_frames.
case: source_step => [[B1 V1]|] //=; rewrite recon_frames spatial_f_frames.
by case: spatial_f => // W1; rewrite norm_f_frames; case: norm_f.
Qed.
Lemma ilrma_once_o_frames a o X s : once_o m alg fl eig chol a o (fs X) (fst_y s) = omap fst_y (once_o m alg fl eig chol a o X s).
Proof.
case: s => Y B V; rewrite /once_o /fst_y source_step_frames.
case: source_step => [[B1 V1]|] //=; rewrite recon_frames spatial_o_frames.
by case: spatial_o => // Y1 /=; rewrite norm_o_frames; case: norm_o.
Qed.
(** every variant of ILRMA: Gauss, t or GGD; MM or ME; IP1, IP2, ISS1 or ISS2; every normalisation *)
Theorem C79_ilrma_filter_run a o X k s :
  ilrma_run_f m alg fl eig chol a o (fs X) k (fst_w s) = omap (fun p => (fst_w p.1, p.2)) (ilrma_run_f m alg fl eig chol a o X k s).
Proof.
apply: recorded_map => s'; first exact: ilrma_once_f_frames.
by rewrite /fst_w /= recon_frames loss_filter_frames.
Qed.
Theorem C79_ilrma_output_run a o X k s :
  ilrma_run_o m alg fl eig chol a o (fs X) k (fst_y s) = omap (fun p => (fst_y p.1, p.2)) (ilrma_run_o m alg fl eig chol a o X k s).
Proof.
apply: recorded_map => s'; first exact: ilrma_once_o_frames.
by rewrite /fst_y /= recon_frames loss_output_frames.
Qed.
Theorem C79_ilrma_call_f a o r X k s :
  ilrma_call_f m alg fl eig chol a o r (fs X) k (fst_w s) = omap fs (ilrma_call_f m alg fl eig chol a o r X k s).
Proof.
rewrite /ilrma_call_f (iterate_map (ilrma_once_f_frames a o X)); case: iterate => // s' /=.
exact: restore_f_frames.
Qed.
Theorem C79_ilrma_call_o a o r X k B V :
  ilrma_call_o m alg fl eig chol a o r (fs X) k B (fact V) = omap fs (ilrma_call_o m alg fl eig chol a o r X k B V).
Proof.
rewrite /ilrma_call_o separate_frames -/(fst_y (StateY (separate_all X (@eyes F N)) B V)).
rewrite (iterate_map (ilrma_once_o_frames a o X)); case: iterate => // s' /=.
exact: restore_o_frames.
Qed.
(** ** with partitioning function *)
Implicit Types (Z : latent) (C : pbasis) (A : pactiv T) (s : part N F T K).
Definition fpart s : part N F T' K := Part (pt_Z s) (pt_C s) (fpact (pt_A s)).
Lemma recon_lat_frames Z C A : recon_lat Z C (fpact A) = fcells (recon_lat Z C A).
Proof. by apply: fun3. Qed.
Lemma update_pbasis_frames Y Z C A : update_pbasis m alg fl (fs Y) Z C (fpact A) = update_pbasis m alg fl Y Z C A.
Proof.
have [k k0 ek] := ef; rewrite /update_pbasis recon_lat_frames nz_frames.
have dE i j : pbasis_den Z C (fpact A) i j = pbasis_den Z C A i j *+ k.
  by rewrite /pbasis_den recon_lat_frames -sumrMnl; apply: eq_bigr => n _; rewrite -(sum_frames _ ek).
have nE i j : pbasis_num m alg Z C (fpact A) (fs Y) i j = pbasis_num m alg Z C A Y i j *+ k.
  rewrite /pbasis_num recon_lat_frames -sumrMnl; apply: eq_bigr => n _; rewrite -(sum_frames _ ek).
  by apply: eq_bigr => s _; rewrite amp_frames.
have -> : [forall i, [forall k, pbasis_den Z C (fpact A) i k != 0]] = [forall i, [forall k, pbasis_den Z C A i k != 0]].
  by do 2![apply: eq_forallb => ?]; rewrite dE mulrn_neq0.
case: (boolP (_ && _)) => [/andP[_ /forallP h]|_]; last by [].
congr Some; apply: fun2 => i j; have /forallP/(_ j) d0 := h i.
by rewrite nE dE quot_frames.
Qed.
Lemma update_latent_frames Y Z C A : update_latent m alg (fs Y) Z C (fpact A) = update_latent m alg Y Z C A.
Proof.
have [k k0 ek] := ef; rewrite /update_latent /latent_step recon_lat_frames nz_frames.
have dE i j : latent_den Z C (fpact A) i j = latent_den Z C A i j *+ k.
  by rewrite /latent_den recon_lat_frames -sumrMnl; apply: eq_bigr => n _; rewrite -(sum_frames _ ek).
have nE i j : latent_num m alg Z C (fpact A) (fs Y) i j = latent_num m alg Z C A Y i j *+ k.
  rewrite /latent_num recon_lat_frames -sumrMnl; apply: eq_bigr => n _; rewrite -(sum_frames _ ek).
  by apply: eq_bigr => s _; rewrite amp_frames.
have -> : [forall i, [forall k, latent_den Z C (fpact A) i k != 0]] = [forall i, [forall k, latent_den Z C A i k != 0]].
  by do 2![apply: eq_forallb => ?]; rewrite dE mulrn_neq0.
case: (boolP (_ && _)) => [/andP[_ /forallP h]|_]; last by [].
congr latent_normalise; apply: fun2 => i j; have /forallP/(_ j) d0 := h i.
by rewrite nE dE quot_frames.
Qed.
Lemma update_pactivation_frames Y Z C A :
  update_pactivation m alg fl (fs Y) Z C (fpact A) = omap fpact (update_pactivation m alg fl Y Z C A).
Proof.
rewrite /update_pactivation recon_lat_frames nz_frames.
have dE k (s : ordinal T') : pact_den Z C (fpact A) k s = pact_den Z C A k (f s) by rewrite /pact_den recon_lat_frames.
have nE k (s : ordinal T') : pact_num m alg Z C (fpact A) (fs Y) k s = pact_num m alg Z C A Y k (f s).
  by rewrite /pact_num recon_lat_frames; do 2![apply: eq_bigr => ? _]; rewrite amp_frames.
have -> : [forall k, [forall j, pact_den Z C (fpact A) k j != 0]] = [forall k, [forall j, pact_den Z C A k j != 0]].
  apply: eq_forallb => k; rewrite -(forall_frames ef (fun j => pact_den Z C A k j != 0)).
  by apply: eq_forallb => s; rewrite dE.
case: (_ && _); last by [].
by congr Some; apply: fun2 => k s; rewrite nE dE.
Qed.
Lemma psource_step_frames Y s : psource_step m alg fl (fs Y) (fpart s) = omap fpart (psource_step m alg fl Y s).
Proof.
case: s => Z C A; rewrite /psource_step /fpart update_latent_frames; case: update_latent => // Z1.
rewrite update_pbasis_frames; case: update_pbasis => // C1.
by rewrite update_pactivation_frames; case: update_pactivation.
Qed.
Lemma precon_frames s : precon (fpart s) = fcells (precon s).
Proof. by case: s => Z C A; rewrite /precon recon_lat_frames. Qed.
Lemma pnorm_f_frames o X W s :
  pnorm_f m fl o (fs X) W (fpart s) = omap (fun p : filt * part N F T K => (p.1, fpart p.2)) (pnorm_f m fl o X W s).
Proof.
case: o s => [||r] [Z C A] //=; rewrite /norm_power_latent separate_frames psi_ok_frames psi_framesE.
by case: (_ && _).
Qed.
Lemma pnorm_o_frames o Y s :
  pnorm_o m fl o (fs Y) (fpart s) = omap (fun p : spec T * part N F T K => (fs p.1, fpart p.2)) (pnorm_o m fl o Y s).
Proof.
case: o s => [||r] [Z C A] //=; rewrite /norm_power_latent_output psi_ok_frames psi_framesE.
case: (_ && _); last by [].
by rewrite /=; congr (Some (_, _)); apply: functional_extensionality => i; rewrite div_rows_frames.
Qed.
Local Arguments psource_step : simpl never.
Local Arguments fpart : simpl never.
Theorem C79_partitioned_filter_run a o X k (s : filt * part N F T K) :
  pilrma_run_f m alg fl eig chol a o (fs X) k (s.1, fpart s.2) =
  omap (fun p => ((p.1.1, fpart p.1.2), p.2)) (pilrma_run_f m alg fl eig chol a o X k s).
Proof.
apply: (@recorded_map _ _ (fun s : filt * part N F T K => (s.1, fpart s.2))) => -[W p] /=.
  rewrite /ponce_f /= separate_frames psource_step_frames; case: psource_step => // p1 /=.
  by rewrite precon_frames spatial_f_frames; case: spatial_f => // W1; exact: pnorm_f_frames.
by rewrite precon_frames loss_filter_frames.
Qed.
Theorem C79_partitioned_output_run a o X k (s : spec T * part N F T K) :
  pilrma_run_o m alg fl eig chol a o (fs X) k (fs s.1, fpart s.2) =
  omap (fun p => ((fs p.1.1, fpart p.1.2), p.2)) (pilrma_run_o m alg fl eig chol a o X k s).
Proof.
apply: (@recorded_map _ _ (fun s : spec T * part N F T K => (fs s.1, fpart s.2))) => -[Y p] /=.
  rewrite /ponce_o /= psource_step_frames; case: psource_step => // p1 /=.
  by rewrite precon_frames spatial_o_frames; case: spatial_o => // Y1; exact: pnorm_o_frames.
by rewrite precon_frames loss_output_frames.
Qed.
End ILRMA.

(** * Recordings that are played twice *)
Section Instance.
Definition twice (s : 'I_4) : 'I_2 := inord (s %% 2).
Lemma twice_even : even_frames twice.
Proof.
exists 2%N => // t.
have h (s : 'I_4) : (twice s == t) = (s %% 2 == t)%N by rewrite -val_eqE /= inordK // ltn_pmod.
rewrite -sum1dep_card big_mkcond (eq_bigr (fun s : 'I_4 => if (s %% 2 == t)%N then 1%N else 0%N)); last by move=> s _; rewrite h.
by rewrite !big_ord_recl big_ord0; case: (ord2P t) => ->.
Qed.
Example C79_instance k : exists Y : 'I_2 -> 'M[Cx]_(2, 2),
  call_f (laplace_ip1 id) k 0 Wi Xi = Some Y /\ call_f (laplace_ip1 id) k 0 Wi (fspec twice Xi) = Some (fspec twice Y).
Proof. by exists Xe; rewrite (C79_call_laplace_ip1 twice_even) call_hada. Qed.

Lemma once_f_ip1 N F T K m alg fl eig chol nrm X (s : state_w N F T K) :
  once_f m alg fl eig chol (FIP1 N) (if nrm then Power else NoNorm) X s = ilrma_once_ip1 m alg fl nrm X s.
Proof.
case: s => W B V; rewrite /once_f /ilrma_once_ip1 /source_step; case: update_basis => // B1.
case: update_activation => //= V1; case: spatial_ip1 => // W1.
by case: nrm => //=; case: norm_power => // -[].
Qed.
Lemma iterate_ip1 N F T K m alg fl eig chol nrm X k (s : state_w N F T K) :
  iterate (once_f m alg fl eig chol (FIP1 N) (if nrm then Power else NoNorm) X) k s = ilrma_iter m alg fl nrm X k s.
Proof. by elim: k s => [|k IH] s //=; rewrite once_f_ip1; case: ilrma_once_ip1. Qed.
Example C79_ilrma_instance eig chol k : exists Y : 'I_2 -> 'M[Cx]_(2, 2),
  ilrma_call_f (Student 1 2) ME (max_flooring 1) eig chol (FIP1 2) NoNorm 0 iXs k (StateW iWs iB iV) = Some Y /\
  ilrma_call_f (Student 1 2) ME (max_flooring 1) eig chol (FIP1 2) NoNorm 0 (fspec twice iXs) k (StateW iWs iB (fact twice iV)) =
    Some (fspec twice Y).
Proof.
have [W [B [V [l [l' [E uW _ _ _]]]]]] : exists W' B' V' l l',
    [/\ ilrma_iter (Student 1 2) ME (max_flooring 1) false iXs k (StateW iWs iB iV) = Some (StateW W' B' V'),
      forall i, W' i \in unitmx, loss_filter (Student 1 2) iXs iWs (recon iB iV) = Some l,
      loss_filter (Student 1 2) iXs W' (recon B' V') = Some l' & (l' <= l)%coqR].
  apply: (@C48_run 2 2 2 1 _ ME 1) => //; try by move=> *; rewrite /iB /iV; lra.
  + exact: iWs_unit.
  + exact: iXs_free.
have C : exists Y, ilrma_call_f (Student 1 2) ME (max_flooring 1) eig chol (FIP1 2) NoNorm 0 iXs k (StateW iWs iB iV) = Some Y.
  rewrite /ilrma_call_f (iterate_ip1 _ _ _ _ _ false) E /restore_f /all_bins /=.
  case: ifP => [_|/negP[]]; first by eexists.
  by apply/forallP => i; rewrite /apply_pb pb_filterE.
have [Y hY] := C; exists Y; split=> //.
by have := C79_ilrma_call_f twice_even (Student 1 2) ME (max_flooring 1) eig chol (FIP1 2) NoNorm 0 iXs k (StateW iWs iB iV); rewrite hY.
Qed.
End Instance.
