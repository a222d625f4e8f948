(** C89 for ILRMA: the order of the bases does not matter. *)
From Coq Require Import Reals Lra FunctionalExtensionality.
From mathcomp Require Import all_ssreflect all_algebra all_fingroup.
From Verif Require Import RStruct MxC CxR NpLin RealLemmas NmfReal Eigh SpatialIP SpatialIP2 SpatialISS Scale AuxIVA AuxIVARun AuxIVACall Ilrma IlrmaRun.
From Verif Require Import Prop_Frames Prop_Bins Prop_MnmfOrder.
Import Order.TTheory GRing.Theory Num.Theory.
Set Implicit Arguments.
Unset Strict Implicit.
Unset Printing Implicit Defensive.
Local Open Scope ring_scope.

Section Order.
Variables (N F T K : nat) (m : model) (alg : source_alg) (fl : R -> R) (eig : eigh_t) (chol : chol_t).
Notation spec := ('I_F -> 'M[Cx]_(N, T)).
Notation filt := ('I_F -> 'M[Cx]_N).
Notation basis := ('I_N -> 'I_F -> 'I_K -> R).
Notation activ := ('I_N -> 'I_K -> 'I_T -> R).

Section Bases.
Variable pk : 'I_N -> {perm 'I_K}.
Implicit Types (B : basis) (V : activ) (X Y : spec) (W : filt).
Definition kB B : basis := fun n i k => B n i (pk n k).
Definition kV V : activ := fun n k j => V n (pk n k) j.
Lemma recon_bases B V : recon (kB B) (kV V) = recon B V.
Proof. by apply: ext3 => n i j; exact: (sum_bins (pk n) (fun k => B n i k * V n k j)). Qed.
Lemma update_basis_bases Y B V : update_basis m alg fl Y (kB B) (kV V) = omap kB (update_basis m alg fl Y B V).
Proof.
rewrite /update_basis recon_bases.
have dE : basis_den (kB B) (kV V) = kB (basis_den B V) by apply: ext3 => n i k; rewrite /basis_den recon_bases.
have nE n i k : basis_num m alg (kB B) (kV V) Y n i k = basis_num m alg B V Y n i (pk n k) by rewrite /basis_num recon_bases.
rewrite dE; have -> : [forall n, [forall i, [forall k, kB (basis_den B V) n i k != 0]]] = [forall n, [forall i, [forall k, basis_den B V n i k != 0]]].
  by apply: eq_forallb => n; apply: eq_forallb => i; exact: (forall_bins (pk n) (fun k => basis_den B V n i k != 0)).
case: (_ && _); last by [].
by apply: (f_equal (fun q => Some q)); apply: ext3 => n i k; rewrite nE.
Qed.
Lemma update_activation_bases Y B V : update_activation m alg fl Y (kB B) (kV V) = omap kV (update_activation m alg fl Y B V).
Proof.
rewrite /update_activation recon_bases.
have dE : act_den (kB B) (kV V) = kV (act_den B V) by apply: ext3 => n k j; rewrite /act_den recon_bases.
have nE n k j : act_num m alg (kB B) (kV V) Y n k j = act_num m alg B V Y n (pk n k) j by rewrite /act_num recon_bases.
rewrite dE; have -> : [forall n, [forall k, [forall j, kV (act_den B V) n k j != 0]]] = [forall n, [forall k, [forall j, act_den B V n k j != 0]]].
  by apply: eq_forallb => n; exact: (forall_bins (pk n) (fun k => [forall j, act_den B V n k j != 0])).
case: (_ && _); last by [].
by apply: (f_equal (fun q => Some q)); apply: ext3 => n k j; rewrite nE.
Qed.
Lemma norm_f_bases o X W B : norm_f m fl o X W (kB B) = omap (fun p => (p.1, kB p.2)) (norm_f m fl o X W B).
Proof.
case: o => [||r]; [by []| |]; rewrite /norm_f ?/norm_power ?/norm_pb; first by case: psi_ok.
by case: all_bins.
Qed.
Lemma norm_o_bases o X Y B : norm_o m fl o X Y (kB B) = omap (fun p => (p.1, kB p.2)) (norm_o m fl o X Y B).
Proof.
case: o => [||r]; [by []| |]; rewrite /norm_o ?/norm_power_output ?/norm_pb_output; first by case: psi_ok.
by case: all_bins.
Qed.
Lemma source_step_bases Y B V : source_step m alg fl Y (kB B) (kV V) = omap (fun p => (kB p.1, kV p.2)) (source_step m alg fl Y B V).
Proof.
rewrite /source_step update_basis_bases; case: (update_basis _ _ _ _ _ _) => [B1|]; last by [].
by rewrite [omap kB _]/=; cbv iota; rewrite update_activation_bases; case: (update_activation _ _ _ _ _ _).
Qed.
Definition kst_w (s : state_w N F T K) : state_w N F T K := StateW (st_W s) (kB (st_B s)) (kV (st_V s)).
Definition kst_y (s : state_y N F T K) : state_y N F T K := StateY (st_Y s) (kB (st_yB s)) (kV (st_yV s)).
Lemma once_f_bases a o X s : once_f m alg fl eig chol a o X (kst_w s) = omap kst_w (once_f m alg fl eig chol a o X s).
Proof.
case: s => W B V; rewrite /kst_w /once_f [st_W _]/= [st_B _]/= [st_V _]/= source_step_bases.
case: (source_step _ _ _ _ _ _) => [[B1 V1]|]; last by [].
rewrite [omap _ (Some (B1, V1))]/=; cbv iota beta; rewrite recon_bases; case: (spatial_f _ _ _ _ _ _ _ _) => [W1|]; last by [].
by rewrite norm_f_bases; case: (norm_f _ _ _ _ _ _).
Qed.
Lemma once_o_bases a o X s : once_o m alg fl eig chol a o X (kst_y s) = omap kst_y (once_o m alg fl eig chol a o X s).
Proof.
case: s => Y B V; rewrite /kst_y /once_o [st_Y _]/= [st_yB _]/= [st_yV _]/= source_step_bases.
case: (source_step _ _ _ _ _ _) => [[B1 V1]|]; last by [].
rewrite [omap _ (Some (B1, V1))]/=; cbv iota beta; rewrite recon_bases; case: (spatial_o _ _ _ _ _ _ _) => [Y1|]; last by [].
by rewrite norm_o_bases; case: (norm_o _ _ _ _ _ _).
Qed.
(** C89: every ILRMA class, MM and ME, every spatial update but IPA, every normalisation *)
Theorem C89_ilrma_filter_run a o X k s : ilrma_run_f m alg fl eig chol a o X k (kst_w s) =
  omap (fun r => (kst_w r.1, r.2)) (ilrma_run_f m alg fl eig chol a o X k s).
Proof.
apply: recorded_map => s1; first exact: once_f_bases.
by rewrite [st_W _]/= [st_B _]/= [st_V _]/= recon_bases.
Qed.
Theorem C89_ilrma_output_run a o X k s : ilrma_run_o m alg fl eig chol a o X k (kst_y s) =
  omap (fun r => (kst_y r.1, r.2)) (ilrma_run_o m alg fl eig chol a o X k s).
Proof.
apply: recorded_map => s1; first exact: once_o_bases.
by rewrite [st_Y _]/= [st_yB _]/= [st_yV _]/= recon_bases.
Qed.
(** the separated signals are the same *)
Theorem C89_ilrma_call_f a o r X k s : ilrma_call_f m alg fl eig chol a o r X k (kst_w s) = ilrma_call_f m alg fl eig chol a o r X k s.
Proof. by rewrite /ilrma_call_f (iterate_map (once_f_bases a o X)); case: iterate. Qed.
Theorem C89_ilrma_call_o a o r X k B V :
  ilrma_call_o m alg fl eig chol a o r X k (kB B) (kV V) = ilrma_call_o m alg fl eig chol a o r X k B V.
Proof.
rewrite /ilrma_call_o -[StateY _ (kB B) (kV V)]/(kst_y (StateY (separate_all X (@eyes F N)) B V)).
by rewrite (iterate_map (once_o_bases a o X)); case: iterate.
Qed.
End Bases.

(** with partitioning function *)
Section Partitioned.
Variable pk : {perm 'I_K}.
Notation latent := ('I_N -> 'I_K -> R).
Notation pbasis := ('I_F -> 'I_K -> R).
Notation pactiv := ('I_K -> 'I_T -> R).
Implicit Types (Z : latent) (C : pbasis) (A : pactiv) (X Y : spec) (W : filt).
Definition kk I (Z : 'I_I -> 'I_K -> R) : 'I_I -> 'I_K -> R := fun n k => Z n (pk k).
Definition kA A : pactiv := fun k => A (pk k).
Lemma recon_lat_bases Z C A : recon_lat (kk Z) (kk C) (kA A) = recon_lat Z C A.
Proof. by apply: ext3 => n i j; exact: (sum_bins pk (fun k => Z n k * (C i k * A k j))). Qed.
Lemma all_kk I (Q : 'I_I -> 'I_K -> bool) : [forall n, [forall k, Q n (pk k)]] = [forall n, [forall k, Q n k]].
Proof. by apply: eq_forallb => n; exact: (forall_bins pk (Q n)). Qed.
Lemma update_pbasis_bases Y Z C A : update_pbasis m alg fl Y (kk Z) (kk C) (kA A) = omap (@kk F) (update_pbasis m alg fl Y Z C A).
Proof.
rewrite /update_pbasis recon_lat_bases.
have dE : pbasis_den (kk Z) (kk C) (kA A) = kk (pbasis_den Z C A) by apply: ext2 => i k; rewrite /pbasis_den recon_lat_bases.
have nE i k : pbasis_num m alg (kk Z) (kk C) (kA A) Y i k = pbasis_num m alg Z C A Y i (pk k) by rewrite /pbasis_num recon_lat_bases.
rewrite dE (all_kk (fun i k => pbasis_den Z C A i k != 0)); case: (_ && _); last by [].
by apply: (f_equal (fun q => Some q)); apply: ext2 => i k; rewrite nE.
Qed.
Lemma update_pactivation_bases Y Z C A : update_pactivation m alg fl Y (kk Z) (kk C) (kA A) = omap kA (update_pactivation m alg fl Y Z C A).
Proof.
rewrite /update_pactivation recon_lat_bases.
have dE : pact_den (kk Z) (kk C) (kA A) = kA (pact_den Z C A) by apply: ext2 => k j; rewrite /pact_den recon_lat_bases.
have nE k j : pact_num m alg (kk Z) (kk C) (kA A) Y k j = pact_num m alg Z C A Y (pk k) j by rewrite /pact_num recon_lat_bases.
rewrite dE (forall_bins pk (fun k => [forall j, pact_den Z C A k j != 0])); case: (_ && _); last by [].
by apply: (f_equal (fun q => Some q)); apply: ext2 => k j; rewrite nE.
Qed.
Lemma latent_normalise_bases Z : latent_normalise (kk Z) = omap (@kk N) (latent_normalise Z).
Proof. by rewrite /latent_normalise (forall_bins pk (fun k => \sum_n Z n k != 0)); case: [forall k, _]. Qed.
Lemma update_latent_bases Y Z C A : update_latent m alg Y (kk Z) (kk C) (kA A) = omap (@kk N) (update_latent m alg Y Z C A).
Proof.
rewrite /update_latent /latent_step recon_lat_bases.
have dE : latent_den (kk Z) (kk C) (kA A) = kk (latent_den Z C A) by apply: ext2 => n k; rewrite /latent_den recon_lat_bases.
have nE n k : latent_num m alg (kk Z) (kk C) (kA A) Y n k = latent_num m alg Z C A Y n (pk k) by rewrite /latent_num recon_lat_bases.
rewrite dE (all_kk (fun n k => latent_den Z C A n k != 0)); case: (_ && _); last by [].
by rewrite -latent_normalise_bases; apply: f_equal; apply: ext2 => n k; rewrite nE.
Qed.
Definition kpart (s : part N F T K) : part N F T K := Part (kk (pt_Z s)) (kk (pt_C s)) (kA (pt_A s)).
Lemma precon_bases s : precon (kpart s) = precon s.
Proof. exact: recon_lat_bases. Qed.
Lemma psource_step_bases Y s : psource_step m alg fl Y (kpart s) = omap kpart (psource_step m alg fl Y s).
Proof.
case: s => Z C A; rewrite /psource_step /kpart [pt_Z _]/= [pt_C _]/= [pt_A _]/= update_latent_bases.
case: (update_latent _ _ _ _ _ _) => [Z1|]; last by [].
rewrite [omap _ (Some Z1)]/=; cbv iota; rewrite update_pbasis_bases; case: (update_pbasis _ _ _ _ _ _ _) => [C1|]; last by [].
by rewrite [omap _ (Some C1)]/=; cbv iota; rewrite update_pactivation_bases; case: (update_pactivation _ _ _ _ _ _ _).
Qed.
Lemma pnorm_f_bases o X W s : pnorm_f m fl o X W (kpart s) = omap (fun p => (p.1, kpart p.2)) (pnorm_f m fl o X W s).
Proof.
case: o => [||r] //; rewrite /pnorm_f /norm_power_latent [pt_Z _]/= [pt_C _]/=.
rewrite (forall_bins pk (fun k => \sum_n (pt_Z s n k / pw (psi fl (separate_all X W) n) (domain m))%coqR != 0)).
by case: (_ && _).
Qed.
Lemma pnorm_o_bases o Y s : pnorm_o m fl o Y (kpart s) = omap (fun p => (p.1, kpart p.2)) (pnorm_o m fl o Y s).
Proof.
case: o => [||r] //; rewrite /pnorm_o /norm_power_latent_output [pt_Z _]/= [pt_C _]/=.
rewrite (forall_bins pk (fun k => \sum_n (pt_Z s n k / pw (psi fl Y n) (domain m))%coqR != 0)).
by case: (_ && _).
Qed.
Theorem C89_ilrma_partitioned_filter_run a o X k (s : filt * part N F T K) :
  pilrma_run_f m alg fl eig chol a o X k (s.1, kpart s.2) = omap (fun r => ((r.1.1, kpart r.1.2), r.2)) (pilrma_run_f m alg fl eig chol a o X k s).
Proof.
apply: (recorded_map (g := fun s => (s.1, kpart s.2))) => -[W q]; rewrite ?[(W, q).1]/= ?[(W, q).2]/=; last by rewrite /= precon_bases.
rewrite /ponce_f [(W, _).1]/= [(W, kpart q).2]/= [(W, q).2]/= psource_step_bases.
case: (psource_step _ _ _ _ _) => [q1|]; last by [].
rewrite [omap _ (Some q1)]/=; cbv iota; rewrite precon_bases; case: (spatial_f _ _ _ _ _ _ _ _) => [W1|]; last by [].
exact: pnorm_f_bases.
Qed.
Theorem C89_ilrma_partitioned_output_run a o X k (s : spec * part N F T K) :
  pilrma_run_o m alg fl eig chol a o X k (s.1, kpart s.2) = omap (fun r => ((r.1.1, kpart r.1.2), r.2)) (pilrma_run_o m alg fl eig chol a o X k s).
Proof.
apply: (recorded_map (g := fun s => (s.1, kpart s.2))) => -[Y q]; rewrite ?[(Y, q).1]/= ?[(Y, q).2]/=; last by rewrite /= precon_bases.
rewrite /ponce_o [(Y, _).1]/= [(Y, kpart q).2]/= [(Y, q).2]/= psource_step_bases.
case: (psource_step _ _ _ _ _) => [q1|]; last by [].
rewrite [omap _ (Some q1)]/=; cbv iota; rewrite precon_bases; case: (spatial_o _ _ _ _ _ _ _) => [Y1|]; last by [].
exact: pnorm_o_bases.
Qed.
End Partitioned.
End Order.
