(** C80: the frequency bins only matter through their values: AuxIVA and ILRMA on the bins in
    another order give the filters, bases and outputs in that order, and the same losses. *)
From Coq Require Import Reals Lra FunctionalExtensionality.
From mathcomp Require Import all_ssreflect all_algebra all_fingroup.
From Verif Require Import RStruct MxC CxR NpLin RealLemmas NmfReal Eigh SpatialIP SpatialIP2 SpatialISS SpatialISS2 Scale AuxIVA AuxIVARun.
From Verif Require Import AuxFDICA AuxIVACall ScaleProofs Ilrma IlrmaRun EighProofs Prop_AuxGain Prop_Frames Prop_FramesIlrma.
Import Order.TTheory GRing.Theory Num.Theory.
Set Implicit Arguments.
Unset Strict Implicit.
Unset Printing Implicit Defensive.
Local Open Scope ring_scope.

Section Bins.
Variables (F : nat) (p : {perm 'I_F}).
(** data per bin, in the order [p] *)
Definition bins A (X : 'I_F -> A) : 'I_F -> A := fun i => X (p i).
Lemma sum_bins (V : zmodType) (g : 'I_F -> V) : \sum_i g (p i) = \sum_i g i.
Proof. by rewrite [RHS](reindex_inj (@perm_inj _ p)). Qed.
Lemma forall_bins (P : pred 'I_F) : [forall i, P (p i)] = [forall i, P i].
Proof.
apply/forallP/forallP => h i; last exact: h.
by rewrite -[i](permKV p).
Qed.
Lemma all_bins_perm A (d : 'I_F -> A) (g : 'I_F -> option A) : all_bins (bins d) (bins g) = omap (@bins A) (all_bins d g).
Proof. by rewrite /all_bins (forall_bins (fun i => isSome (g i))); case: ifP. Qed.
Lemma meanR_bins (g : 'I_F -> R) : meanR (fun i => g (p i)) = meanR g.
Proof. by rewrite /meanR sum_bins. Qed.

Section AuxIVA.
Variables (N T : nat) (fl : R -> R) (eig : eigh_t) (chol : chol_t).
Notation spec := ('I_F -> 'M[Cx]_(N, T)).
Notation filt := ('I_F -> 'M[Cx]_N).
Notation fn := ('I_N -> 'I_T -> R -> R).
Implicit Types (X Y : spec) (W : filt) (G dG : fn).
Lemma separate_bins X W : separate_all (bins X) (bins W) = bins (separate_all X W).
Proof. by []. Qed.
Lemma norms_bins Y : norms (bins Y) = norms Y.
Proof. by apply/matrixP=> n t; rewrite !mxE (sum_bins (fun i => cabs (Y i n t) ^+ 2)). Qed.
Lemma ip1_bins dG X W : update_once_ip1 fl dG (bins X) (bins W) = omap (@bins _) (update_once_ip1 fl dG X W).
Proof.
rewrite /update_once_ip1 separate_bins norms_bins; case: (_ && _); last by [].
exact: all_bins_perm.
Qed.
Lemma ip2_step_bins dG X W q : iva_ip2_step fl eig chol dG (bins X) (bins W) q = omap (@bins _) (iva_ip2_step fl eig chol dG X W q).
Proof.
rewrite /iva_ip2_step separate_bins norms_bins; case: (_ && _); last by [].
exact: all_bins_perm.
Qed.
Lemma foldl_map S S' Q (h : S -> S') (st : S -> Q -> option S) (st' : S' -> Q -> option S') :
  (forall s q, st' (h s) q = omap h (st s q)) -> forall qs s,
  foldl (fun o q => if o is Some x then st' x q else None) (omap h s) qs =
  omap h (foldl (fun o q => if o is Some x then st x q else None) s qs).
Proof. by move=> E; elim=> [|q qs IH] [s|] //=; rewrite ?E -IH. Qed.
Lemma ip2_bins dG X qs W : update_once_ip2 fl eig chol dG (bins X) qs (bins W) = omap (@bins _) (update_once_ip2 fl eig chol dG X qs W).
Proof. exact: (foldl_map (ip2_step_bins dG X) qs (Some W)). Qed.
Lemma iss1_bins dG Y : update_once_iss1 fl dG (bins Y) = omap (@bins _) (update_once_iss1 fl dG Y).
Proof.
rewrite /update_once_iss1 norms_bins; case: [forall n, _]; last by [].
exact: all_bins_perm.
Qed.
Lemma iss2_bins dG qs Y : update_once_iss2 fl eig chol dG qs (bins Y) = omap (@bins _) (update_once_iss2 fl eig chol dG qs Y).
Proof.
rewrite /update_once_iss2 norms_bins; case: [forall n, _]; last by [].
exact: all_bins_perm.
Qed.
Lemma once_f_bins a dG X W : update_once_f fl eig chol a dG (bins X) (bins W) = omap (@bins _) (update_once_f fl eig chol a dG X W).
Proof. by case: a => [|qs]; [exact: ip1_bins|exact: ip2_bins]. Qed.
Lemma once_o_bins a dG Y : update_once_o fl eig chol a dG (bins Y) = omap (@bins _) (update_once_o fl eig chol a dG Y).
Proof. by case: a => [|qs]; [exact: iss1_bins|exact: iss2_bins]. Qed.
Lemma logdet_bins W : \sum_i ln (cabs (\det (bins W i))) = \sum_i ln (cabs (\det (W i))).
Proof. exact: (sum_bins (fun i => ln (cabs (\det (W i))))). Qed.
Lemma unit_bins W : [forall i, bins W i \in unitmx] = [forall i, W i \in unitmx].
Proof. exact: (forall_bins (fun i => W i \in unitmx)). Qed.
Lemma loss_bins G X W : compute_loss G (bins X) (bins W) = compute_loss G X W.
Proof. by rewrite /compute_loss separate_bins norms_bins unit_bins logdet_bins. Qed.
Lemma refit_bins X Y : all_bins (fun=> 0) (fun i => refit (bins Y i) (bins X i)) = omap (@bins _) (all_bins (fun=> 0) (fun i => refit (Y i) (X i))).
Proof. exact: all_bins_perm. Qed.
Lemma loss_output_bins G X Y : compute_loss_output G (bins X) (bins Y) = compute_loss_output G X Y.
Proof.
rewrite /compute_loss_output refit_bins; case: all_bins => // W /=.
by rewrite norms_bins unit_bins logdet_bins.
Qed.
Theorem C80_filter_run a G dG X k W : aux_run_f fl eig chol a G dG (bins X) k (bins W) =
  omap (fun r => (bins r.1, r.2)) (aux_run_f fl eig chol a G dG X k W).
Proof. by apply: recorded_map => s; [exact: once_f_bins|exact: loss_bins]. Qed.
Theorem C80_output_run a G dG X k Y : aux_run_o fl eig chol a G dG (bins X) k (bins Y) =
  omap (fun r => (bins r.1, r.2)) (aux_run_o fl eig chol a G dG X k Y).
Proof. by apply: recorded_map => s; [exact: once_o_bins|exact: loss_output_bins]. Qed.
Lemma variance_bins Y : source_variance (bins Y) = source_variance Y.
Proof. by apply/matrixP=> n t; rewrite !mxE (meanR_bins (fun i => cabs (Y i n t) ^+ 2)). Qed.
Theorem C80_gauss_filter_run a X k W : gauss_run_f fl eig chol a (bins X) k (bins W) =
  omap (fun r => (bins r.1.1, r.1.2, r.2)) (gauss_run_f fl eig chol a X k W).
Proof.
rewrite /gauss_run_f.
apply: (@recorded_map _ _ (fun s : filt * 'M[R]_(N, T) => (bins s.1, s.2)) _ _ _ _ _ _ k (W, unit_variance N T)) => -[V v] /=.
  rewrite /gauss_once_f /= separate_bins variance_bins; case: [forall n, _]; last by [].
  by rewrite once_f_bins; case: update_once_f.
exact: loss_bins.
Qed.
Theorem C80_gauss_output_run a X k Y : gauss_run_o fl eig chol a (bins X) k (bins Y) =
  omap (fun r => (bins r.1.1, r.1.2, r.2)) (gauss_run_o fl eig chol a X k Y).
Proof.
rewrite /gauss_run_o.
apply: (@recorded_map _ _ (fun s : spec * 'M[R]_(N, T) => (bins s.1, s.2)) _ _ _ _ _ _ k (Y, unit_variance N T)) => -[V v] /=.
  rewrite /gauss_once_o /= variance_bins; case: [forall n, _]; last by [].
  by rewrite once_o_bins; case: update_once_o.
exact: loss_output_bins.
Qed.
(** * Complete calls with projection back *)
Lemma restore_f_bins X r W : restore_f (bins X) r (bins W) = omap (@bins _) (restore_f X r W).
Proof. exact: all_bins_perm. Qed.
Lemma restore_o_bins X r Y : restore_o (bins X) r (bins Y) = omap (@bins _) (restore_o X r Y).
Proof. exact: all_bins_perm. Qed.
Lemma call_f_bins (once : spec -> filt -> option filt) k r W X :
  (forall V, once (bins X) (bins V) = omap (@bins _) (once X V)) -> call_f once k r (bins W) (bins X) = omap (@bins _) (call_f once k r W X).
Proof.
move=> h; rewrite /call_f (iterate_map h); case: iterate => //= V; exact: restore_f_bins.
Qed.
Lemma call_o_bins (once : spec -> option spec) k r X :
  (forall Y, once (bins Y) = omap (@bins _) (once Y)) -> call_o once k r (bins X) = omap (@bins _) (call_o once k r X).
Proof.
move=> h; rewrite /call_o -[separate_all (bins X) _]/(bins (separate_all X (@eyes F N))) (iterate_map h).
by case: iterate => //= Y; exact: restore_o_bins.
Qed.
Theorem C80_call_laplace_ip1 k r W X : call_f (laplace_ip1 fl) k r (bins W) (bins X) = omap (@bins _) (call_f (laplace_ip1 fl) k r W X).
Proof. by apply: call_f_bins => V; exact: ip1_bins. Qed.
Theorem C80_call_gauss_ip1 k r W X : call_f (gauss_ip1 fl) k r (bins W) (bins X) = omap (@bins _) (call_f (gauss_ip1 fl) k r W X).
Proof.
apply: call_f_bins => V; rewrite /gauss_ip1 /gauss_update_ip1 separate_bins variance_bins.
by case: [forall n, _] => //; rewrite ip1_bins; case: update_once_ip1.
Qed.
Theorem C80_call_laplace_iss1 k r X : call_o (laplace_iss1 fl) k r (bins X) = omap (@bins _) (call_o (laplace_iss1 fl) k r X).
Proof. by apply: call_o_bins => Y; exact: iss1_bins. Qed.
Theorem C80_call_gauss_iss1 k r X : call_o (gauss_iss1 fl) k r (bins X) = omap (@bins _) (call_o (gauss_iss1 fl) k r X).
Proof.
apply: call_o_bins => Y; rewrite /gauss_iss1 /gauss_update_iss1 variance_bins.
by case: [forall n, _] => //; rewrite iss1_bins; case: update_once_iss1.
Qed.

(** * ILRMA *)
Variables (K : nat) (m : model) (alg : source_alg).
Notation cells := ('I_N -> 'I_F -> 'I_T -> R).
Notation basis := ('I_N -> 'I_F -> 'I_K -> R).
Notation activ := ('I_N -> 'I_K -> 'I_T -> R).
Notation latent := ('I_N -> 'I_K -> R).
Notation pbasis := ('I_F -> 'I_K -> R).
Notation pactiv := ('I_K -> 'I_T -> R).
Implicit Types (B : basis) (V : activ) (q : cells).
Definition bbasis (B : basis) : basis := fun n => bins (B n).
Definition bcells (q : cells) : cells := fun n => bins (q n).
Lemma cells_bins (P : 'I_N -> 'I_F -> bool) : [forall n, [forall i, P n (p i)]] = [forall n, [forall i, P n i]].
Proof. by apply: eq_forallb => n; exact: (forall_bins (P n)). Qed.
Lemma nz_bins q : nz (bcells q) = nz q.
Proof. exact: (cells_bins (fun n i => [forall t, q n i t != 0])). Qed.
Lemma pos_bins q : pos (bcells q) = pos q.
Proof. exact: (cells_bins (fun n i => [forall t, Rltb 0 (q n i t)])). Qed.
Lemma update_basis_bins Y B V : update_basis m alg fl (bins Y) (bbasis B) V = omap bbasis (update_basis m alg fl Y B V).
Proof.
rewrite /update_basis -[recon (bbasis B) V]/(bcells (recon B V)) nz_bins.
have -> : [forall n, [forall i, [forall k, basis_den (bbasis B) V n i k != 0]]] =
          [forall n, [forall i, [forall k, basis_den B V n i k != 0]]].
  exact: (cells_bins (fun n i => [forall k, basis_den B V n i k != 0])).
by case: (_ && _).
Qed.
Lemma update_activation_bins Y B V : update_activation m alg fl (bins Y) (bbasis B) V = update_activation m alg fl Y B V.
Proof.
rewrite /update_activation -[recon (bbasis B) V]/(bcells (recon B V)) nz_bins.
have dE n k t : act_den (bbasis B) V n k t = act_den B V n k t.
  exact: (sum_bins (fun i => (B n i k / recon B V n i t)%coqR)).
have nE n k t : act_num m alg (bbasis B) V (bins Y) n k t = act_num m alg B V Y n k t.
  exact: (sum_bins (fun i => B n i k * num_cell m alg (amp Y n i t) (recon B V n i t))).
have -> : [forall n, [forall k, [forall j, act_den (bbasis B) V n k j != 0]]] =
          [forall n, [forall k, [forall j, act_den B V n k j != 0]]].
  by do 3![apply: eq_forallb => ?]; rewrite dE.
case: (_ && _); last by [].
by congr Some; apply: fun3 => n k t; rewrite nE dE.
Qed.
Lemma source_step_bins Y B V : source_step m alg fl (bins Y) (bbasis B) V =
  omap (fun r : basis * activ => (bbasis r.1, r.2)) (source_step m alg fl Y B V).
Proof.
rewrite /source_step update_basis_bins; case: update_basis => // B1 /=.
by rewrite update_activation_bins; case: update_activation.
Qed.
Lemma varphi_ok_bins Y q : varphi_ok m fl (bins Y) (bcells q) = varphi_ok m fl Y q.
Proof.
rewrite /varphi_ok nz_bins; congr (_ && _).
exact: (cells_bins (fun n i => [forall t, weight_ok m fl (amp Y n i t)])).
Qed.
Lemma spatial_f_bins a X W q : spatial_f m fl eig chol a (bins X) (bins W) (bcells q) = omap (@bins _) (spatial_f m fl eig chol a X W q).
Proof.
case: a => [|qs] /=; rewrite /spatial_ip1 /spatial_ip2 separate_bins varphi_ok_bins; case: (_ && _) => //;
exact: all_bins_perm.
Qed.
Lemma spatial_o_bins a Y q : spatial_o m fl eig chol a (bins Y) (bcells q) = omap (@bins _) (spatial_o m fl eig chol a Y q).
Proof.
case: a => [|qs] /=; rewrite /spatial_iss1 /spatial_iss2 varphi_ok_bins; case: (varphi_ok _ _ _ _) => //;
exact: all_bins_perm.
Qed.
Lemma psi_bins Y : psi fl (bins Y) = psi fl Y.
Proof.
apply: functional_extensionality => n; rewrite /psi.
by rewrite -(sum_bins (fun i => \sum_j (amp Y n i j ^ 2)%coqR)).
Qed.
Lemma norm_f_bins o X W B : norm_f m fl o (bins X) (bins W) (bbasis B) =
  omap (fun r : filt * basis => (bins r.1, bbasis r.2)) (norm_f m fl o X W B).
Proof.
case: o => [||r] //=.
  rewrite /norm_power separate_bins /psi_ok psi_bins; by case: (_ && _).
rewrite /norm_pb.
have -> : all_bins (fun=> 0) (fun i => np_inv (bins W i)) = omap (@bins _) (all_bins (fun=> 0) (fun i => np_inv (W i))).
  exact: all_bins_perm.
by case: all_bins.
Qed.
Lemma norm_o_bins o X Y B : norm_o m fl o (bins X) (bins Y) (bbasis B) =
  omap (fun r : spec * basis => (bins r.1, bbasis r.2)) (norm_o m fl o X Y B).
Proof.
case: o => [||r] //=.
  rewrite /norm_power_output /psi_ok psi_bins; by case: (_ && _).
rewrite /norm_pb_output.
have -> : all_bins (fun=> 0) (fun i => omap (mulmx (bins X i *m (bins Y i)^H)) (np_inv (bins Y i *m (bins Y i)^H))) =
   omap (@bins _) (all_bins (fun=> 0) (fun i => omap (mulmx (X i *m (Y i)^H)) (np_inv (Y i *m (Y i)^H)))).
  exact: all_bins_perm.
by case: all_bins.
Qed.
Lemma loss_of_bins Y W q : loss_of m (bins Y) (bins W) (bcells q) = loss_of m Y W q.
Proof.
exact: (sum_bins (fun i => \sum_n meanR (fun j => cell_loss m (amp Y n i j) (q n i j)) - (2 * ln (cabs (\det (W i))))%coqR)).
Qed.
Lemma loss_filter_bins X W q : loss_filter m (bins X) (bins W) (bcells q) = loss_filter m X W q.
Proof. by rewrite /loss_filter unit_bins pos_bins separate_bins loss_of_bins. Qed.
Lemma iloss_output_bins X Y q : Ilrma.loss_output m (bins X) (bins Y) (bcells q) = Ilrma.loss_output m X Y q.
Proof.
rewrite /Ilrma.loss_output refit_bins; case: all_bins => // W /=.
by rewrite unit_bins pos_bins loss_of_bins.
Qed.
Definition bst_w (s : state_w N F T K) : state_w N F T K := StateW (bins (st_W s)) (bbasis (st_B s)) (st_V s).
Definition bst_y (s : state_y N F T K) : state_y N F T K := StateY (bins (st_Y s)) (bbasis (st_yB s)) (st_yV s).
Lemma ilrma_once_f_bins a o X s : once_f m alg fl eig chol a o (bins X) (bst_w s) = omap bst_w (once_f m alg fl eig chol a o X s).
Proof.
case: s => W B V; rewrite /once_f /bst_w separate_bins source_step_bins.
case: source_step => [[B1 V1]|] //=; rewrite -[recon (bbasis B1) V1]/(bcells (recon B1 V1)) spatial_f_bins.
by case: spatial_f => // W1 /=; rewrite norm_f_bins; case: norm_f.
Qed.
Lemma ilrma_once_o_bins a o X s : once_o m alg fl eig chol a o (bins X) (bst_y s) = omap bst_y (once_o m alg fl eig chol a o X s).
Proof.
case: s => Y B V; rewrite /once_o /bst_y source_step_bins.
case: source_step => [[B1 V1]|] //=; rewrite -[recon (bbasis B1) V1]/(bcells (recon B1 V1)) spatial_o_bins.
by case: spatial_o => // Y1 /=; rewrite norm_o_bins; case: norm_o.
Qed.
Theorem C80_ilrma_filter_run a o X k s : ilrma_run_f m alg fl eig chol a o (bins X) k (bst_w s) =
  omap (fun r => (bst_w r.1, r.2)) (ilrma_run_f m alg fl eig chol a o X k s).
Proof.
by apply: recorded_map => s'; [exact: ilrma_once_f_bins|exact: (loss_filter_bins X (st_W s') (recon (st_B s') (st_V s')))].
Qed.
Theorem C80_ilrma_output_run a o X k s : ilrma_run_o m alg fl eig chol a o (bins X) k (bst_y s) =
  omap (fun r => (bst_y r.1, r.2)) (ilrma_run_o m alg fl eig chol a o X k s).
Proof.
by apply: recorded_map => s'; [exact: ilrma_once_o_bins|exact: (iloss_output_bins X (st_Y s') (recon (st_yB s') (st_yV s')))].
Qed.
Theorem C80_ilrma_call_f a o r X k s :
  ilrma_call_f m alg fl eig chol a o r (bins X) k (bst_w s) = omap (@bins _) (ilrma_call_f m alg fl eig chol a o r X k s).
Proof.
rewrite /ilrma_call_f (iterate_map (ilrma_once_f_bins a o X)); case: iterate => // s' /=.
exact: restore_f_bins.
Qed.
Theorem C80_ilrma_call_o a o r X k B V :
  ilrma_call_o m alg fl eig chol a o r (bins X) k (bbasis B) V = omap (@bins _) (ilrma_call_o m alg fl eig chol a o r X k B V).
Proof.
rewrite /ilrma_call_o -[StateY _ _ _]/(bst_y (StateY (separate_all X (@eyes F N)) B V)).
rewrite (iterate_map (ilrma_once_o_bins a o X)); case: iterate => // s' /=.
exact: restore_o_bins.
Qed.

(** ** with partitioning function *)
Implicit Types (Z : latent) (C : pbasis) (A : pactiv) (s : part N F T K).
Definition bpart s : part N F T K := Part (pt_Z s) (bins (pt_C s)) (pt_A s).
Lemma update_pbasis_bins Y Z C A : update_pbasis m alg fl (bins Y) Z (bins C) A = omap (@bins _) (update_pbasis m alg fl Y Z C A).
Proof.
rewrite /update_pbasis -[recon_lat Z (bins C) A]/(bcells (recon_lat Z C A)) nz_bins.
have -> : [forall i, [forall k, pbasis_den Z (bins C) A i k != 0]] = [forall i, [forall k, pbasis_den Z C A i k != 0]].
  exact: (forall_bins (fun i => [forall k, pbasis_den Z C A i k != 0])).
by case: (_ && _).
Qed.
Lemma update_latent_bins Y Z C A : update_latent m alg (bins Y) Z (bins C) A = update_latent m alg Y Z C A.
Proof.
rewrite /update_latent /latent_step -[recon_lat Z (bins C) A]/(bcells (recon_lat Z C A)) nz_bins.
have dE n k : latent_den Z (bins C) A n k = latent_den Z C A n k.
  exact: (sum_bins (fun i => \sum_j (C i k * A k j / recon_lat Z C A n i j)%coqR)).
have nE n k : latent_num m alg Z (bins C) A (bins Y) n k = latent_num m alg Z C A Y n k.
  exact: (sum_bins (fun i => \sum_j (C i k * A k j) * num_cell m alg (amp Y n i j) (recon_lat Z C A n i j))).
have -> : [forall n, [forall k, latent_den Z (bins C) A n k != 0]] = [forall n, [forall k, latent_den Z C A n k != 0]].
  by do 2![apply: eq_forallb => ?]; rewrite dE.
case: (_ && _); last by [].
by congr latent_normalise; apply: fun2 => n k; rewrite nE dE.
Qed.
Lemma update_pactivation_bins Y Z C A : update_pactivation m alg fl (bins Y) Z (bins C) A = update_pactivation m alg fl Y Z C A.
Proof.
rewrite /update_pactivation -[recon_lat Z (bins C) A]/(bcells (recon_lat Z C A)) nz_bins.
have dE k j : pact_den Z (bins C) A k j = pact_den Z C A k j.
  by apply: eq_bigr => n _; exact: (sum_bins (fun i => Z n k * C i k / recon_lat Z C A n i j)%coqR).
have nE k j : pact_num m alg Z (bins C) A (bins Y) k j = pact_num m alg Z C A Y k j.
  by apply: eq_bigr => n _; exact: (sum_bins (fun i => (Z n k * C i k) * num_cell m alg (amp Y n i j) (recon_lat Z C A n i j))).
have -> : [forall k, [forall j, pact_den Z (bins C) A k j != 0]] = [forall k, [forall j, pact_den Z C A k j != 0]].
  by do 2![apply: eq_forallb => ?]; rewrite dE.
case: (_ && _); last by [].
by congr Some; apply: fun2 => k j; rewrite nE dE.
Qed.
Lemma psource_step_bins Y s : psource_step m alg fl (bins Y) (bpart s) = omap bpart (psource_step m alg fl Y s).
Proof.
case: s => Z C A; rewrite /psource_step /bpart update_latent_bins; case: update_latent => // Z1 /=.
rewrite update_pbasis_bins; case: update_pbasis => // C1 /=.
by rewrite update_pactivation_bins; case: update_pactivation.
Qed.
Lemma pnorm_f_bins o X W s :
  pnorm_f m fl o (bins X) (bins W) (bpart s) = omap (fun r : filt * part N F T K => (bins r.1, bpart r.2)) (pnorm_f m fl o X W s).
Proof.
case: o s => [||r] [Z C A] //=; rewrite /norm_power_latent separate_bins /psi_ok psi_bins.
by case: (_ && _).
Qed.
Lemma pnorm_o_bins o Y s :
  pnorm_o m fl o (bins Y) (bpart s) = omap (fun r : spec * part N F T K => (bins r.1, bpart r.2)) (pnorm_o m fl o Y s).
Proof.
case: o s => [||r] [Z C A] //=; rewrite /norm_power_latent_output /psi_ok psi_bins.
by case: (_ && _).
Qed.
Local Arguments psource_step : simpl never.
Local Arguments bpart : simpl never.
Theorem C80_partitioned_filter_run a o X k (s : filt * part N F T K) :
  pilrma_run_f m alg fl eig chol a o (bins X) k (bins s.1, bpart s.2) =
  omap (fun r => ((bins r.1.1, bpart r.1.2), r.2)) (pilrma_run_f m alg fl eig chol a o X k s).
Proof.
apply: (@recorded_map _ _ (fun s : filt * part N F T K => (bins s.1, bpart s.2))) => -[W q] /=.
  rewrite /ponce_f /= separate_bins psource_step_bins; case: psource_step => // q1 /=.
  by rewrite -[precon (bpart q1)]/(bcells (precon q1)) spatial_f_bins; case: spatial_f => //= W1; exact: pnorm_f_bins.
by rewrite -[precon (bpart q)]/(bcells (precon q)) loss_filter_bins.
Qed.
Theorem C80_partitioned_output_run a o X k (s : spec * part N F T K) :
  pilrma_run_o m alg fl eig chol a o (bins X) k (bins s.1, bpart s.2) =
  omap (fun r => ((bins r.1.1, bpart r.1.2), r.2)) (pilrma_run_o m alg fl eig chol a o X k s).
Proof.
apply: (@recorded_map _ _ (fun s : spec * part N F T K => (bins s.1, bpart s.2))) => -[Y q] /=.
  rewrite /ponce_o /= psource_step_bins; case: psource_step => // q1 /=.
  by rewrite -[precon (bpart q1)]/(bcells (precon q1)) spatial_o_bins; case: spatial_o => //= Y1; exact: pnorm_o_bins.
by rewrite -[precon (bpart q)]/(bcells (precon q)) iloss_output_bins.
Qed.
End AuxIVA.
End Bins.

(** the two bins swapped; their observations differ *)
Example C80_instance k : exists (X Y : 'I_2 -> 'M[Cx]_(2, 2)),
  [/\ call_f (laplace_ip1 id) k 0 Wi X = Some Y,
      call_f (laplace_ip1 id) k 0 Wi (bins (tperm 0 1) X) = Some (bins (tperm 0 1) Y) & bins (tperm 0 1) Y <> Y].
Proof.
have h : call_f (laplace_ip1 id) k 0 Wi (gained Ze Xi) = Some (gained Ze Xe).
  by rewrite (C78_gain_ip1 k 0 Xi Wi Ze_level) call_hada.
exists (gained Ze Xi), (gained Ze Xe); split=> //.
  by rewrite -[Wi in LHS]/(bins (tperm 0 1) Wi) C80_call_laplace_ip1 h.
move=> /(congr1 (fun f : 'I_2 -> 'M[Cx]_2 => f 0 0 0)); rewrite /bins tpermL /gained /Xe /Ze !mxE /= !mulr1 -cN => /c_inj; toR; lra.
Qed.
