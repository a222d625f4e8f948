(** C89: for GaussMNMF and FastGaussMNMF the order of sources, bins, frames and bases does not
    matter. *)
From Coq Require Import Reals Lra FunctionalExtensionality.
From mathcomp Require Import all_ssreflect all_algebra all_fingroup.
From Verif Require Import RStruct MxC CxR NpLin RealLemmas NmfReal Eigh SpatialIP SpatialIP2 SpatialISS Scale AuxIVA AuxIVARun AuxIVACall Prop_AuxIVARun Ilrma Mnmf MnmfRun GaussRun.
From Verif Require Import Prop_Frames Prop_Bins Prop_AuxIVAFloor MnmfFast MnmfGauss Prop_Mnmf Prop_MnmfFast Prop_MnmfRun Prop_MnmfGauss Prop_GaussRun.
Import Order.TTheory GRing.Theory Num.Theory.
Set Implicit Arguments.
Unset Strict Implicit.
Unset Printing Implicit Defensive.
Local Open Scope ring_scope.

Lemma ext2 A B C (f g : A -> B -> C) : (forall a b, f a b = g a b) -> f = g.
Proof. by move=> h; apply: functional_extensionality => a; apply: functional_extensionality => b. Qed.
Lemma ext3 A B C D (f g : A -> B -> C -> D) : (forall a b d, f a b d = g a b d) -> f = g.
Proof. by move=> h; apply: functional_extensionality => a; exact: ext2. Qed.

Lemma all_perm2 I J (p : {perm 'I_I}) (q : {perm 'I_J}) (P Q : 'I_I -> 'I_J -> bool) : (forall a b, P a b = Q (p a) (q b)) ->
  [forall a, [forall b, P a b]] = [forall a, [forall b, Q a b]].
Proof.
move=> h; rewrite -(forall_bins p (fun a => [forall b, Q a b])); apply: eq_forallb => a.
by rewrite -(forall_bins q (Q (p a))); apply: eq_forallb => b; exact: h.
Qed.
(** multiplicative updates of arrays with two or three axes *)
Lemma update2_order I J (p : {perm 'I_I}) (q : {perm 'I_J}) (u u' : bool) (z : R -> R) (nu de nu' de' g : 'I_I -> 'I_J -> R) : u = u' ->
  (forall a b, nu a b = nu' (p a) (q b)) -> (forall a b, de a b = de' (p a) (q b)) ->
  (if u && [forall a, [forall b, ratio_ok (nu a b) (de a b)]] then Some (fun a b => z (g (p a) (q b) * R_sqrt.sqrt (nu a b / de a b)%coqR)) else None) =
  omap (fun (h : 'I_I -> 'I_J -> R) a b => h (p a) (q b))
    (if u' && [forall a, [forall b, ratio_ok (nu' a b) (de' a b)]] then Some (fun a b => z (g a b * R_sqrt.sqrt (nu' a b / de' a b)%coqR)) else None).
Proof.
move=> <- hn hd; have -> : nu = fun a b => nu' (p a) (q b) by apply: ext2.
have -> : de = fun a b => de' (p a) (q b) by apply: ext2.
have -> : [forall a, [forall b, ratio_ok (nu' (p a) (q b)) (de' (p a) (q b))]] = [forall a, [forall b, ratio_ok (nu' a b) (de' a b)]].
  by apply: (all_perm2 (p := p) (q := q)).
by case: (_ && _).
Qed.
Lemma update3_order I J L (p : {perm 'I_I}) (q : 'I_I -> {perm 'I_J}) (o : 'I_I -> {perm 'I_L}) (u u' : bool) (z : R -> R) (nu de nu' de' g : 'I_I -> 'I_J -> 'I_L -> R) : u = u' ->
  (forall a b d, nu a b d = nu' (p a) (q a b) (o a d)) -> (forall a b d, de a b d = de' (p a) (q a b) (o a d)) ->
  (if u && [forall a, [forall b, [forall d, ratio_ok (nu a b d) (de a b d)]]] then Some (fun a b d => z (g (p a) (q a b) (o a d) * R_sqrt.sqrt (nu a b d / de a b d)%coqR)) else None) =
  omap (fun (h : 'I_I -> 'I_J -> 'I_L -> R) a b d => h (p a) (q a b) (o a d))
    (if u' && [forall a, [forall b, [forall d, ratio_ok (nu' a b d) (de' a b d)]]] then Some (fun a b d => z (g a b d * R_sqrt.sqrt (nu' a b d / de' a b d)%coqR)) else None).
Proof.
move=> <- hn hd; have -> : nu = fun a b d => nu' (p a) (q a b) (o a d) by apply: ext3.
have -> : de = fun a b d => de' (p a) (q a b) (o a d) by apply: ext3.
have -> : [forall a, [forall b, [forall d, ratio_ok (nu' (p a) (q a b) (o a d)) (de' (p a) (q a b) (o a d))]]] = [forall a, [forall b, [forall d, ratio_ok (nu' a b d) (de' a b d)]]].
  rewrite -(forall_bins p (fun a => [forall b, [forall d, ratio_ok (nu' a b d) (de' a b d)]])); apply: eq_forallb => a.
  exact: (all_perm2 (p := q a) (q := o a)).
by case: (_ && _).
Qed.
Section Order.
Variables (N M F T K : nat) (pn : {perm 'I_N}) (pi : {perm 'I_F}) (pj : {perm 'I_T}).
Notation cells := ('I_N -> 'I_F -> 'I_T -> R).
Notation spec := ('I_F -> 'M[Cx]_(M, T)).
(** the recording with bins and frames in another order *)
Definition oX (X : spec) : spec := fun i => \matrix_(m, j) X (pi i) m (pj j).
(** quantities per source, bin and frame *)
Definition oL A (L : 'I_N -> 'I_F -> 'I_T -> A) : 'I_N -> 'I_F -> 'I_T -> A := fun n i j => L (pn n) (pi i) (pj j).
Lemma oX_col X i j : col j (oX X i) = col (pj j) (X (pi i)).
Proof. by apply/colP => m; rewrite !mxE. Qed.
Lemma mean_frames (g : 'I_T -> R) : meanR (fun j => g (pj j)) = meanR g.
Proof. exact: meanR_bins. Qed.
Lemma meanC_order (g : 'I_T -> Cx) : meanC (fun j => g (pj j)) = meanC g.
Proof. by rewrite /meanC (sum_bins pj). Qed.
Lemma all3 (P : 'I_N -> 'I_F -> 'I_T -> bool) : [forall n, [forall i, [forall j, P (pn n) (pi i) (pj j)]]] = [forall n, [forall i, [forall j, P n i j]]].
Proof.
rewrite (forall_bins pn (fun n => [forall i, [forall j, P n (pi i) (pj j)]])); apply: eq_forallb => n.
rewrite (forall_bins pi (fun i => [forall j, P n i (pj j)])); apply: eq_forallb => i.
exact: (forall_bins pj (P n i)).
Qed.
Lemma all2 (P : 'I_F -> 'I_T -> bool) : [forall i, [forall j, P (pi i) (pj j)]] = [forall i, [forall j, P i j]].
Proof.
rewrite (forall_bins pi (fun i => [forall j, P i (pj j)])); apply: eq_forallb => i.
exact: (forall_bins pj (P i)).
Qed.
Lemma wiener_order fl eig (Rn : 'I_N -> 'I_F -> 'I_T -> 'M[Cx]_M) X r :
  wiener fl eig (oL Rn) (oX X) r = omap (@oL Cx) (wiener fl eig Rn X r).
Proof.
have sE i j : \sum_n oL Rn n i j = \sum_n Rn n (pi i) (pj j) by exact: (sum_bins pn (fun n => Rn n (pi i) (pj j))).
have uE : [forall i, [forall j, to_psd eig fl (\sum_n oL Rn n i j) \in unitmx]] = [forall i, [forall j, to_psd eig fl (\sum_n Rn n i j) \in unitmx]].
  exact: (all_perm2 (fun i j => f_equal (fun A => to_psd eig fl A \in unitmx) (sE i j))).
rewrite /wiener uE.
case: [forall i, _]; last by [].
apply: (f_equal (fun q => Some q)); apply: ext3 => n i j; rewrite sE [RHS]/oL; apply: eq_bigr => a _; by rewrite [oX X i a j]mxE.
Qed.

Section Bases.
Variable pk : 'I_N -> {perm 'I_K}.
Notation basis := ('I_N -> 'I_F -> 'I_K -> R).
Notation activ := ('I_N -> 'I_K -> 'I_T -> R).
Implicit Types (B : basis) (V : activ) (L : cells) (X : spec).
(** bases and activations of a source in another order, different for every source *)
Definition oB B : basis := fun n i k => B (pn n) (pi i) (pk n k).
Definition oV V : activ := fun n k j => V (pn n) (pk n k) (pj j).
Lemma recon_order B V : recon (oB B) (oV V) = oL (recon B V).
Proof. by apply: ext3 => n i j; exact: (sum_bins (pk n) (fun k => B (pn n) (pi i) k * V (pn n) k (pj j))). Qed.
Lemma allB (P : 'I_N -> 'I_F -> 'I_K -> bool) : [forall n, [forall i, [forall k, P (pn n) (pi i) (pk n k)]]] = [forall n, [forall i, [forall k, P n i k]]].
Proof.
rewrite -(forall_bins pn (fun n => [forall i, [forall k, P n i k]])); apply: eq_forallb => n.
rewrite (forall_bins pi (fun i => [forall k, P (pn n) i (pk n k)])); apply: eq_forallb => i.
exact: (forall_bins (pk n) (P (pn n) i)).
Qed.
Lemma allV (P : 'I_N -> 'I_K -> 'I_T -> bool) : [forall n, [forall k, [forall j, P (pn n) (pk n k) (pj j)]]] = [forall n, [forall k, [forall j, P n k j]]].
Proof.
rewrite -(forall_bins pn (fun n => [forall k, [forall j, P n k j]])); apply: eq_forallb => n.
rewrite (forall_bins (pk n) (fun k => [forall j, P (pn n) k (pj j)])); apply: eq_forallb => k.
exact: (forall_bins pj (P (pn n) k)).
Qed.

(** ** FastGaussMNMF *)
Section Fast.
Variables (fl : R -> R) (eig : eigh_t) (chol : chol_t).
Notation diagz := ('I_F -> 'M[Cx]_M).
Notation spat := ('I_F -> 'I_N -> 'I_M -> R).
Implicit Types (Q : diagz) (D : spat).
Definition oD D : spat := fun i n m => D (pi i) (pn n) m.
Notation oQ := (@bins F pi _).
Lemma lambd_order L D i m j : lambd (oL L) (oD D) i m j = lambd L D (pi i) m (pj j).
Proof. exact: (sum_bins pn (fun n => L n (pi i) (pj j) * D (pi i) n m)). Qed.
Lemma qx_order X Q i m j : qx (oX X) (oQ Q) i m j = qx X Q (pi i) m (pj j).
Proof. by rewrite /qx; apply: f_equal; rewrite !mxE; apply: eq_bigr => a _; rewrite mxE. Qed.
Lemma all_imj_order (P : 'I_F -> 'I_M -> 'I_T -> bool) : all_imj (fun i m j => P (pi i) m (pj j)) = all_imj P.
Proof.
rewrite /all_imj (forall_bins pi (fun i => [forall m, [forall j, P i m (pj j)]])); apply: eq_forallb => i; apply: eq_forallb => m.
exact: (forall_bins pj (P i m)).
Qed.
Lemma nz_order L D : all_imj (fun i m j => lambd (oL L) (oD D) i m j != 0) = all_imj (fun i m j => lambd L D i m j != 0).
Proof.
rewrite -(all_imj_order (fun i m j => lambd L D i m j != 0)).
by apply: eq_forallb => i; apply: eq_forallb => m; apply: eq_forallb => j; rewrite lambd_order.
Qed.
Lemma fb_num_order X Q D B V n i k : fb_num (oX X) (oQ Q) (oD D) (oB B) (oV V) n i k = fb_num X Q D B V (pn n) (pi i) (pk n k).
Proof.
rewrite /fb_num recon_order -[RHS](sum_bins pj); apply: eq_bigr => j _; apply: f_equal.
by apply: eq_bigr => m _; rewrite lambd_order qx_order.
Qed.
Lemma fb_den_order D B V n i k : fb_den (oD D) (oB B) (oV V) n i k = fb_den D B V (pn n) (pi i) (pk n k).
Proof.
rewrite /fb_den recon_order -[RHS](sum_bins pj); apply: eq_bigr => j _; apply: f_equal.
by apply: eq_bigr => m _; rewrite lambd_order.
Qed.
Lemma fast_basis_order X Q D B V : fast_basis fl (oX X) (oQ Q) (oD D) (oB B) (oV V) = omap oB (fast_basis fl X Q D B V).
Proof.
rewrite /fast_basis recon_order nz_order; set t := [forall n, _]; set t' := [forall n, _].
have -> : t = t'.
  rewrite /t /t' -(allB (fun n i k => ratio_ok (fb_num X Q D B V n i k) (fb_den D B V n i k))).
  by apply: eq_forallb => n; apply: eq_forallb => i; apply: eq_forallb => k; rewrite fb_num_order fb_den_order.
case: (_ && _); last by [].
by apply: (f_equal (fun q => Some q)); apply: ext3 => n i k; rewrite fb_num_order fb_den_order.
Qed.
Lemma fa_num_order X Q D B V n k j : fa_num (oX X) (oQ Q) (oD D) (oB B) (oV V) n k j = fa_num X Q D B V (pn n) (pk n k) (pj j).
Proof.
rewrite /fa_num recon_order -[RHS](sum_bins pi); apply: eq_bigr => i _; apply: f_equal.
by apply: eq_bigr => m _; rewrite lambd_order qx_order.
Qed.
Lemma fa_den_order D B V n k j : fa_den (oD D) (oB B) (oV V) n k j = fa_den D B V (pn n) (pk n k) (pj j).
Proof.
rewrite /fa_den recon_order -[RHS](sum_bins pi); apply: eq_bigr => i _; apply: f_equal.
by apply: eq_bigr => m _; rewrite lambd_order.
Qed.
Lemma fast_activation_order X Q D B V : fast_activation fl (oX X) (oQ Q) (oD D) (oB B) (oV V) = omap oV (fast_activation fl X Q D B V).
Proof.
rewrite /fast_activation recon_order nz_order; set t := [forall n, _]; set t' := [forall n, _].
have -> : t = t'.
  rewrite /t /t' -(allV (fun n k j => ratio_ok (fa_num X Q D B V n k j) (fa_den D B V n k j))).
  by apply: eq_forallb => n; apply: eq_forallb => k; apply: eq_forallb => j; rewrite fa_num_order fa_den_order.
case: (_ && _); last by [].
by apply: (f_equal (fun q => Some q)); apply: ext3 => n k j; rewrite fa_num_order fa_den_order.
Qed.
Lemma fs_num_order X Q D L i n m : fs_num (oX X) (oQ Q) (oD D) (oL L) i n m = fs_num X Q D L (pi i) (pn n) m.
Proof.
rewrite /fs_num -(sum_bins pj (fun j => (L (pn n) (pi i) j / lambd L D (pi i) m j ^ 2)%coqR * (qx X Q (pi i) m j ^ 2)%coqR)).
by apply: eq_bigr => j _; rewrite lambd_order qx_order.
Qed.
Lemma fs_den_order D L i n m : fs_den (oD D) (oL L) i n m = fs_den D L (pi i) (pn n) m.
Proof.
rewrite /fs_den -(sum_bins pj (fun j => (L (pn n) (pi i) j / lambd L D (pi i) m j)%coqR)).
by apply: eq_bigr => j _; rewrite lambd_order.
Qed.
Lemma fast_spatial_order X Q D L : fast_spatial (oX X) (oQ Q) (oD D) (oL L) = omap oD (fast_spatial X Q D L).
Proof.
rewrite /fast_spatial nz_order; set t := [forall n, _]; set t' := [forall n, _].
have -> : t = t'.
  rewrite /t /t' -(forall_bins pi (fun i => [forall n, [forall m, ratio_ok (fs_num X Q D L i n m) (fs_den D L i n m)]])); apply: eq_forallb => i.
  rewrite -(forall_bins pn (fun n => [forall m, ratio_ok (fs_num X Q D L (pi i) n m) (fs_den D L (pi i) n m)])); apply: eq_forallb => n.
  by apply: eq_forallb => m; rewrite fs_num_order fs_den_order.
case: (_ && _); last by [].
by apply: (f_equal (fun q => Some q)); apply: ext3 => i n m; rewrite fs_num_order fs_den_order.
Qed.
Lemma wcov_order X D L i : wcov (fast_phi (oD D) (oL L) i) (oX X i) = wcov (fast_phi D L (pi i)) (X (pi i)).
Proof.
apply: functional_extensionality => m; apply/matrixP => a b; rewrite !mxE.
rewrite -(meanC_order (fun t => c (fast_phi D L (pi i) m t) * (X (pi i) a t * (X (pi i) b t)^*))).
apply: f_equal; apply: functional_extensionality => j; by rewrite !mxE lambd_order.
Qed.
Lemma fast_diag_order a X D L Q : fast_diag fl eig chol a (oX X) (oD D) (oL L) (oQ Q) = omap oQ (fast_diag fl eig chol a X D L Q).
Proof.
case: a => [|ps] /=; rewrite /fast_diag_ip1 /fast_diag_ip2 nz_order; case: (_ && _) => //; rewrite -all_bins_perm;
  apply: f_equal; apply: functional_extensionality => i; by rewrite wcov_order.
Qed.
Lemma fast_psi_order X Q m : fast_psi fl (oX X) (oQ Q) m = fast_psi fl X Q m.
Proof.
rewrite /fast_psi; apply: f_equal; apply: f_equal; apply: f_equal.
rewrite -(sum_bins pi (fun i => \sum_j (qx X Q i m j ^ 2)%coqR)); apply: eq_bigr => i _.
by rewrite -(sum_bins pj (fun j => (qx X Q (pi i) m j ^ 2)%coqR)); apply: eq_bigr => j _; rewrite qx_order.
Qed.
Lemma fast_norm_order X Q D : fast_norm fl (oX X) (oQ Q) (oD D) = omap (fun p => (oQ p.1, oD p.2)) (fast_norm fl X Q D).
Proof.
rewrite /fast_norm; set t := [forall m, _]; set t' := [forall m, _].
have -> : t = t' by apply: eq_forallb => m; rewrite fast_psi_order.
case: (_ && _); last by [].
apply: (f_equal (fun q => Some q)); apply: (f_equal2 pair).
  by apply: functional_extensionality => i; apply/matrixP => m a; rewrite !mxE fast_psi_order.
by apply: ext3 => i n m; rewrite fast_psi_order.
Qed.
(** all parameters in the other order *)
Definition ofast (s : fast_state N M F T K) : fast_state N M F T K :=
  FastState (oQ (fs_Q s)) (oD (fs_D s)) (oB (fs_B s)) (oV (fs_V s)).
Lemma fast_step_order a nrm X s : fast_step fl eig chol a nrm (oX X) (ofast s) = omap ofast (fast_step fl eig chol a nrm X s).
Proof.
case: s => Q D B V; rewrite /ofast /fast_step [fs_Q _]/= [fs_D _]/= [fs_B _]/= [fs_V _]/=.
rewrite fast_basis_order; case: (fast_basis _ _ _ _ _ _) => [B1|]; last by [].
rewrite [omap oB _]/=; cbv iota; rewrite fast_activation_order; case: (fast_activation _ _ _ _ _ _) => [V1|]; last by [].
rewrite [omap oV _]/=; cbv iota; rewrite recon_order fast_diag_order; case: (fast_diag _ _ _ _ _ _ _ _) => [Q1|]; last by [].
rewrite [omap _ (Some Q1)]/=; cbv iota; rewrite fast_spatial_order; case: (fast_spatial _ _ _ _) => [D1|]; last by [].
rewrite [omap _ (Some D1)]/=; cbv iota; case: nrm; last by [].
by rewrite fast_norm_order; case: (fast_norm _ _ _ _) => [[]|].
Qed.
Lemma fast_loss_order X Q D L : fast_loss (oX X) (oQ Q) (oD D) (oL L) = fast_loss X Q D L.
Proof.
rewrite /fast_loss (forall_bins pi (fun i => Q i \in unitmx)).
have -> : all_imj (fun i m j => Rltb 0 (lambd (oL L) (oD D) i m j)) = all_imj (fun i m j => Rltb 0 (lambd L D i m j)).
  rewrite -(all_imj_order (fun i m j => Rltb 0 (lambd L D i m j))).
  by apply: eq_forallb => i; apply: eq_forallb => m; apply: eq_forallb => j; rewrite lambd_order.
case: [&& _, _ & _]; last by [].
apply: f_equal; rewrite -[RHS](sum_bins pi); apply: eq_bigr => i _; apply: (f_equal2 (fun x y => x - y)); last by [].
rewrite -[RHS]mean_frames; apply: f_equal; apply: functional_extensionality => j.
by apply: eq_bigr => m _; rewrite lambd_order qx_order.
Qed.
Lemma state_separate_order X r s : state_separate fl eig (oX X) r (ofast s) = omap (@oL Cx) (state_separate fl eig X r s).
Proof.
case: s => Q D B V; rewrite /state_separate /fast_separate [fs_Q _]/= [fs_D _]/= [fs_B _]/= [fs_V _]/= recon_order.
rewrite (forall_bins pi (fun i => Q i \in unitmx)); case: [forall i, _]; last by [].
by rewrite -wiener_order; apply: (f_equal (fun Rn => wiener fl eig Rn (oX X) r)).
Qed.
(** C89: FastGaussMNMF (IP1 and IP2, with or without normalisation and flooring) *)
Theorem C89_fast_run a nrm X k s : fast_run fl eig chol a nrm (oX X) k (ofast s) =
  omap (fun o => (ofast o.1, o.2)) (fast_run fl eig chol a nrm X k s).
Proof.
apply: recorded_map => s1; first exact: fast_step_order.
by rewrite /fast_state_loss [fs_Q _]/= [fs_D _]/= [fs_B _]/= [fs_V _]/= recon_order fast_loss_order.
Qed.
Theorem C89_fast a nrm X r k s : fast_call fl eig chol a nrm (oX X) r k (ofast s) =
  omap (fun o => (oL o.1, o.2)) (fast_call fl eig chol a nrm X r k s).
Proof.
rewrite /fast_call state_separate_order; case: (state_separate fl eig X r s) => [Y0|]; last by [].
rewrite [omap _ (Some Y0)]/=; cbv iota; rewrite C89_fast_run; case: (fast_run _ _ _ _ _ _ _ _) => [[s1 ls]|]; last by [].
by rewrite [omap _ (Some (s1, ls))]/=; cbv iota; rewrite state_separate_order; case: (state_separate _ _ _ _ s1).
Qed.
End Fast.
End Bases.

(** ** GaussMNMF, any nonnegative model [L] of the sources *)
Section Gauss.
Variables (fl : R -> R) (eig : eigh_t) (chol : chol_t).
Notation spat := ('I_N -> 'I_F -> 'M[Cx]_M).
Notation covs := ('I_F -> 'I_T -> 'M[Cx]_M).
Implicit Types (XX : covs) (H : spat) (L : cells) (X : spec).
Definition oH A (H : 'I_N -> 'I_F -> A) : 'I_N -> 'I_F -> A := fun n i => H (pn n) (pi i).
Definition oC XX : covs := fun i j => XX (pi i) (pj j).
Lemma inst_cov_order X : inst_cov fl eig (oX X) = oC (inst_cov fl eig X).
Proof. by apply: ext2 => i j; rewrite /inst_cov oX_col. Qed.
Lemma rpsd_order L H i j : rpsd fl eig (oL L) (oH H) i j = rpsd fl eig L H (pi i) (pj j).
Proof. by rewrite /rpsd; apply: f_equal; exact: (sum_bins pn (fun n => c (L n (pi i) (pj j)) *: H n (pi i))). Qed.
Lemma rpsd_unit_order L H : rpsd_unit fl eig (oL L) (oH H) = rpsd_unit fl eig L H.
Proof.
exact: (all_perm2 (fun i j => f_equal (fun A => A \in unitmx) (rpsd_order L H i j))).
Qed.
Lemma gauss_loss_order XX L H : gauss_loss fl eig (oC XX) (oL L) (oH H) = gauss_loss fl eig XX L H.
Proof.
rewrite /gauss_loss rpsd_unit_order; case: (_ && _); last by [].
apply: (f_equal (fun q => Some q)); rewrite -[RHS](sum_bins pi); apply: eq_bigr => i _.
by rewrite -[RHS]mean_frames; apply: f_equal; apply: functional_extensionality => j; rewrite rpsd_order.
Qed.
Lemma gauss_separate_order X L H r : gauss_separate fl eig (oX X) (oL L) (oH H) r = omap (@oL Cx) (gauss_separate fl eig X L H r).
Proof. by rewrite /gauss_separate -wiener_order. Qed.
Lemma tr_RXXRH_order XX L H n i j : tr_RXXRH fl eig (oC XX) (oL L) (oH H) n i j = tr_RXXRH fl eig XX L H (pn n) (pi i) (pj j).
Proof. by rewrite /tr_RXXRH rpsd_order. Qed.
Lemma tr_RH_order L H n i j : tr_RH fl eig (oL L) (oH H) n i j = tr_RH fl eig L H (pn n) (pi i) (pj j).
Proof. by rewrite /tr_RH rpsd_order. Qed.
Lemma sp_P_order L H n i : sp_P fl eig (oL L) (oH H) n i = sp_P fl eig L H (pn n) (pi i).
Proof. by rewrite /sp_P -[RHS](sum_bins pj); apply: eq_bigr => j _; rewrite rpsd_order. Qed.
Lemma sp_Q_order XX L H n i : sp_Q fl eig (oC XX) (oL L) (oH H) n i = sp_Q fl eig XX L H (pn n) (pi i).
Proof. by rewrite /sp_Q -[RHS](sum_bins pj); apply: eq_bigr => j _; rewrite rpsd_order. Qed.
Lemma gauss_spatial_at_order XX L H n i : gauss_spatial_at fl eig chol (oC XX) (oL L) (oH H) n i = gauss_spatial_at fl eig chol XX L H (pn n) (pi i).
Proof. by rewrite /gauss_spatial_at sp_P_order sp_Q_order. Qed.
Lemma all_ni (P : 'I_N -> 'I_F -> bool) : [forall n, [forall i, P (pn n) (pi i)]] = [forall n, [forall i, P n i]].
Proof.
rewrite (forall_bins pn (fun n => [forall i, P n (pi i)])); apply: eq_forallb => n.
exact: (forall_bins pi (P n)).
Qed.
Lemma spatial_order_form (u u' : bool) (f g : 'I_N -> 'I_F -> option 'M[Cx]_M) : u = u' -> (forall n i, f n i = g (pn n) (pi i)) ->
  (if u && [forall n, [forall i, isSome (f n i)]] then Some (fun n i => odflt 0 (f n i)) else None) =
  omap (@oH _) (if u' && [forall n, [forall i, isSome (g n i)]] then Some (fun n i => odflt 0 (g n i)) else None).
Proof.
move=> <- h; rewrite -(all_ni (fun n i => isSome (g n i))); have -> : f = oH g by apply: ext2.
by case: (_ && _).
Qed.
Lemma gauss_spatial_order XX L H : gauss_spatial fl eig chol (oC XX) (oL L) (oH H) = omap (@oH _) (gauss_spatial fl eig chol XX L H).
Proof. exact: (spatial_order_form (rpsd_unit_order L H) (gauss_spatial_at_order XX L H)). Qed.

(** *** Without partitioning *)
Section Bases.
Variable pk : 'I_N -> {perm 'I_K}.
Notation oB := (oB pk).
Notation oV := (oV pk).
Implicit Types (B : 'I_N -> 'I_F -> 'I_K -> R) (V : 'I_N -> 'I_K -> 'I_T -> R).
Lemma gb_num_order XX H B V n i k : gb_num fl eig (oC XX) (oH H) (oB B) (oV V) n i k = gb_num fl eig XX H B V (pn n) (pi i) (pk n k).
Proof. by rewrite /gb_num recon_order -[RHS](sum_bins pj); apply: eq_bigr => j _; rewrite tr_RXXRH_order. Qed.
Lemma gb_den_order H B V n i k : gb_den fl eig (oH H) (oB B) (oV V) n i k = gb_den fl eig H B V (pn n) (pi i) (pk n k).
Proof. by rewrite /gb_den recon_order -[RHS](sum_bins pj); apply: eq_bigr => j _; rewrite tr_RH_order. Qed.
Lemma gauss_basis_order XX H B V : gauss_basis fl eig (oC XX) (oH H) (oB B) (oV V) = omap oB (gauss_basis fl eig XX H B V).
Proof.
rewrite /gauss_basis [in LHS]recon_order.
exact: (update3_order fl B (rpsd_unit_order (recon B V) H) (fun n i k => gb_num_order XX H B V n i k) (fun n i k => gb_den_order H B V n i k) (q := fun _ => pi) (o := pk)).
Qed.
Lemma ga_num_order XX H B V n k j : ga_num fl eig (oC XX) (oH H) (oB B) (oV V) n k j = ga_num fl eig XX H B V (pn n) (pk n k) (pj j).
Proof. by rewrite /ga_num recon_order -[RHS](sum_bins pi); apply: eq_bigr => i _; rewrite tr_RXXRH_order. Qed.
Lemma ga_den_order H B V n k j : ga_den fl eig (oH H) (oB B) (oV V) n k j = ga_den fl eig H B V (pn n) (pk n k) (pj j).
Proof. by rewrite /ga_den recon_order -[RHS](sum_bins pi); apply: eq_bigr => i _; rewrite tr_RH_order. Qed.
Lemma gauss_activation_order XX H B V : gauss_activation fl eig (oC XX) (oH H) (oB B) (oV V) = omap oV (gauss_activation fl eig XX H B V).
Proof.
rewrite /gauss_activation [in LHS]recon_order.
exact: (update3_order fl V (rpsd_unit_order (recon B V) H) (fun n k j => ga_num_order XX H B V n k j) (fun n k j => ga_den_order H B V n k j) (q := pk) (o := fun _ => pj)).
Qed.
Lemma gauss_norm_order H B : gauss_norm (oH H) (oB B) = omap (fun p => (oH p.1, oB p.2)) (gauss_norm H B).
Proof. by rewrite /gauss_norm (all_ni (fun n i => re (\tr (H n i)) != 0)); case: [forall n, _]. Qed.
Definition ogauss (s : gauss_state N M F T K) : gauss_state N M F T K :=
  GaussState (oH (gs_H s)) (oB (gs_B s)) (oV (gs_V s)).
Lemma gauss_once_order nrm XX s : gauss_once fl eig chol nrm (oC XX) (ogauss s) = omap ogauss (gauss_once fl eig chol nrm XX s).
Proof.
case: s => H B V; rewrite /ogauss /gauss_once [gs_H _]/= [gs_B _]/= [gs_V _]/=.
rewrite gauss_basis_order; case: (gauss_basis _ _ _ _ _ _) => [B1|]; last by [].
rewrite [omap oB _]/=; cbv iota; rewrite gauss_activation_order; case: (gauss_activation _ _ _ _ _ _) => [V1|]; last by [].
rewrite [omap oV _]/=; cbv iota; rewrite recon_order gauss_spatial_order; case: (gauss_spatial _ _ _ _ _ _) => [H1|]; last by [].
rewrite [omap (@oH _) _]/=; cbv iota; case: nrm; last by [].
by rewrite gauss_norm_order; case: (gauss_norm _ _) => [[]|].
Qed.
(** C89: GaussMNMF *)
Theorem C89_gauss_run nrm X k s : mnmf_run fl eig chol nrm (oX X) k (ogauss s) =
  omap (fun o => (ogauss o.1, o.2)) (mnmf_run fl eig chol nrm X k s).
Proof.
rewrite /mnmf_run inst_cov_order; apply: recorded_map => s1; first exact: gauss_once_order.
by rewrite /mnmf_loss [gs_H _]/= [gs_B _]/= [gs_V _]/= recon_order gauss_loss_order.
Qed.
Lemma mnmf_separate_order X r s : mnmf_separate fl eig (oX X) r (ogauss s) = omap (@oL Cx) (mnmf_separate fl eig X r s).
Proof. by rewrite /mnmf_separate [gs_H _]/= [gs_B _]/= [gs_V _]/= recon_order gauss_separate_order. Qed.
Theorem C89_gauss nrm X r k s : mnmf_call fl eig chol nrm (oX X) r k (ogauss s) =
  omap (fun o => (oL o.1, o.2)) (mnmf_call fl eig chol nrm X r k s).
Proof.
rewrite /mnmf_call mnmf_separate_order; case: (mnmf_separate fl eig X r s) => [Y0|]; last by [].
rewrite [omap _ (Some Y0)]/=; cbv iota; rewrite C89_gauss_run; case: (mnmf_run _ _ _ _ _ _ _) => [[s1 ls]|]; last by [].
by rewrite [omap _ (Some (s1, ls))]/=; cbv iota; rewrite mnmf_separate_order; case: (mnmf_separate _ _ _ _ s1).
Qed.
End Bases.

(** *** With [partitioning=True]: the bases are shared by the sources *)
Section Partitioned.
Variable pk : {perm 'I_K}.
Notation pbasis := ('I_F -> 'I_K -> R).
Notation pactiv := ('I_K -> 'I_T -> R).
Notation latent := ('I_N -> 'I_K -> R).
Implicit Types (C : pbasis) (A : pactiv) (Z : latent).
Definition oCb C : pbasis := fun i k => C (pi i) (pk k).
Definition oA A : pactiv := fun k j => A (pk k) (pj j).
Definition oZ Z : latent := fun n k => Z (pn n) (pk k).
Lemma recon_lat_order Z C A : recon_lat (oZ Z) (oCb C) (oA A) = oL (recon_lat Z C A).
Proof. by apply: ext3 => n i j; exact: (sum_bins pk (fun k => Z (pn n) k * (C (pi i) k * A k (pj j)))). Qed.
Lemma gpb_num_order XX H Z C A i k : gpb_num fl eig (oC XX) (oH H) (oZ Z) (oCb C) (oA A) i k = gpb_num fl eig XX H Z C A (pi i) (pk k).
Proof.
rewrite /gpb_num recon_lat_order -[RHS](sum_bins pn); apply: eq_bigr => n _; apply: (f_equal2 (fun x y : R => x * y)); first by [].
by rewrite -[RHS](sum_bins pj); apply: eq_bigr => j _; rewrite tr_RXXRH_order.
Qed.
Lemma gpb_den_order H Z C A i k : gpb_den fl eig (oH H) (oZ Z) (oCb C) (oA A) i k = gpb_den fl eig H Z C A (pi i) (pk k).
Proof.
rewrite /gpb_den recon_lat_order -[RHS](sum_bins pn); apply: eq_bigr => n _; apply: (f_equal2 (fun x y : R => x * y)); first by [].
by rewrite -[RHS](sum_bins pj); apply: eq_bigr => j _; rewrite tr_RH_order.
Qed.
Lemma gpa_num_order XX H Z C A k j : gpa_num fl eig (oC XX) (oH H) (oZ Z) (oCb C) (oA A) k j = gpa_num fl eig XX H Z C A (pk k) (pj j).
Proof.
rewrite /gpa_num recon_lat_order -[RHS](sum_bins pn); apply: eq_bigr => n _; apply: (f_equal2 (fun x y : R => x * y)); first by [].
by rewrite -[RHS](sum_bins pi); apply: eq_bigr => i _; rewrite tr_RXXRH_order.
Qed.
Lemma gpa_den_order H Z C A k j : gpa_den fl eig (oH H) (oZ Z) (oCb C) (oA A) k j = gpa_den fl eig H Z C A (pk k) (pj j).
Proof.
rewrite /gpa_den recon_lat_order -[RHS](sum_bins pn); apply: eq_bigr => n _; apply: (f_equal2 (fun x y : R => x * y)); first by [].
by rewrite -[RHS](sum_bins pi); apply: eq_bigr => i _; rewrite tr_RH_order.
Qed.
Lemma gl_num_order XX H Z C A n k : gl_num fl eig (oC XX) (oH H) (oZ Z) (oCb C) (oA A) n k = gl_num fl eig XX H Z C A (pn n) (pk k).
Proof.
rewrite /gl_num recon_lat_order -[RHS](sum_bins pi); apply: eq_bigr => i _; apply: (f_equal2 (fun x y : R => x * y)); first by [].
by rewrite -[RHS](sum_bins pj); apply: eq_bigr => j _; rewrite tr_RXXRH_order.
Qed.
Lemma gl_den_order H Z C A n k : gl_den fl eig (oH H) (oZ Z) (oCb C) (oA A) n k = gl_den fl eig H Z C A (pn n) (pk k).
Proof.
rewrite /gl_den recon_lat_order -[RHS](sum_bins pi); apply: eq_bigr => i _; apply: (f_equal2 (fun x y : R => x * y)); first by [].
by rewrite -[RHS](sum_bins pj); apply: eq_bigr => j _; rewrite tr_RH_order.
Qed.
Lemma gauss_pbasis_order XX H Z C A : gauss_pbasis fl eig (oC XX) (oH H) (oZ Z) (oCb C) (oA A) = omap oCb (gauss_pbasis fl eig XX H Z C A).
Proof.
rewrite /gauss_pbasis [in LHS]recon_lat_order.
exact: (update2_order fl C (rpsd_unit_order (recon_lat Z C A) H) (fun i k => gpb_num_order XX H Z C A i k) (fun i k => gpb_den_order H Z C A i k)).
Qed.
Lemma gauss_pactivation_order XX H Z C A : gauss_pactivation fl eig (oC XX) (oH H) (oZ Z) (oCb C) (oA A) = omap oA (gauss_pactivation fl eig XX H Z C A).
Proof.
rewrite /gauss_pactivation [in LHS]recon_lat_order.
exact: (update2_order fl A (rpsd_unit_order (recon_lat Z C A) H) (fun k j => gpa_num_order XX H Z C A k j) (fun k j => gpa_den_order H Z C A k j)).
Qed.
Lemma latent_normalise_order Z : latent_normalise (oZ Z) = omap oZ (latent_normalise Z).
Proof.
have sE k : \sum_n oZ Z n k = \sum_n Z n (pk k) by exact: (sum_bins pn (fun n => Z n (pk k))).
rewrite /latent_normalise.
have -> : [forall k, \sum_n oZ Z n k != 0] = [forall k, \sum_n Z n k != 0].
  by rewrite -(forall_bins pk (fun k => \sum_n Z n k != 0)); apply: eq_forallb => k; rewrite sE.
case: [forall k, _]; last by [].
by apply: (f_equal (fun q => Some q)); apply: ext2 => n k; rewrite sE.
Qed.
Lemma gauss_latent_order XX H Z C A : gauss_latent fl eig (oC XX) (oH H) (oZ Z) (oCb C) (oA A) = omap oZ (gauss_latent fl eig XX H Z C A).
Proof.
have e : gauss_latent_step fl eig (oC XX) (oH H) (oZ Z) (oCb C) (oA A) = omap oZ (gauss_latent_step fl eig XX H Z C A).
  rewrite /gauss_latent_step [in LHS]recon_lat_order.
  exact: (update2_order id Z (rpsd_unit_order (recon_lat Z C A) H) (fun n k => gl_num_order XX H Z C A n k) (fun n k => gl_den_order H Z C A n k)).
rewrite /gauss_latent e; case: (gauss_latent_step _ _ _ _ _ _ _) => [Z1|]; last by [].
exact: latent_normalise_order.
Qed.
Lemma gauss_pnorm_order H : gauss_pnorm (oH H) = omap (@oH _) (gauss_pnorm H).
Proof. by rewrite /gauss_pnorm (all_ni (fun n i => re (\tr (H n i)) != 0)); case: [forall n, _]. Qed.
Definition opgauss (s : pgauss N M F T K) : pgauss N M F T K :=
  PGauss (oH (pg_H s)) (oZ (pg_Z s)) (oCb (pg_C s)) (oA (pg_A s)).
Lemma pmnmf_step_order nrm XX s : pmnmf_step fl eig chol nrm (oC XX) (opgauss s) = omap opgauss (pmnmf_step fl eig chol nrm XX s).
Proof.
case: s => H Z C A; rewrite /opgauss /pmnmf_step [pg_H _]/= [pg_Z _]/= [pg_C _]/= [pg_A _]/=.
rewrite gauss_pbasis_order; case: (gauss_pbasis _ _ _ _ _ _ _) => [C1|]; last by [].
rewrite [omap oCb _]/=; cbv iota; rewrite gauss_pactivation_order; case: (gauss_pactivation _ _ _ _ _ _ _) => [A1|]; last by [].
rewrite [omap oA _]/=; cbv iota; rewrite recon_lat_order gauss_spatial_order; case: (gauss_spatial _ _ _ _ _ _) => [H1|]; last by [].
rewrite [omap (@oH _) _]/=; cbv iota.
have -> : (if nrm then gauss_pnorm (oH H1) else Some (oH H1)) = omap (@oH _) (if nrm then gauss_pnorm H1 else Some H1).
  by case: nrm; [exact: gauss_pnorm_order | by []].
case: (if nrm then _ else _) => [H2|]; last by [].
by rewrite [omap (@oH _) _]/=; cbv iota; rewrite gauss_latent_order; case: (gauss_latent _ _ _ _ _ _ _).
Qed.
(** C89: GaussMNMF with [partitioning=True] *)
Theorem C89_partitioned_run nrm X k s : pmnmf_run fl eig chol nrm (oX X) k (opgauss s) =
  omap (fun o => (opgauss o.1, o.2)) (pmnmf_run fl eig chol nrm X k s).
Proof.
rewrite /pmnmf_run inst_cov_order; apply: recorded_map => s1; first exact: pmnmf_step_order.
by rewrite /pmnmf_loss [pg_H _]/= [pg_Z _]/= [pg_C _]/= [pg_A _]/= recon_lat_order gauss_loss_order.
Qed.
Lemma pmnmf_separate_order X r s : pmnmf_separate fl eig (oX X) r (opgauss s) = omap (@oL Cx) (pmnmf_separate fl eig X r s).
Proof. by rewrite /pmnmf_separate [pg_H _]/= [pg_Z _]/= [pg_C _]/= [pg_A _]/= recon_lat_order gauss_separate_order. Qed.
Theorem C89_partitioned nrm X r k s : pmnmf_call fl eig chol nrm (oX X) r k (opgauss s) =
  omap (fun o => (oL o.1, o.2)) (pmnmf_call fl eig chol nrm X r k s).
Proof.
rewrite /pmnmf_call pmnmf_separate_order; case: (pmnmf_separate fl eig X r s) => [Y0|]; last by [].
rewrite [omap _ (Some Y0)]/=; cbv iota; rewrite C89_partitioned_run; case: (pmnmf_run _ _ _ _ _ _ _) => [[s1 ls]|]; last by [].
by rewrite [omap _ (Some (s1, ls))]/=; cbv iota; rewrite pmnmf_separate_order; case: (pmnmf_separate _ _ _ _ s1).
Qed.
End Partitioned.
End Gauss.
End Order.

(** the calls of C84's and C86's examples, with sources, bins, frames and bases swapped *)
Example C89_instance a nrm r k : distinct_f a -> exists eig chol Y ls,
  let w := tperm 0 1 in
  [/\ eigh_contract eig /\ chol_contract chol, fast_call identity_fl eig chol a nrm iXs r k i_fast = Some (Y, ls),
      fast_call identity_fl eig chol a nrm (oX w w iXs) r k (ofast w w w (fun n => if n == 0 then w else 1%g) i_fast) = Some (oL w w w Y, ls) &
      non_increasing ls].
Proof.
move=> ds; have [eig [chol [Y [ls [hc e _ [_ ni]]]]]] := C84_instance nrm r k ds.
by exists eig, chol, Y, ls => w; split=> //; rewrite C89_fast e.
Qed.
Example C89_instance_gauss nrm (r : 'I_2) : exists eig chol Y ls (s : gauss_state 2 2 1 2 1),
  let w := tperm 0 1 in
  [/\ eigh_contract eig /\ chol_strict chol, mnmf_call identity_fl eig chol nrm eX r 1 s = Some (Y, ls) &
      mnmf_call identity_fl eig chol nrm (oX 1%g w eX) r 1 (ogauss w 1%g w (fun _ => 1%g) s) = Some (oL w 1%g w Y, ls)].
Proof.
have [eig [chol [Y [ls [s [hc _ _ e _]]]]]] := C86_instance nrm r.
by exists eig, chol, Y, ls, s => w; split=> //; rewrite C89_gauss e.
Qed.
