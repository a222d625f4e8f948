(** C95: complete calls of GaussIPSDTA and TIPSDTA. *)
From Coq Require Import Reals Lra FunctionalExtensionality.
From mathcomp Require Import all_ssreflect all_algebra all_fingroup.
From mathcomp Require Import ring.
From Verif Require Import RStruct MxC CxR NpLin RealLemmas NmfMM Eigh EighProofs SpatialISS Scale AuxIVA AuxIVAProofs AuxIVARun AuxIVACall Mnmf Vcd Ipsdta IpsdtaRun.
From Verif Require Import ProxProofs Prop_Linalg Prop_Mnmf Prop_Bins Prop_ProxRun Prop_GradRun Prop_Ipsdta.
Import Order.TTheory GRing.Theory Num.Theory.
Set Implicit Arguments.
Unset Strict Implicit.
Unset Printing Implicit Defensive.
Local Open Scope ring_scope.

(** coordinate descent in another basis of the recording *)
Section VcdMix.
Variables (N D : nat) (A : 'I_D -> 'M[Cx]_N) (sing : Cx -> bool).
Hypothesis uA : forall i, A i \in unitmx.
Definition mixW (W : vfilter N D) : vfilter N D := fun i => W i *m invmx (A i).
Definition mixC (C : vcov N D) : vcov N D := fun i j n => A i *m C i j n *m (A j)^H.
Lemma uAH i : (A i)^H \in unitmx.
Proof. by rewrite ctr_unit. Qed.
Lemma solve_mix (P L M : 'M[Cx]_N) (g : 'cV[Cx]_N) : L \in unitmx -> M \in unitmx ->
  solve (L *m P *m M) (L *m g) = omap (fun x => invmx M *m x) (solve P g).
Proof.
move=> uL uM; rewrite /solve !unitmx_mul uL uM andbT /=; case hP: (P \in unitmx); last by [].
apply: (f_equal (fun q => Some q)).
by rewrite !invmx_mul ?unitmx_mul ?uL ?hP // -!mulmxA mulKmx.
Qed.
Lemma quad_mix i (U : 'M[Cx]_N) (x y : 'cV[Cx]_N) :
  (invmx (A i)^H *m x)^H *m (A i *m U *m (A i)^H) *m (invmx (A i)^H *m y) = x^H *m U *m y.
Proof.
rewrite ctrM ctr_inv ctrK !mulmxA mulmxKV // -!mulmxA; congr (_ *m (_ *m _)).
by rewrite mulKVmx // uAH.
Qed.
Lemma vcd_step_mix C W i n : vcd_step sing (mixC C) (mixW W) i n = omap mixW (vcd_step sing C W i n).
Proof.
rewrite /vcd_step.
have -> : \sum_j (1 - (i == j)%:R) *: (mixC C i j n *m (row n (mixW W j))^H) =
  A i *m (\sum_j (1 - (i == j)%:R) *: (C i j n *m (row n (W j))^H)).
  rewrite mulmx_sumr; apply: eq_bigr => j _; rewrite /mixC /mixW row_mul ctrM ctr_inv -scalemxAr; congr (_ *: _).
  by rewrite -!mulmxA; congr (_ *m (_ *m _)); rewrite mulKVmx // uAH.
set g := \sum_j _.
have -> : mixW W i *m mixC C i i n = 1%:M *m (W i *m C i i n) *m (A i)^H.
  by rewrite /mixW /mixC !mulmxA mulmxKV // mul1mx.
rewrite -{1}(mul1mx (delta_mx n 0 : 'cV[Cx]_N)) solve_mix ?unitmx1 ?uAH //.
rewrite [mixC C i i n]/mixC solve_mix ?uAH //.
case: (solve (W i *m C i i n) _) => [eta|]; last by [].
case: (solve (C i i n) g) => [etah|]; last by [].
cbn [omap obind oapp]; cbv iota; rewrite !quad_mix.
case: (vcd_coeff _ _ _) => [a|]; last by [].
apply: (f_equal (fun q => Some q)); apply: functional_extensionality => j.
rewrite /mixW /set_filter; case: eqP => [->|//].
rewrite scalemxAr -mulmxBr ctrM ctr_inv ctrK.
apply/row_matrixP => m; rewrite row_mul; apply/rowP => q.
rewrite [LHS]mxE [LHS]mxE; have [->|hm] := eqVneq m n.
  by rewrite /setrow; congr ((_ *m _) _ _); apply/rowP => z; rewrite !mxE eqxx.
rewrite [LHS]mxE [RHS]mxE; apply: eq_bigr => z _; rewrite !mxE (negbTE hm); done.
Qed.
Lemma vcd_mix C W : vcd sing (mixC C) (mixW W) = omap mixW (vcd sing C W).
Proof.
rewrite /vcd; have -> : Some (mixW W) = omap mixW (Some W) by [].
elim: (enum 'I_D) (Some W) => //= i s IH o; rewrite -IH; congr (foldl _ _ _).
elim: (enum 'I_N) o => //= n r IH' o; rewrite -IH'; congr (foldl _ _ _).
by case: o => //= V; exact: vcd_step_mix.
Qed.
End VcdMix.

Section Order.
Variables (N T K B : nat) (d : 'I_B -> nat) (hi : 'I_B -> bool).
Variables (eig : eigh_t) (chol : chol_t) (fl0 fl : R -> R) (nu : R).
Notation spec := (forall b, 'I_(d b) -> 'M[Cx]_(N, T)).
Notation filt := (forall b, 'I_(d b) -> 'M[Cx]_N).
Notation basis := ('I_N -> 'I_K -> forall b, 'M[Cx]_(d b)).
Notation activ := ('I_N -> 'I_K -> 'I_T -> R).
Notation covs := ('I_N -> 'I_T -> forall b, 'M[Cx]_(d b)).
Notation state := (state N T K d).
Implicit Types (X : spec) (W : filt) (Tb : basis) (V : activ) (Rs M : covs) (s : state).
(** [pj]: order of the frames; [pk n]: order of the bases of source [n]; [A]: mixing matrix of
    every bin *)
Variables (pj : {perm 'I_T}) (pk : 'I_N -> {perm 'I_K}) (A : filt).
Arguments A : clear implicits.
Hypothesis uA : forall b i, A b i \in unitmx.
Definition qX X : spec := fun b i => A b i *m \matrix_(m, t) X b i m (pj t).
Definition qW W : filt := fun b i => W b i *m invmx (A b i).
Definition qT Tb : basis := fun n k b => Tb n (pk n k) b.
Definition qV V : activ := fun n k t => V n (pk n k) (pj t).
Definition qR M : covs := fun n t b => M n (pj t) b.
Definition qs s : state := State (qW (st_W s)) (qT (st_T s)) (qV (st_V s)).
(** separated signals: only the frames are reordered *)
Definition qY X : spec := fun b i => \matrix_(m, t) X b i m (pj t).
Arguments qX X b i : clear implicits.
Arguments qW W b i : clear implicits.
Arguments qY X b i : clear implicits.

Lemma sepm X W b i : qW W b i *m qX X b i = \matrix_(m, t) (W b i *m X b i) m (pj t).
Proof.
rewrite /qW /qX mulmxA mulmxKV //; apply/matrixP => m t; rewrite !mxE.
by apply: eq_bigr => j _; rewrite mxE.
Qed.
Lemma ysep_q X W n t b : ysep (qX X) (qW W) n t b = ysep X W n (pj t) b.
Proof. by apply/colP => i; rewrite [LHS]mxE sepm !mxE. Qed.
Lemma rsum_q Tb V : rsum (qT Tb) (qV V) = qR (rsum Tb V).
Proof.
apply: functional_extensionality => n; apply: functional_extensionality => t; apply: functional_extensionality_dep => b.
by rewrite /rsum /qR -[RHS](sum_bins (pk n)).
Qed.
Lemma recon_q Tb V : recon_psdtf eig fl0 (qT Tb) (qV V) = qR (recon_psdtf eig fl0 Tb V).
Proof. by rewrite /recon_psdtf rsum_q. Qed.
Lemma all_nt (P : 'I_N -> 'I_T -> bool) : [forall n, [forall t, P n (pj t)]] = [forall n, [forall t, P n t]].
Proof. by apply: eq_forallb => n; exact: (forall_bins pj (P n)). Qed.
Lemma all_nk (P : 'I_N -> 'I_K -> bool) : [forall n, [forall k, P n (pk n k)]] = [forall n, [forall k, P n k]].
Proof. by apply: eq_forallb => n; exact: (forall_bins (pk n) (P n)). Qed.
Lemma covs_unit_q Rs : covs_unit (qR Rs) = covs_unit Rs.
Proof. by rewrite /covs_unit /all_ntb (all_nt (fun n t => [forall b, Rs n t b \in unitmx])). Qed.
Lemma ryyr_q X W Rs : ryyr (qX X) (qW W) (qR Rs) = qR (ryyr X W Rs).
Proof.
apply: functional_extensionality => n; apply: functional_extensionality => t; apply: functional_extensionality_dep => b.
by rewrite /ryyr ysep_q.
Qed.
Lemma meanM_q m1 m2 (f : 'I_T -> 'M[Cx]_(m1, m2)) : meanM (fun t => f (pj t)) = meanM f.
Proof. by rewrite /meanM (sum_bins pj f). Qed.
Lemma bas_P_q V Rs n k b : bas_P (qV V) (qR Rs) n k b = bas_P V Rs n (pk n k) b.
Proof. exact: (meanM_q (fun t => c (V n (pk n k) t) *: invmx (Rs n t b))). Qed.
Lemma bas_Q_q V M n k b : bas_Q (qV V) (qR M) n k b = bas_Q V M n (pk n k) b.
Proof. exact: (meanM_q (fun t => c (V n (pk n k) t) *: M n t b)). Qed.
Lemma all_basis_q (f f' : 'I_N -> 'I_K -> forall b, option 'M[Cx]_(d b)) :
  (forall n k b, f' n k b = f n (pk n k) b) -> all_basis f' = omap qT (all_basis f).
Proof.
move=> h; rewrite /all_basis.
have -> : [forall n, [forall k, [forall b, isSome (f' n k b)]]] = [forall n, [forall k, [forall b, isSome (f n k b)]]].
  rewrite -(all_nk (fun n k => [forall b, isSome (f n k b)])).
  by apply: eq_forallb => n; apply: eq_forallb => k; apply: eq_forallb => b; rewrite h.
case: [forall n, _]; last by [].
apply: (f_equal (fun q => Some q)).
apply: functional_extensionality => n; apply: functional_extensionality => k; apply: functional_extensionality_dep => b.
by rewrite h.
Qed.
Lemma act_num_q Tb M n k t : act_num (qT Tb) (qR M) n k t = act_num Tb M n (pk n k) (pj t).
Proof. by []. Qed.
Lemma act_den_q Tb M n k t : act_den (qT Tb) (qR M) n k t = act_den Tb M n (pk n k) (pj t).
Proof. by []. Qed.
Lemma all_nkt (P P' : 'I_N -> 'I_K -> 'I_T -> bool) : (forall n k t, P' n k t = P n (pk n k) (pj t)) ->
  [forall n, [forall k, [forall t, P' n k t]]] = [forall n, [forall k, [forall t, P n k t]]].
Proof.
move=> h; rewrite -(all_nk (fun n k => [forall t, P n k t])).
apply: eq_forallb => n; apply: eq_forallb => k; rewrite -(forall_bins pj (P n (pk n k))).
by apply: eq_forallb => t.
Qed.
Lemma act_gen (num num' den den' : 'I_N -> 'I_K -> 'I_T -> R) V :
  (forall n k t, num' n k t = num n (pk n k) (pj t)) -> (forall n k t, den' n k t = den n (pk n k) (pj t)) ->
  (if [forall n, [forall k, [forall t, ratio_ok (num' n k t) (den' n k t)]]] then
     Some (fun n k t => qV V n k t * R_sqrt.sqrt (num' n k t / den' n k t)) else None) =
  omap qV (if [forall n, [forall k, [forall t, ratio_ok (num n k t) (den n k t)]]] then
     Some (fun n k t => V n k t * R_sqrt.sqrt (num n k t / den n k t)) else None).
Proof.
move=> hn hd.
have -> : [forall n, [forall k, [forall t, ratio_ok (num' n k t) (den' n k t)]]] =
  [forall n, [forall k, [forall t, ratio_ok (num n k t) (den n k t)]]].
  by apply: all_nkt => n k t; rewrite hn hd.
case: [forall n, _]; last by [].
apply: (f_equal (fun q => Some q)); do 3 (apply: functional_extensionality => ?).
by rewrite hn hd.
Qed.
Lemma act_new_q Tb V M Rs : act_new (qT Tb) (qV V) (qR M) (qR Rs) = omap qV (act_new Tb V M Rs).
Proof. exact: (act_gen V (act_num_q Tb M) (act_den_q Tb Rs)). Qed.
Lemma psdtf_norm_q Tb V : psdtf_norm (qT Tb) (qV V) = omap (fun p => (qT p.1, qV p.2)) (psdtf_norm Tb V).
Proof.
rewrite /psdtf_norm (all_nk (fun n k => bas_trace Tb n k != 0)).
by case: [forall n, _].
Qed.
Lemma vcd_cov_q Pi X b : vcd_cov (qR Pi) (qX X) b = mixC (A b) (vcd_cov Pi X b).
Proof.
do 3 (apply: functional_extensionality => ?); rewrite /vcd_cov /mixC /meanM -scalemxAr -scalemxAl; congr (_ *: _).
rewrite mulmx_sumr mulmx_suml -[RHS](sum_bins pj); apply: eq_bigr => t _.
rewrite -scalemxAr -scalemxAl; congr (_ *: _).
have colE i : col t (qX X b i) = A b i *m col (pj t) (X b i).
  by apply/colP => m; rewrite !mxE; apply: eq_bigr => j _; rewrite !mxE.
by rewrite !colE ctrM !mulmxA.
Qed.
Lemma all_blocks_q W (f f' : forall b, option (vfilter N (d b))) :
  (forall b, f' b = omap (mixW (A b)) (f b)) -> all_blocks (qW W) f' = omap qW (all_blocks W f).
Proof.
move=> h; rewrite /all_blocks (eq_forallb (P2 := fun b => isSome (f b))); last by move=> b; rewrite h; case: (f b).
case hf: [forall b, _]; last by [].
apply: (f_equal (fun q => Some q)); apply: functional_extensionality_dep => b.
rewrite h /qW /=; have := forallP hf b; by case: (f b).
Qed.
Lemma quad_q X W Rs n t b : quad_yry (qX X) (qW W) (qR Rs) n t b = quad_yry X W Rs n (pj t) b.
Proof. by rewrite /quad_yry ysep_q. Qed.
Lemma logdets_q W : logdets_ok (qW W) = logdets_ok W.
Proof.
apply: eq_forallb => b; apply: eq_forallb => i.
by rewrite /qW unitmx_mul unitmx_inv uA andbT.
Qed.
Lemma lndet_q W b i : logdets_ok W ->
  ln (cabs (\det (qW W b i))) = (ln (cabs (\det (W b i))) - ln (cabs (\det (A b i))))%R.
Proof.
move/forallP/(_ b)/forallP/(_ i) => uW.
have zW : \det (W b i) != 0 by rewrite -unitfE -unitmxE.
have zA : \det (A b i) != 0 by rewrite -unitfE -unitmxE.
rewrite /qW det_mulmx det_inv cabsM cabsV -RinvE; last by apply: Rgt_not_eq; exact: cabs_gt0.
toR; rewrite ln_mult; [rewrite ln_Rinv; [by []|]|..]; try exact: cabs_gt0.
by apply: Rinv_0_lt_compat; exact: cabs_gt0.
Qed.
Lemma two : 2%coqR = 2%:R :> R. Proof. by rewrite -RnatE /=; lra. Qed.
(** all losses move by [2 sum_i log |det A_i|] *)
Definition mix_shift : R := (2 * (\sum_b \sum_i ln (cabs (\det (A b i))))%R)%coqR.
Lemma logdet_q W (P : pred 'I_B) : logdets_ok W ->
  (\sum_(b | P b) \sum_i ln (cabs (\det (qW W b i))))%R =
  (\sum_(b | P b) \sum_i ln (cabs (\det (W b i))))%R - (\sum_(b | P b) \sum_i ln (cabs (\det (A b i))))%R.
Proof.
move=> h; rewrite -sumrB; apply: eq_bigr => b _; rewrite -sumrB; apply: eq_bigr => i _; exact: lndet_q.
Qed.
Lemma gauss_loss_q X s : gauss_loss hi eig fl0 (qX X) (qs s) = omap (fun x => x + mix_shift) (gauss_loss hi eig fl0 X s).
Proof.
rewrite /gauss_loss [st_T (qs s)]/= [st_V (qs s)]/= [st_W (qs s)]/= recon_q covs_unit_q logdets_q.
case: (T != 0%N); last by []. case: (covs_unit _); last by []. case hl: (logdets_ok (st_W s)); last by [].
apply: (f_equal (fun q => Some q)).
set Rs := recon_psdtf _ _ _ _.
have E h : gauss_loss_part hi (qX X) (qW (st_W s)) (qR Rs) h =
  (gauss_loss_part hi X (st_W s) Rs h + 2 * \sum_(b | hi b == h) \sum_i ln (cabs (\det (A b i))))%R.
  rewrite /gauss_loss_part logdet_q //.
  set m := meanR _; set m' := meanR _.
  have -> : m = m'.
    rewrite /m /m' -[RHS](meanR_bins pj); apply: f_equal; apply: functional_extensionality => t.
    congr (Rmax (re _) 0 + _)%R; by apply: eq_bigr => n _; apply: eq_bigr => b _; rewrite quad_q.
  by rewrite mulrBr opprB addrA addrAC.
rewrite !E /mix_shift RmulE.
have S (g : 'I_B -> R) : \sum_b g b = \sum_(b | hi b == false) g b + \sum_(b | hi b == true) g b.
  by rewrite (bigID (fun b => hi b == false)) /=; congr (_ + _); apply: eq_bigl => b; case: (hi b).
rewrite (S (fun b => \sum_i ln (cabs (\det (A b i))))) two; move: (gauss_loss_part _ _ _ _ _) (gauss_loss_part _ _ _ _ _) => p q.
move: (\sum_(_ | _) _) (\sum_(_ | _) _) => u v; by rewrite mulrDr addrACA.
Qed.
Lemma t_yry_q X W Rs n t : t_yry (qX X) (qW W) (qR Rs) n t = t_yry X W Rs n (pj t).
Proof. by apply: eq_bigr => b _; rewrite quad_q. Qed.
Lemma t_pi_q X W Rs n t : t_pi nu (qX X) (qW W) (qR Rs) n t = t_pi nu X W Rs n (pj t).
Proof. by rewrite /t_pi t_yry_q. Qed.
Lemma t_pi_ok_q X W Rs : t_pi_ok nu (qX X) (qW W) (qR Rs) = t_pi_ok nu X W Rs.
Proof.
rewrite /t_pi_ok -(all_nt (fun n t => (nu + 2 * t_yry X W Rs n t)%coqR != 0)).
by apply: eq_forallb => n; apply: eq_forallb => t; rewrite t_yry_q.
Qed.
Lemma t_ryyr_q X W Rs : t_ryyr nu (qX X) (qW W) (qR Rs) = qR (t_ryyr nu X W Rs).
Proof.
apply: functional_extensionality => n; apply: functional_extensionality => t; apply: functional_extensionality_dep => b.
by rewrite /t_ryyr t_pi_q ryyr_q.
Qed.
Lemma t_loss_q X s : t_loss eig fl0 nu (qX X) (qs s) = omap (fun x => x + mix_shift) (t_loss eig fl0 nu X s).
Proof.
rewrite /t_loss [st_T (qs s)]/= [st_V (qs s)]/= [st_W (qs s)]/= recon_q covs_unit_q logdets_q.
set Rs := recon_psdtf _ _ _ _.
have -> : [forall n, [forall t, Rltb 0 (1 + 2 / nu * t_yry (qX X) (qW (st_W s)) (qR Rs) n t)%coqR]] =
  [forall n, [forall t, Rltb 0 (1 + 2 / nu * t_yry X (st_W s) Rs n t)%coqR]].
  rewrite -(all_nt (fun n t => Rltb 0 (1 + 2 / nu * t_yry X (st_W s) Rs n t)%coqR)).
  by apply: eq_forallb => n; apply: eq_forallb => t; rewrite t_yry_q.
case: (T != 0%N); last by []. case: (covs_unit _); last by []. case hl: (logdets_ok (st_W s)); last by [].
case: (_ && _); last by [].
apply: (f_equal (fun q => Some q)).
have e := logdet_q predT hl; rewrite e.
set m := meanR _; set m' := meanR _.
have -> : m = m'.
  rewrite /m /m' -[RHS](meanR_bins pj); apply: f_equal; apply: functional_extensionality => t.
  by congr (_ + _)%R; apply: eq_bigr => n _; rewrite t_yry_q.
by rewrite /mix_shift RmulE two mulrBr opprB addrA addrAC.
Qed.

(** one iteration *)
Lemma gauss_basis_q X W Tb V : gauss_basis eig chol fl0 fl (qX X) (qW W) (qT Tb) (qV V) = omap qT (gauss_basis eig chol fl0 fl X W Tb V).
Proof.
rewrite /gauss_basis recon_q covs_unit_q; case: (_ && _); last by [].
apply: all_basis_q => n k b.
by rewrite /gauss_basis_at recon_q bas_P_q ryyr_q bas_Q_q.
Qed.
Lemma gauss_activation_q X W Tb V : gauss_activation eig fl0 (qX X) (qW W) (qT Tb) (qV V) = omap qV (gauss_activation eig fl0 X W Tb V).
Proof.
rewrite /gauss_activation recon_q covs_unit_q; case: (covs_unit _); last by [].
by rewrite ryyr_q act_new_q.
Qed.
Lemma t_basis_q X W Tb V : t_basis eig fl0 fl nu (qX X) (qW W) (qT Tb) (qV V) = omap qT (t_basis eig fl0 fl nu X W Tb V).
Proof.
rewrite /t_basis recon_q covs_unit_q t_pi_ok_q; case: (_ && _); last by [].
apply: all_basis_q => n k b.
by rewrite /t_basis_at recon_q bas_P_q t_ryyr_q bas_Q_q.
Qed.
Lemma t_activation_q X W Tb V : t_activation eig fl0 nu (qX X) (qW W) (qT Tb) (qV V) = omap qV (t_activation eig fl0 nu X W Tb V).
Proof.
rewrite /t_activation recon_q covs_unit_q t_pi_ok_q; case: (_ && _); last by [].
by rewrite t_ryyr_q act_new_q.
Qed.
Definition qTV (p : basis * activ) := (qT p.1, qV p.2).
Lemma gauss_source_q nrm X W Tb V : gauss_source eig chol fl0 fl nrm (qX X) (qW W) (qT Tb) (qV V) =
  omap qTV (gauss_source eig chol fl0 fl nrm X W Tb V).
Proof.
rewrite /gauss_source gauss_basis_q; case: (gauss_basis _ _ _ _ _ _ _ _) => [T1|]; last by [].
cbn [omap obind oapp]; cbv iota; rewrite gauss_activation_q; case: (gauss_activation _ _ _ _ _ _) => [V1|]; last by [].
cbn [omap obind oapp]; cbv iota; case: nrm; last by [].
exact: psdtf_norm_q.
Qed.
Lemma t_source_q nrm X W Tb V : t_source eig fl0 fl nu nrm (qX X) (qW W) (qT Tb) (qV V) =
  omap qTV (t_source eig fl0 fl nu nrm X W Tb V).
Proof.
rewrite /t_source t_basis_q; case: (t_basis _ _ _ _ _ _ _ _) => [T1|]; last by [].
cbn [omap obind oapp]; cbv iota; rewrite t_activation_q; case: (t_activation _ _ _ _ _ _ _) => [V1|]; last by [].
cbn [omap obind oapp]; cbv iota; case: nrm; last by [].
exact: psdtf_norm_q.
Qed.
Lemma gauss_vcd_q X W Tb V : gauss_vcd eig fl0 fl (qX X) (qW W) (qT Tb) (qV V) = omap qW (gauss_vcd eig fl0 fl X W Tb V).
Proof.
rewrite /gauss_vcd recon_q covs_unit_q; case: (_ && _); last by [].
apply: all_blocks_q => b.
by rewrite -(vcd_mix _ (@uA b)) -vcd_cov_q.
Qed.
Lemma vcd_q Pi Pi' X W b : Pi' = qR Pi ->
  vcd (sing_floor fl) (vcd_cov Pi' (qX X) b) (qW W b) = omap (mixW (A b)) (vcd (sing_floor fl) (vcd_cov Pi X b) (W b)).
Proof. by move=> ->; rewrite -(vcd_mix _ (@uA b)) -vcd_cov_q. Qed.
Lemma t_weight_q X W Rs :
  (fun n t b => c (t_pi nu (qX X) (qW W) (qR Rs) n t) *: invmx (qR Rs n t b)) =
  qR (fun n t b => c (t_pi nu X W Rs n t) *: invmx (Rs n t b)).
Proof.
apply: functional_extensionality => n; apply: functional_extensionality => t; apply: functional_extensionality_dep => b'.
by rewrite t_pi_q.
Qed.
Lemma t_vcd_q X W Tb V : t_vcd eig fl0 fl nu (qX X) (qW W) (qT Tb) (qV V) = omap qW (t_vcd eig fl0 fl nu X W Tb V).
Proof.
rewrite /t_vcd recon_q covs_unit_q t_pi_ok_q; case: (_ && _); last by [].
apply: all_blocks_q => b; apply: vcd_q; exact: t_weight_q.
Qed.
Lemma gauss_once_q nrm X s : gauss_once eig chol fl0 fl nrm (qX X) (qs s) = omap qs (gauss_once eig chol fl0 fl nrm X s).
Proof.
rewrite /gauss_once [st_T (qs s)]/= [st_V (qs s)]/= [st_W (qs s)]/= gauss_source_q.
case: (gauss_source _ _ _ _ _ _ _ _ _) => [[T1 V1]|]; last by [].
cbn [omap obind oapp qTV fst snd]; cbv iota; rewrite gauss_vcd_q.
by case: (gauss_vcd _ _ _ _ _ _ _).
Qed.
Lemma t_once_q nrm X s : t_once eig fl0 fl nu nrm (qX X) (qs s) = omap qs (t_once eig fl0 fl nu nrm X s).
Proof.
rewrite /t_once [st_T (qs s)]/= [st_V (qs s)]/= [st_W (qs s)]/= t_source_q.
case: (t_source _ _ _ _ _ _ _ _ _) => [[T1 V1]|]; last by [].
cbn [omap obind oapp qTV fst snd]; cbv iota; rewrite t_vcd_q.
by case: (t_vcd _ _ _ _ _ _ _ _).
Qed.

Lemma init_q nrm s : psdta_init nrm (qs s) = omap qs (psdta_init nrm s).
Proof.
rewrite /psdta_init; case: nrm; last by [].
rewrite [st_T (qs s)]/= [st_V (qs s)]/= psdtf_norm_q; by case: (psdtf_norm _ _).
Qed.
(** the reference channels of the two recordings: channel [a] of the mixed recording is channel
    [a'] of the original up to the factor [e] in every bin; without rescaling the factor is 1 *)
Definition same_reference (r r' : option 'I_N) (e : forall b, 'I_(d b) -> Cx) : Prop :=
  match r, r' with
  | Some a, Some a' => forall b i, row a (A b i) = e b i *: delta_mx 0 a'
  | None, None => forall b i, e b i = 1
  | _, _ => False
  end.
Lemma output_q (r r' : option 'I_N) (e : forall b, 'I_(d b) -> Cx) X W : same_reference r r' e ->
  psdta_output r (qX X) (qW W) = omap (fun Y b i => e b i *: qY Y b i) (psdta_output r' X W).
Proof.
case: r r' => [a|] [a'|] //= he; last first.
  apply: (f_equal (fun q => Some q)); apply: functional_extensionality_dep => b; apply: functional_extensionality => i.
  by rewrite sepm he scale1r.
have E b : restore_f (qX X b) a (qW W b) = omap (fun (Y : 'I_(d b) -> 'M[Cx]_(N, T)) i => e b i *: \matrix_(m, t) Y i m (pj t)) (restore_f (X b) a' (W b)).
  have := restore_order 1%g 1%g pj (A := A b) (@uA b) (X b) (W b) (he b).
  have -> : rX 1 pj (A b) (X b) = qX X b.
    by apply: functional_extensionality => i; rewrite /rX /qX perm1.
  have -> : rW 1 1 (A b) (W b) = qW W b.
    by apply: functional_extensionality => i; rewrite /rW /qW perm1 row_perm1.
  move=> ->; case: (restore_f (X b) a' (W b)) => [Y|]; last by [].
  apply: (f_equal (fun q => Some q)); apply: functional_extensionality => i; rewrite /rY; congr (_ *: _).
  by apply/matrixP => m t; rewrite !mxE !perm1.
rewrite (eq_forallb (P2 := fun b => isSome (restore_f (X b) a' (W b)))); last by move=> b; rewrite E; case: (restore_f _ _ _).
case hf: [forall b, _]; last by [].
apply: (f_equal (fun q => Some q)); apply: functional_extensionality_dep => b; apply: functional_extensionality => i.
rewrite E /qY /=; have := forallP hf b; by case: (restore_f _ _ _).
Qed.
Definition moved_call (e : forall b, 'I_(d b) -> Cx) (o : spec * (basis * activ) * seq R) : spec * (basis * activ) * seq R :=
  (fun b i => e b i *: qY o.1.1 b i, qTV o.1.2, [seq x + mix_shift | x <- o.2]).
Lemma call_q once loss nrm (r r' : option 'I_N) (e : forall b, 'I_(d b) -> Cx) X k s :
  (forall s, once (qX X) (qs s) = omap qs (once X s)) ->
  (forall s, loss (qX X) (qs s) = omap (fun x => x + mix_shift) (loss X s)) -> same_reference r r' e ->
  psdta_call once loss nrm r (qX X) k (qs s) = omap (moved_call e) (psdta_call once loss nrm r' X k s).
Proof.
move=> ho hl he; rewrite /psdta_call init_q; case: (psdta_init nrm s) => [s0|]; last by [].
cbn [omap obind oapp]; cbv iota; rewrite (recorded_shift ho hl); case: (recorded _ _ _ _) => [[s1 ls]|]; last by [].
cbn [omap obind oapp fst snd]; cbv iota; rewrite [st_W (qs s1)]/= (output_q X (st_W s1) he).
by case: (psdta_output _ _ _).
Qed.
(** C95: a complete call on a recording that is mixed in every bin, with frames in another
    order, from filters, bases and activations in the same order *)
Theorem C95_gauss nrm (r r' : option 'I_N) (e : forall b, 'I_(d b) -> Cx) X k s : same_reference r r' e ->
  gauss_psdta_call hi eig chol fl0 fl nrm r (qX X) k (qs s) =
  omap (moved_call e) (gauss_psdta_call hi eig chol fl0 fl nrm r' X k s).
Proof. by move=> he; apply: call_q => // s0; [exact: gauss_once_q|exact: gauss_loss_q]. Qed.
Theorem C95_t nrm (r r' : option 'I_N) (e : forall b, 'I_(d b) -> Cx) X k s : same_reference r r' e ->
  t_psdta_call eig fl0 fl nu nrm r (qX X) k (qs s) =
  omap (moved_call e) (t_psdta_call eig fl0 fl nu nrm r' X k s).
Proof. by move=> he; apply: call_q => // s0; [exact: t_once_q|exact: t_loss_q]. Qed.
End Order.

(** C95: with [source_normalization] the scale of the given bases does not matter *)
Section Gauge.
Variables (N T K B : nat) (d : 'I_B -> nat) (hi : 'I_B -> bool).
Variables (eig : eigh_t) (chol : chol_t) (fl0 fl : R -> R) (nu : R).
Notation spec := (forall b, 'I_(d b) -> 'M[Cx]_(N, T)).
Notation state := (state N T K d).
Implicit Types (s : state) (g : 'I_N -> 'I_K -> R).
Definition rescale g s : state :=
  State (st_W s) (fun n k b => c (g n k) *: st_T s n k b) (fun n k t => st_V s n k t / g n k).
Lemma init_gauge g s : (forall n k, g n k != 0) -> psdta_init true (rescale g s) = psdta_init true s.
Proof.
move=> g0; rewrite /psdta_init /psdtf_norm.
have E n k : bas_trace (st_T (rescale g s)) n k = g n k * bas_trace (st_T s) n k.
  rewrite /bas_trace mulr_sumr; apply: eq_bigr => b _; rewrite /= mxtraceZ.
  exact: reMc.
have -> : [forall n, [forall k, bas_trace (st_T (rescale g s)) n k != 0]] = [forall n, [forall k, bas_trace (st_T s) n k != 0]].
  by apply: eq_forallb => n; apply: eq_forallb => k; rewrite E mulf_eq0 negb_or g0.
case: [forall n, _]; last by [].
apply: (f_equal (fun q => Some q)) => /=; congr (State _ _ _).
  apply: functional_extensionality => n; apply: functional_extensionality => k; apply: functional_extensionality_dep => b.
  have z : c (g n k) != 0 by apply: c_neq0; apply/eqP.
  by rewrite E cM invfM scalerA mulrAC mulVf // mul1r.
do 3 (apply: functional_extensionality => ?); by rewrite E mulrA divfK.
Qed.
Theorem C95_gauge g (r : option 'I_N) (X : spec) k s : (forall n k, g n k != 0) ->
  gauss_psdta_call hi eig chol fl0 fl true r X k (rescale g s) = gauss_psdta_call hi eig chol fl0 fl true r X k s /\
  t_psdta_call eig fl0 fl nu true r X k (rescale g s) = t_psdta_call eig fl0 fl nu true r X k s.
Proof. by move=> g0; rewrite /gauss_psdta_call /t_psdta_call /psdta_call init_gauge. Qed.
End Gauge.

(** C95: the routines behind [np.linalg.eigh] and [np.linalg.cholesky] do not matter *)
Section Routines.
Variables (eig1 eig2 : eigh_t) (chol1 chol2 : chol_t).
Hypotheses (E1 : eigh_contract eig1) (E2 : eigh_contract eig2) (H1 : chol_contract chol1) (H2 : chol_contract chol2).
Lemma to_psd_routines n (f : R -> R) (M : 'M[Cx]_n) : to_psd eig2 f M = to_psd eig1 f M.
Proof.
have [l [P [uP eP ->]]] := C25_spectrum f M E2; have [l' [P' [uP' eP' ->]]] := C25_spectrum f M E1.
by apply: spectral_fun => //; rewrite -eP -eP'.
Qed.
Lemma to_psd_pd n e (M : 'M[Cx]_n) : (0 < e)%coqR -> pd (to_psd eig1 (max_flooring e) M).
Proof.
move=> e0; apply: (above_pd e0); first exact: C25_hermitian.
by move=> x; exact: C25_lower_bound.
Qed.
Lemma gmeanmh_routines n (P Q : 'M[Cx]_n) : pd P -> pd Q -> gmeanmh eig2 chol2 P Q 2 = gmeanmh eig1 chol1 P Q 2.
Proof.
move=> pP pQ; have [G [-> pG eG u]] := C24_type2 E1 H1 pP pQ; have [G' [-> pG' eG' u']] := C24_type2 E2 H2 pP pQ.
by rewrite (u G').
Qed.
Lemma sqrtmh_routines n (Q : 'M[Cx]_n) : pd Q -> sqrtmh eig2 Q = sqrtmh eig1 Q.
Proof.
move=> pQ; have [S [e2 _ SS2]] := C23_sqrtmh E2 (pd_psd pQ); have [S1 [e1 _ SS1]] := C23_sqrtmh E1 (pd_psd pQ).
rewrite e1 e2; apply: (f_equal (fun q => Some q)).
have s1 := E1 (proj1 pQ); have s2 := E2 (proj1 pQ); have := eigh_recompose s1; have := eigh_recompose s2.
move: e1 e2; rewrite /sqrtmh; case: (eig1 Q) s1 => l P [/= u1 _ _]; case: (eig2 Q) s2 => l' P' [/= u2 _ _].
case: ifP => // _ [<-]; case: ifP => // _ [<-] r2 r1; apply: spectral_fun => //.
by rewrite -/(recompose l' P') -/(recompose l P) -r2 -r1.
Qed.
Lemma invsqrtmh_routines n e (Q : 'M[Cx]_n) : (0 < e)%coqR -> pd Q -> invsqrtmh eig2 (max_flooring e) Q = invsqrtmh eig1 (max_flooring e) Q.
Proof.
move=> e0 pQ; have [S [e2 _ _]] := C23_invsqrtmh_floored E2 (pd_psd pQ) e0; have [S1 [e1 _ _]] := C23_invsqrtmh_floored E1 (pd_psd pQ) e0.
rewrite e1 e2; apply: (f_equal (fun q => Some q)).
have s1 := E1 (proj1 pQ); have s2 := E2 (proj1 pQ); have := eigh_recompose s1; have := eigh_recompose s2.
move: e1 e2; rewrite /invsqrtmh; case: (eig1 Q) s1 => l P [/= u1 _ _]; case: (eig2 Q) s2 => l' P' [/= u2 _ _].
case: ifP => // _ [<-]; case: ifP => // _ [<-] r2 r1; apply: spectral_fun => //.
by rewrite -/(recompose l' P') -/(recompose l P) -r2 -r1.
Qed.
Variables (N T K B : nat) (d : 'I_B -> nat) (hi : 'I_B -> bool) (fl0 : R -> R) (e nu : R).
Hypothesis e0 : (0 < e)%coqR.
Notation fl := (max_flooring e).
Notation spec := (forall b, 'I_(d b) -> 'M[Cx]_(N, T)).
Notation filt := (forall b, 'I_(d b) -> 'M[Cx]_N).
Notation basis := ('I_N -> 'I_K -> forall b, 'M[Cx]_(d b)).
Notation activ := ('I_N -> 'I_K -> 'I_T -> R).
Notation state := (state N T K d).
Implicit Types (X : spec) (W : filt) (Tb : basis) (V : activ) (s : state).
Lemma recon_routines Tb V : recon_psdtf eig2 fl0 Tb V = recon_psdtf eig1 fl0 Tb V.
Proof.
apply: functional_extensionality => n; apply: functional_extensionality => t; apply: functional_extensionality_dep => b.
exact: to_psd_routines.
Qed.
Lemma all_basis_eq (f f' : 'I_N -> 'I_K -> forall b, option 'M[Cx]_(d b)) : (forall n k b, f' n k b = f n k b) -> all_basis f' = all_basis f.
Proof.
move=> h; congr all_basis; apply: functional_extensionality => n; apply: functional_extensionality => k.
exact: functional_extensionality_dep.
Qed.
Lemma gauss_basis_routines X W Tb V : gauss_basis eig2 chol2 fl0 fl X W Tb V = gauss_basis eig1 chol1 fl0 fl X W Tb V.
Proof.
rewrite /gauss_basis recon_routines; case: (_ && _); last by [].
apply: all_basis_eq => n k b; rewrite /gauss_basis_at recon_routines !to_psd_routines gmeanmh_routines; try exact: to_psd_pd.
by case: (gmeanmh _ _ _ _ _) => // G; rewrite to_psd_routines.
Qed.
Lemma t_basis_routines X W Tb V : t_basis eig2 fl0 fl nu X W Tb V = t_basis eig1 fl0 fl nu X W Tb V.
Proof.
rewrite /t_basis recon_routines; case: (_ && _); last by [].
apply: all_basis_eq => n k b; rewrite /t_basis_at recon_routines !to_psd_routines sqrtmh_routines; last exact: to_psd_pd.
case: (sqrtmh _ _) => // S; rewrite to_psd_routines invsqrtmh_routines //; last exact: to_psd_pd.
by case: (invsqrtmh _ _ _) => // S'; rewrite to_psd_routines.
Qed.
Lemma gauss_activation_routines X W Tb V : gauss_activation eig2 fl0 X W Tb V = gauss_activation eig1 fl0 X W Tb V.
Proof. by rewrite /gauss_activation recon_routines. Qed.
Lemma t_activation_routines X W Tb V : t_activation eig2 fl0 nu X W Tb V = t_activation eig1 fl0 nu X W Tb V.
Proof. by rewrite /t_activation recon_routines. Qed.
Lemma gauss_vcd_routines X W Tb V : gauss_vcd eig2 fl0 fl X W Tb V = gauss_vcd eig1 fl0 fl X W Tb V.
Proof. by rewrite /gauss_vcd recon_routines. Qed.
Lemma t_vcd_routines X W Tb V : t_vcd eig2 fl0 fl nu X W Tb V = t_vcd eig1 fl0 fl nu X W Tb V.
Proof. by rewrite /t_vcd recon_routines. Qed.
Lemma gauss_once_routines nrm X s : gauss_once eig2 chol2 fl0 fl nrm X s = gauss_once eig1 chol1 fl0 fl nrm X s.
Proof.
rewrite /gauss_once /gauss_source gauss_basis_routines.
case: (gauss_basis _ _ _ _ _ _ _ _) => [T1|]; last by [].
rewrite gauss_activation_routines; case: (gauss_activation _ _ _ _ _ _) => [V1|]; last by [].
case: (if nrm then _ else _) => [[T2 V2]|]; last by [].
by rewrite gauss_vcd_routines.
Qed.
Lemma t_once_routines nrm X s : t_once eig2 fl0 fl nu nrm X s = t_once eig1 fl0 fl nu nrm X s.
Proof.
rewrite /t_once /t_source t_basis_routines.
case: (t_basis _ _ _ _ _ _ _ _) => [T1|]; last by [].
rewrite t_activation_routines; case: (t_activation _ _ _ _ _ _ _) => [V1|]; last by [].
case: (if nrm then _ else _) => [[T2 V2]|]; last by [].
by rewrite t_vcd_routines.
Qed.
Lemma recorded_eq S (st st' : S -> option S) (l l' : S -> option R) k (s : S) : (forall s : S, st' s = st s) -> (forall s : S, l' s = l s) ->
  recorded st' l' k s = recorded st l k s.
Proof.
move=> hs hl; elim: k s => [|k IH] s /=; rewrite hl; case: (l s) => // x.
by rewrite hs; case: (st s) => // s1; rewrite IH.
Qed.
Lemma call_eq (once once' : spec -> state -> option state) (loss loss' : spec -> state -> option R) nrm (r : option 'I_N) X k s :
  (forall s, once' X s = once X s) -> (forall s, loss' X s = loss X s) ->
  psdta_call once' loss' nrm r X k s = psdta_call once loss nrm r X k s.
Proof.
move=> ho hl; rewrite /psdta_call; case: (psdta_init nrm s) => [s0|]; last by [].
by rewrite (recorded_eq k s0 ho hl).
Qed.
Theorem C95_routines nrm (r : option 'I_N) X k s :
  gauss_psdta_call hi eig2 chol2 fl0 fl nrm r X k s = gauss_psdta_call hi eig1 chol1 fl0 fl nrm r X k s /\
  t_psdta_call eig2 fl0 fl nu nrm r X k s = t_psdta_call eig1 fl0 fl nu nrm r X k s.
Proof.
split; apply: call_eq => s1.
- exact: gauss_once_routines.
- by rewrite /gauss_loss recon_routines.
- exact: t_once_routines.
- by rewrite /t_loss recon_routines.
Qed.
End Routines.

(** a concrete case: two channels swapped and doubled, frames swapped; the calls of one
    iteration are defined *)
Section Instance.
Notation swap := (tperm 0 1 : {perm 'I_2}).
Definition exA : forall b : 'I_1, 'I_(exD b) -> 'M[Cx]_2 := fun _ _ => 2%:R *: perm_mx swap.
Arguments exA : clear implicits.
Notation fl := (max_flooring (/ 10)%coqR).
Lemma exA_unit b i : exA b i \in unitmx.
Proof. by rewrite /exA unitmxZ ?unitmx_perm // unitfE pnatr_eq0. Qed.
Lemma exA_ref : same_reference exA (Some 0) (Some 1) (fun _ _ => 2%:R).
Proof. move=> b i; rewrite /exA linearZ /=; congr (_ *: _); by apply/rowP => j; rewrite !mxE tpermL eqxx eq_sym. Qed.
Example C95_instance : exists (eig : eigh_t) (chol : chol_t), [/\ eigh_contract eig, chol_contract chol,
  (forall b i, exA b i \in unitmx), same_reference exA (Some 0) (Some 1) (fun _ _ => 2%:R) &
  gauss_psdta_call (fun _ => false) eig chol fl fl false (Some 1) exX 1 exS <> None /\
  t_psdta_call eig fl fl 4 false (Some 1) exX 1 exS <> None].
Proof.
have [eig He] := eigh_contract_sat; have [chol Hc] := chol_contract_sat; exists eig, chol.
have out (s : state 2 2 2 exD) : valid s -> psdta_output (Some 1) exX (st_W s) <> None.
  move=> [_ u]; rewrite /psdta_output ifT //; apply/forallP => b; rewrite /restore_f /all_bins ifT //.
  by apply/forallP => i; rewrite /apply_pb /pb_filter /np_inv u.
split=> //; [exact: exA_unit|exact: exA_ref|split].
  have [s' [l [l' [e v [L L' _]]]]] := C71_once_instance He Hc false.
  rewrite /gauss_psdta_call /psdta_call /psdta_init /recorded L e L'.
  by case: (psdta_output _ _ _) (out _ v).
have [s' [l [l' [e v [L L' _]]]]] := C73_once_instance He false.
rewrite /t_psdta_call /psdta_call /psdta_init /recorded L e L'.
by case: (psdta_output _ _ _) (out _ v).
Qed.
(** the two recordings differ *)
Example C95_instance_moves : @qX 2 2 1 exD swap exA exX 0 0 0 0 <> @exX 0 0 0 0.
Proof.
rewrite /qX /exA -scalemxAl -row_permE !mxE !tpermL /= => /eqP; apply/negP.
by rewrite mulrN1 eq_sym -subr_eq0 opprK -[1 + _]/(3%:R) pnatr_eq0.
Qed.
End Instance.

Print Assumptions C95_gauss.
Print Assumptions C95_t.
Print Assumptions C95_gauge.
Print Assumptions C95_routines.
Print Assumptions C95_instance.
Print Assumptions C95_instance_moves.
