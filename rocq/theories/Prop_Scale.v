(** Properties C30-C36: projection back, minimal distortion principle, whitening
    and principal component analysis. *)
From Coq Require Import Reals Lra.
From mathcomp Require Import all_ssreflect all_algebra.
From mathcomp Require Import ring.
From Verif Require Import RStruct MxC CxR NpLin RealLemmas Eigh EighProofs Scale ScaleProofs.
Import Order.TTheory GRing.Theory Num.Theory.
Set Implicit Arguments.
Unset Strict Implicit.
Unset Printing Implicit Defensive.
Local Open Scope ring_scope.

(** ** C30 *)
Theorem C30_filter n (W : 'M[Cx]_n) (g : 'rV[Cx]_n) r : (forall i, g 0 i != 0) ->
  pb_filter (\matrix_(i, j) (g 0 i * W i j)) r = pb_filter W r.
Proof.
move=> h; rewrite -(pb_filter_scale W r h); congr pb_filter.
by apply/matrixP => i j; rewrite mul_diag_mx !mxE.
Qed.
Theorem C30_filter_all n (W : 'M[Cx]_n) (g : 'rV[Cx]_n) f f' : (forall i, g 0 i != 0) ->
  pb_filter_all W = Some f -> pb_filter_all (\matrix_(i, j) (g 0 i * W i j)) = Some f' ->
  forall r, f r = f' r.
Proof.
move=> h e e' r; have := C30_filter W r h; move: e e'; rewrite /pb_filter /pb_filter_all.
by case: np_inv => // ? [<-]; case: np_inv => // ? [<-] [->].
Qed.
Theorem C30_data n m T (Y : 'M[Cx]_(n, T)) (X : 'M[Cx]_(m, T)) (g : 'rV[Cx]_n) r :
  (forall i, g 0 i != 0) ->
  pb_data (\matrix_(i, j) (g 0 i * Y i j)) X r = pb_data Y X r.
Proof.
move=> h; have u := diag_unit h.
have -> : \matrix_(i, j) (g 0 i * Y i j) = diag_mx g *m Y.
  by apply/matrixP => i j; rewrite mul_diag_mx !mxE.
case uY : (Y *m Y^H \in unitmx); last first.
  apply/eqP; have -> : pb_data Y X r = None by apply/eqP; rewrite pb_dataN uY.
  by rewrite pb_dataN gram_unit // uY.
rewrite !pb_dataE ?gram_unit //; congr Some; rewrite pb_data_lin // diag_inv // mulmxA mulmx_diag.
congr (diag_mx _ *m _).
by apply/rowP => i; rewrite mxE [row _ _ _ _]mxE mul_mx_diag !mxE mulfVK.
Qed.

(** ** C31 *)
Theorem C31_sum n T (W W' : 'M[Cx]_n) r (X : 'M[Cx]_(n, T)) t :
  pb_filter W r = Some W' -> \sum_i (W' *m X) i t = X r t.
Proof.
rewrite /pb_filter /np_inv; case: ifP => // u [<-].
have -> : \sum_i (scale_rows (row r (invmx W)) W *m X) i t = (invmx W *m W *m X) r t.
  rewrite -mulmxA [in RHS]mxE; apply: eq_bigr => i _.
  by rewrite scale_rowsE -mulmxA mul_diag_mx !mxE.
by rewrite mulVmx // mul1mx.
Qed.
Theorem C31_mixing_row n (W W' : 'M[Cx]_n) r i : pb_filter W r = Some W' ->
  W' \in unitmx -> invmx W' r i = 1.
Proof.
move=> e u; have := C31_sum (invmx W') i e; rewrite mulmxV // => <-.
rewrite (bigD1 i) //= mxE eqxx big1 ?addr0 // => j ji; by rewrite mxE (negbTE ji).
Qed.
Theorem C31_idempotent n (W W' W'' : 'M[Cx]_n) r : pb_filter W r = Some W' ->
  pb_filter W' r = Some W'' -> W'' = W'.
Proof.
move=> e; case u : (W' \in unitmx); last first.
  by move=> e'; have := pb_filterN W' r; rewrite e' u.
rewrite pb_filterE // => -[<-].
have -> : row r (invmx W') = const_mx 1 by apply/rowP => i; rewrite !mxE; apply: C31_mixing_row e u.
by rewrite diag_const_mx mul1mx.
Qed.
(** the second application fails exactly when some source does not reach the reference channel *)
Theorem C31_second_defined n (W W' : 'M[Cx]_n) r : pb_filter W r = Some W' ->
  pb_filter W' r <> None <-> forall i, invmx W r i != 0.
Proof.
rewrite {1}/pb_filter /np_inv; case: ifP => // u [<-]; rewrite scale_rowsE.
have N M : pb_filter M r <> None <-> M \in unitmx.
  by split=> [/eqP|h]; [rewrite pb_filterN negbK|apply/eqP; rewrite pb_filterN h].
rewrite N unitmx_mul u andbT unitmxE det_diag unitfE; split.
  by move/prodf_neq0 => h i; have := h i isT; rewrite mxE.
by move=> h; apply/prodf_neq0 => i _; rewrite mxE.
Qed.

(** ** C32 *)
Theorem C32_agree n T (W : 'M[Cx]_n) (X : 'M[Cx]_(n, T)) r : W \in unitmx -> X *m X^H \in unitmx ->
  exists2 W', pb_filter W r = Some W' & pb_data (W *m X) X r = Some (W' *m X).
Proof.
move=> uW uX; exists (diag_mx (row r (invmx W)) *m W); first exact: pb_filterE.
rewrite pb_dataE ?gram_unit // pb_data_lin // mulmxV // mul1mx mulmxA; congr Some.
Qed.
Theorem C32_agree_all n T (W : 'M[Cx]_n) (X : 'M[Cx]_(n, T)) : W \in unitmx -> X *m X^H \in unitmx ->
  exists2 f, pb_filter_all W = Some f & forall r, pb_data (W *m X) X r = Some (f r *m X).
Proof.
move=> uW uX; exists (fun r => scale_rows (row r (invmx W)) W); first by rewrite /pb_filter_all np_invE.
by move=> r; have [W'] := C32_agree r uW uX; rewrite pb_filterE // scale_rowsE => -[->].
Qed.
Theorem C31_data_sum n T (W : 'M[Cx]_n) (X : 'M[Cx]_(n, T)) r t : W \in unitmx -> X *m X^H \in unitmx ->
  exists2 Y, pb_data (W *m X) X r = Some Y & \sum_i Y i t = X r t.
Proof.
move=> uW uX; have [W' e1 e2] := C32_agree r uW uX; exists (W' *m X) => //; exact: C31_sum e1.
Qed.

(** ** C33 *)
Definition dist2 T (x y : 'rV[Cx]_T) : R := \sum_t cabs (x 0 t - y 0 t) ^+ 2.
Lemma c_dist2 T (x y : 'rV[Cx]_T) : c (dist2 x y) = \sum_t c (cabs (x 0 t - y 0 t) ^+ 2).
Proof. exact: c_sum. Qed.

Theorem C33_optimal n m T (Y Z : 'M[Cx]_(n, T)) (X : 'M[Cx]_(m, T)) r i :
  mdp Y (Some X) r = Some Z ->
  (exists a, row i Z = a *: row i Y) /\
  forall a, (dist2 (row r X) (row i Z) <= dist2 (row r X) (a *: row i Y))%coqR.
Proof.
rewrite /mdp; case: ifP => // /forallP/(_ i) N0 [<-]; split.
  by eexists; apply/rowP => t; rewrite !mxE; reflexivity.
move=> a; apply/RleP; rewrite -cle !c_dist2.
have e b : \sum_t c (cabs ((row r X) 0 t - (b *: row i Y) 0 t) ^+ 2) =
           \sum_t c (cabs (X r t - b * Y i t) ^+ 2) by apply: eq_bigr => t _; rewrite !mxE.
rewrite e; have := ls_opt (fun t => X r t) a N0; set L := (X in X <= _); set L' := (X in _ -> X <= _).
have -> // : L = L'; by apply: eq_bigr => t _; rewrite !mxE.
Qed.
Theorem C33_defined n m T (Y : 'M[Cx]_(n, T)) (X : 'M[Cx]_(m, T)) r :
  mdp Y (Some X) r <> None <-> forall i, row i Y != 0.
Proof.
rewrite /mdp; case: ifP => [/forallP h|/negP h]; split=> //.
  move=> _ i; apply: contraNneq (h i) => /rowP e; rewrite sum_sq_eq0; apply/forallP => t.
  by have := e t; rewrite !mxE => ->.
move=> h'; exfalso; apply: h; apply/forallP => i; apply: contraNN (h' i); rewrite sum_sq_eq0.
by move/forallP => e; apply/eqP/rowP => t; rewrite !mxE; apply/eqP.
Qed.
Theorem C33_scale n m T (Y : 'M[Cx]_(n, T)) (X : 'M[Cx]_(m, T)) (g : 'rV[Cx]_n) r :
  (forall i, g 0 i != 0) ->
  mdp (\matrix_(i, t) (g 0 i * Y i t)) (Some X) r = mdp Y (Some X) r.
Proof.
move=> h; rewrite /mdp.
have den i : \sum_t c (cabs ((\matrix_(i, t) (g 0 i * Y i t)) i t) ^+ 2) =
   g 0 i * (g 0 i)^* * \sum_t c (cabs (Y i t) ^+ 2).
  rewrite mulr_sumr; apply: eq_bigr => t _; rewrite mxE !cabs_sqr rmorphM.
  by rewrite /= mulrACA.
have num i : \sum_t (\matrix_(i, t) (g 0 i * Y i t)) i t * (X r t)^* = g 0 i * \sum_t Y i t * (X r t)^*.
  by rewrite mulr_sumr; apply: eq_bigr => t _; rewrite mxE mulrA.
have -> : [forall i, \sum_t c (cabs ((\matrix_(i, t) (g 0 i * Y i t)) i t) ^+ 2) != 0] =
          [forall i, \sum_t c (cabs (Y i t) ^+ 2) != 0].
  by apply: eq_forallb => i; rewrite den !mulf_eq0 conjC_eq0 (negbTE (h i)).
case: ifP => // /forallP N0; congr Some; apply/matrixP => i t; rewrite !mxE num den.
have Ni := N0 i; have gi := h i; have gc : (g 0 i)^* != 0 by rewrite conjC_eq0.
set N := \sum_t c _ in Ni *; set S := \sum_t _ * _.
have N_real : N^* = N by rewrite /N rmorph_sum; apply: eq_bigr => u _; exact: c_conj.
rewrite !rmorphM !fmorphV !rmorphM /= conjCK {}N_real.
move: gi gc Ni; move: (S^*) N (Y i t) (g 0 i) (g 0 i)^* => u M y b a b0 a0 M0.
by field; rewrite M0 b0 a0.
Qed.
Theorem C33_idempotent n m T (Y Z Z' : 'M[Cx]_(n, T)) (X : 'M[Cx]_(m, T)) r :
  mdp Y (Some X) r = Some Z -> mdp Z (Some X) r = Some Z' -> Z' = Z.
Proof.
move=> e e'.
have zn : forall i, row i Z != 0 by apply/(C33_defined Z X r); rewrite e'.
have : exists2 g : 'rV[Cx]_n, (forall i, g 0 i != 0) & Z = \matrix_(i, t) (g 0 i * Y i t).
  move: e zn; rewrite /mdp; case: ifP => // _ [<-] zn.
  exists (\row_i ((\sum_t Y i t * (X r t)^*) / (\sum_t c (cabs (Y i t) ^+ 2)))^*).
    move=> i; apply: contraNneq (zn i) => g0; apply/eqP/rowP => t; rewrite !mxE.
    by move: g0; rewrite mxE => ->; rewrite mul0r.
  by apply/matrixP => i t; rewrite !mxE.
by case=> g gn eZ; move: e'; rewrite {1}eZ C33_scale // e => -[].
Qed.
(** the documented default [reference=None] always raises *)
Theorem C33_default_refuted : exists (n T : nat) (Y : 'M[Cx]_(n.+1, T.+1)),
  (forall i, row i Y != 0) /\ forall r : 'I_n.+1, @mdp n.+1 n.+1 T.+1 Y None r = None.
Proof.
exists 0%N, 0%N, (const_mx 1); split=> // i; apply/eqP => /rowP/(_ 0); rewrite !mxE => /eqP.
by rewrite oner_eq0.
Qed.

(** ** C34 *)
Lemma mdp_diag n T (Y Z : 'M[Cx]_(n, T)) (X : 'M[Cx]_(n, T)) r : mdp Y (Some X) r = Some Z ->
  exists d : 'rV[Cx]_n, Z = diag_mx d *m Y.
Proof.
rewrite /mdp; case: ifP => // _ [<-].
exists (\row_i ((\sum_t Y i t * (X r t)^*) / (\sum_t c (cabs (Y i t) ^+ 2)))^*).
by apply/matrixP => i t; rewrite mul_diag_mx !mxE.
Qed.
Lemma refit_lin n T (A : 'M[Cx]_n) (X : 'M[Cx]_(n, T)) W : refit (A *m X) X = Some W -> W = A.
Proof.
rewrite /refit /np_inv; case: ifP => // u [<-].
by rewrite -(mulmxA A) mulmxK.
Qed.
Theorem C34_mdp n T (X : 'M[Cx]_(n, T)) (W W' : 'M[Cx]_n) Y' r :
  apply_mdp X W r = Some (Y', W') ->
  Y' = separate X W' /\ exists d : 'rV[Cx]_n, W' = diag_mx d *m W.
Proof.
rewrite /apply_mdp; case e : mdp => [Z|] //; case e' : refit => [V|] // [<- <-].
have [d ed] := mdp_diag e; move: e'; rewrite ed /separate mulmxA => /refit_lin ->.
by split=> //; exists d.
Qed.
Theorem C34_mdp_defined n T (X : 'M[Cx]_(n, T)) (W : 'M[Cx]_n) r : W \in unitmx -> X *m X^H \in unitmx ->
  apply_mdp X W r <> None.
Proof.
move=> uW uX; rewrite /apply_mdp.
case e : mdp => [Z|]; first by rewrite /refit np_invE.
case: (C33_defined (separate X W) X r) => _ h; exfalso; apply: h e => i.
apply/eqP => e; have : row i (W *m X *m (W *m X)^H) = 0 by rewrite row_mul e mul0mx.
move/(congr1 (mulmx^~ (invmx (W *m X *m (W *m X)^H)))); rewrite mul0mx -row_mul mulmxV ?gram_unit //.
by move/rowP/(_ i); rewrite !mxE eqxx => /eqP; rewrite oner_eq0.
Qed.
Theorem C34_projection_back n T (X : 'M[Cx]_(n, T)) (W W' : 'M[Cx]_n) Y' r :
  apply_pb X W r = Some (Y', W') -> Y' = separate X W'.
Proof. by rewrite /apply_pb; case: pb_filter => // ? [<- <-]. Qed.
(** FastIVA, projection back: the filter acts on the whitened signal [Z = A X] *)
Theorem C34_fastiva_projection_back n T (A : 'M[Cx]_n) (X : 'M[Cx]_(n, T)) (W W' : 'M[Cx]_n) Y' r :
  fast_apply_pb X (A *m X) W r = Some (Y', W') -> Y' = separate (A *m X) W'.
Proof.
rewrite /fast_apply_pb; case e : pb_data => [Z|] //; case e' : refit => [V|] // [<- <-].
move: e e'; rewrite /pb_data /np_inv; case: ifP => // _ [<-].
by rewrite scale_rowsE /separate mulmxA => /refit_lin ->.
Qed.

(** ** C35 *)
Lemma covariance_ctr n T (X : 'M[Cx]_(n, T)) : (covariance X)^H = covariance X.
Proof.
rewrite /covariance ctrZ ctrM ctrK; congr (_ *: _).
by rewrite fmorphV rmorph_nat.
Qed.
Lemma covarianceM n T (X : 'M[Cx]_(n, T)) (A : 'M[Cx]_n) :
  covariance (A *m X) = A *m covariance X *m A^H.
Proof. by rewrite /covariance ctrM -scalemxAr -scalemxAl !mulmxA. Qed.
Lemma real_ctr m n (A : 'M[Cx]_(m, n)) : is_real A -> A^H = A^T.
Proof. by move/eqP => e; rewrite /ctr e. Qed.
Lemma pd_covariance_T n T (X : 'M[Cx]_(n.+1, T)) : pd (covariance X) -> T != 0%N.
Proof.
case=> _ h; apply/eqP => e; have := h (const_mx 1); rewrite /covariance.
have -> : X *m X^H = 0 by subst T; apply/matrixP => i j; rewrite !mxE big_ord0.
rewrite scaler0 /form mulmx0 mul0mx mxE ltxx => H; suff : false by []. apply: H.
by apply/eqP => /matrixP/(_ 0 0); rewrite !mxE => /eqP; rewrite oner_eq0.
Qed.
Lemma white_core n T (X : 'M[Cx]_(n, T)) w V : pd (covariance X) -> eigh_spec (covariance X) (w, V) ->
  [forall i, Rltb 0 (w 0 i)] /\
  covariance (rdiag (map_mx (fun w => 1 / R_sqrt.sqrt w)%coqR w) *m V^H *m X) = 1%:M.
Proof.
move=> p s; have w0 i : (0 < w 0%R i)%coqR := eigh_val_gt0 i p s.
split; first by apply/forallP => i; apply/RltbP.
rewrite covarianceM; have [/= u e _] := s.
rewrite ctrM ctrK rdiag_ctr !mulmxA -(mulmxA _ V^H) -(mulmxA _ (V^H *m _) V) -(mulmxA V^H) e.
rewrite (mulmxA V^H) u mul1mx !rdiagM -rdiag1; congr rdiag; apply/rowP => i; rewrite !mxE; toR.
have s0 := sqrt_lt_R0 _ (w0 i); have ss := sqrt_sqrt (w 0%R i) (Rlt_le _ _ (w0 i)).
rewrite -{2}ss; Rfield; lra.
Qed.
Theorem C35_complex eig n T ndim (X : 'M[Cx]_(n.+1, T)) : eigh_contract eig -> pd (covariance X) ->
  (ndim == 3%N) || (ndim == 4%N) ->
  exists2 Y, whiten eig ndim true X = Ok Y & covariance Y = 1%:M.
Proof.
move=> ec p nd; rewrite /whiten /whiten_bin.
have -> : accepted ndim true by case/orP: nd => /eqP ->.
rewrite (negbTE (pd_covariance_T p)).
have := ec _ _ (covariance_ctr X); case: (eig _ (covariance X)) => w V s.
by have [-> e] := white_core p s; eexists.
Qed.
(** real input: [eigh] returns real eigenvectors for a real symmetric matrix *)
Theorem C35_real eig n T ndim (X : 'M[Cx]_(n.+1, T)) : eigh_contract eig -> is_real X ->
  is_real (eig n.+1 (covariance X)).2 -> pd (covariance X) ->
  (ndim == 2%N) || (ndim == 3%N) ->
  exists Y, [/\ whiten eig ndim false X = Ok Y, is_real Y & covariance Y = 1%:M].
Proof.
move=> ec rX rV p nd; rewrite /whiten /whiten_bin.
have -> : accepted ndim false by case/orP: nd => /eqP ->.
have -> : covariance_real X = covariance X by rewrite /covariance real_ctr.
rewrite (negbTE (pd_covariance_T p)).
have := ec _ _ (covariance_ctr X); move: rV; case: (eig _ (covariance X)) => w V /= rV s.
have [-> e] := white_core p s; rewrite -real_ctr //; eexists; split=> //.
rewrite /is_real !map_mxM /= (eqP rX); apply/eqP; congr (_ *m _ *m _).
  by apply/matrixP => i j; rewrite !mxE rmorphMn c_conj.
by rewrite /ctr (eqP rV) -map_trmx (eqP rV).
Qed.
Theorem C35_rejects eig n T ndim cplx (X : 'M[Cx]_(n, T)) :
  whiten eig ndim cplx X = ValueError <->
  ~ ((ndim = 2%N /\ cplx = false) \/ ndim = 3%N \/ (ndim = 4%N /\ cplx = true)).
Proof.
rewrite /whiten /whiten_bin; split.
  case: ifP => [_|a _]; first by case: eqP => // _; case: (eig _ _) => ? ?; case: ifP.
  by case=> [[e1 e2]|[e1|[e1 e2]]]; move: a; rewrite e1 ?e2.
move=> h; case: ifP => // a; exfalso; apply: h; move: a; rewrite /accepted.
case: eqP => [->|_]; first by case: cplx => // _; left.
case: eqP => [->|_]; first by right; left.
by case: eqP => [->|_] //; case: cplx => // _; right; right.
Qed.

(** ** C36 *)
Lemma flip_unitary n (V : 'M[Cx]_n) : V^H *m V = 1%:M -> (flip V)^H *m flip V = 1%:M.
Proof.
move=> u; apply/matrixP => i j; have /matrixP/(_ (rev_ord i) (rev_ord j)) := u.
rewrite !mxE (inj_eq rev_ord_inj) => <-; apply: eq_bigr => k _; by rewrite !ctrE !mxE.
Qed.
Definition order_ev n (ascend : bool) (w : 'rV[R]_n) : 'rV[R]_n :=
  \row_i w 0 (if ascend then rev_ord i else i).
Lemma flip_eig n (A V : 'M[Cx]_n) w : A *m V = V *m rdiag w ->
  A *m flip V = flip V *m rdiag (order_ev true w).
Proof.
move=> e; apply/matrixP => i j; have /matrixP/(_ i (rev_ord j)) := e.
rewrite /rdiag !mul_mx_diag !mxE => <-; apply: eq_bigr => k _; by rewrite !mxE.
Qed.
Lemma pca_core n T (X : 'M[Cx]_(n, T)) w V (ascend : bool) : eigh_spec (covariance X) (w, V) ->
  let V' := if ascend then flip V else V in
  V'^H *m V' = 1%:M /\ covariance X *m V' = V' *m rdiag (order_ev ascend w).
Proof.
case=> /= u e _; case: ascend; first by split; [apply: flip_unitary|apply: flip_eig].
split=> //; rewrite e; congr (_ *m rdiag _); by apply/rowP => i; rewrite mxE.
Qed.
Lemma pca_form n T (X : 'M[Cx]_(n, T)) (V : 'M[Cx]_n) : (X^T *m map_mx conjC V)^T = V^H *m X.
Proof. by rewrite trmx_mul trmxK. Qed.

Theorem C36_complex eig n T ndim ascend (X : 'M[Cx]_(n, T)) : eigh_contract eig -> (0 < T)%N ->
  (ndim == 3%N) || (ndim == 4%N) ->
  exists Y, [/\ pca eig ndim true ascend X = Ok Y,
    covariance Y = rdiag (order_ev ascend (eig n (covariance X)).1),
    (forall t, \sum_i cabs (Y i t) ^+ 2 = \sum_i cabs (X i t) ^+ 2) &
    forall i j : 'I_n, (i <= j)%N ->
      if ascend then (re (covariance Y j j) <= re (covariance Y i i))%coqR
      else (re (covariance Y i i) <= re (covariance Y j j))%coqR].
Proof.
move=> ec T0 nd; rewrite /pca /pca_bin.
have -> : accepted ndim true by case/orP: nd => /eqP ->.
rewrite (gtn_eqF T0).
have s := ec _ _ (covariance_ctr X); move: s; case: (eig _ (covariance X)) => w V s.
have [u e] := pca_core ascend s; rewrite pca_form; eexists; split; first by [].
- by rewrite covarianceM ctrK -mulmxA e mulmxA u mul1mx.
- move=> t; apply: c_inj; rewrite !c_sum.
  have en m (Z : 'M[Cx]_(m, T)) : \sum_i c (cabs (Z i t) ^+ 2) = ((col t Z)^H *m col t Z) 0 0.
    by rewrite mxE; apply: eq_bigr => i _; rewrite ctrE !mxE cabs_sqr mulrC.
  rewrite !en; set V' := if _ then _ else _ in u *.
  have -> : col t (V'^H *m X) = V'^H *m col t X by rewrite !colE mulmxA.
  by rewrite ctrM ctrK mulmxA -(mulmxA _ V') (mulmx1C u) mulmx1.
- have [_ _ asc] := s; move=> i j ij; rewrite covarianceM ctrK -mulmxA e mulmxA u mul1mx.
  rewrite !rdiagE !eqxx !mulr1n !rec !mxE; case: ascend {u e}; apply: asc => //=.
  by rewrite leq_sub2l.
Qed.
Theorem C36_real eig n T ndim ascend (X : 'M[Cx]_(n, T)) : eigh_contract eig -> is_real X ->
  is_real (eig n (covariance X)).2 -> (ndim == 2%N) || (ndim == 3%N) ->
  exists Y, [/\ pca eig ndim false ascend X = pca eig 3 true ascend X & (0 < T)%N ->
    pca eig ndim false ascend X = Ok Y /\ is_real Y].
Proof.
move=> ec rX rV nd; rewrite /pca /pca_bin.
have -> : accepted ndim false by case/orP: nd => /eqP ->.
have -> : covariance_real X = covariance X by rewrite /covariance real_ctr.
case: (eig _ (covariance X)) rV => w V /= rV.
exists ((X^T *m (if ascend then flip V else V))^T); split.
  case: ifP => // _; congr (Ok (_ *m _)^T); case: ascend; last by rewrite (eqP rV).
  by apply/matrixP => i j; rewrite !mxE -[in LHS](eqP rV) mxE.
move=> T0; rewrite (gtn_eqF T0); split=> //.
rewrite /is_real -map_trmx map_mxM /= -map_trmx (eqP rX); apply/eqP; congr (_ *m _)^T.
case: ascend; last exact/eqP.
by apply/matrixP => i j; rewrite !mxE -[in RHS](eqP rV) mxE.
Qed.
Theorem C36_rejects eig n T ndim cplx ascend (X : 'M[Cx]_(n, T)) :
  pca eig ndim cplx ascend X = ValueError <->
  ~ ((ndim = 2%N /\ cplx = false) \/ ndim = 3%N \/ (ndim = 4%N /\ cplx = true)).
Proof.
rewrite /pca /pca_bin; split.
  case: ifP => [_|a _]; first by case: eqP => // _; case: (eig _ _) => ? ?.
  by case=> [[e1 e2]|[e1|[e1 e2]]]; move: a; rewrite e1 ?e2.
move=> h; case: ifP => // a; exfalso; apply: h; move: a; rewrite /accepted.
case: eqP => [->|_]; first by case: cplx => // _; left.
case: eqP => [->|_]; first by right; left.
by case: eqP => [->|_] //; case: cplx => // _; right; right.
Qed.

(** ** C34, FastIVA with the minimal distortion principle (disagreement).  The filter
    is refitted against the mixture, but [separate] applies it to the whitened mixture:
    the stored filter does not reproduce the stored output, whatever the eigen-solver. *)
Theorem C34_fastiva_mdp_refuted eig : eigh_contract eig ->
  exists (X Y' : 'M[Cx]_(1, 1)) (W W' : 'M[Cx]_1),
    fast_apply_mdp eig X W 0 = Some (Y', W') /\ separate_white eig X W' <> Ok Y'.
Proof.
move=> ec; pose X : 'M[Cx]_(1, 1) := 2%:R%:M.
have cov : covariance X = 4%:R%:M.
  rewrite /covariance /X ctr_scalar conjC_nat -scalar_mxM scale_scalar_mx invr1 mul1r.
  by congr (_%:M); rewrite -natrM.
have s := ec _ _ (covariance_ctr X); rewrite cov in s.
case E : (eig 1%N 4%:R%:M) s => [w V] s; have [/= u e _] := s.
pose v := V 0 0.
have V11 : V = v%:M by rewrite [V]mx11_scalar.
have vv : v * v^* = 1.
  by move/matrixP/(_ 0 0): u; rewrite V11 ctr_scalar -scalar_mxM !mxE /= !mulr1n mulrC.
have v0 : v != 0 by apply/eqP => v0; move: vv; rewrite v0 mul0r => /eqP; rewrite eq_sym oner_eq0.
have ew : w 0 0 = (2 * 2)%coqR :> R.
  apply: c_inj; move/matrixP/(_ 0 0): e; rewrite V11 -scalar_mxM mul_scalar_mx !mxE /= !mulr1n => h.
  by rewrite cRM !cR2 -natrM; apply: (mulfI v0); rewrite [LHS]mulrC [RHS]mulrC h mulrC.
have wh : whiten eig 3 true X = Ok (v^*)%:M.
  rewrite /whiten /whiten_bin /= cov E.
  have -> : [forall i, Rltb 0 (w 0 i)] by apply/forallP => i; apply/RltbP; rewrite ord1 ew; lra.
  congr Ok; rewrite [LHS]mx11_scalar; congr (_%:M).
  rewrite V11 ctr_scalar /X /rdiag -mulmxA mul_diag_mx -scalar_mxM !mxE ew mulr1n sqrt_square; last by lra.
  rewrite cRdiv ?cR2 ?cR1; last by lra.
  by rewrite div1r mulrCA mulVf ?mulr1 // pnatr_eq0.
have two : (2%:R : Cx) != 0 by rewrite pnatr_eq0.
exists X, 2%:R%:M, 1%:M, 1%:M; split; last first.
  rewrite /separate_white wh /separate mul1mx => -[/matrixP/(_ 0 0)]; rewrite !mxE /= !mulr1n => h.
  move: vv; rewrite h -[v]conjCK h conjC_nat -natrM => /eqP.
  by rewrite (eqr_nat _ 4 1).
rewrite /fast_apply_mdp /separate_white wh /separate mul1mx /mdp.
have den : \sum_t c (cabs ((v^*)%:M (0 : 'I_1) t) ^+ 2) = 1.
  by rewrite big_ord1 cabs_sqr !mxE /= mulr1n conjCK mulrC.
have -> : [forall i : 'I_1, \sum_t c (cabs ((v^*)%:M i t) ^+ 2) != 0].
  by apply/forallP => i; rewrite ord1 den oner_eq0.
set Z := \matrix_(i, t) _; have -> : Z = 2%:R%:M.
  apply/matrixP => i t; rewrite !ord1 [Z _ _]mxE den big_ord1 !mxE /= !mulr1n divr1 rmorphM conjCK.
  by rewrite /= conjCK mulrAC vv mul1r.
rewrite /refit /X ctr_scalar conjC_nat -scalar_mxM np_invE ?unitmx_scalar; last first.
  by rewrite unitmxE det_scalar1 unitfE mulf_neq0.
by rewrite invmx_scalar -scalar_mxM divff // mulf_neq0.
Qed.

(** ** Instances: a non-diagonal 2 x 2 filter, gains and a full-rank mixture *)
Definition exW : 'M[Cx]_2 := \matrix_(i, j) (if (i == 0) && (j == 1) then 3%:R else if i == j then 1 else 2%:R).
Definition exX : 'M[Cx]_(2, 2) := 2%:R%:M.
Lemma exW_unit : exW \in unitmx.
Proof.
rewrite unitmxE (expand_det_row _ 0) !big_ord_recl big_ord0 /cofactor !det_mx11 !mxE /=.
rewrite /bump /= !addn0 expr0 expr1 addr0 !mul1r mulN1r.
by rewrite unitfE mulrN -natrM subr_eq0 -[1]/(1%:R) eqr_nat.
Qed.
Lemma exX_gram : exX *m exX^H \in unitmx.
Proof. by rewrite /exX ctr_scalar -scalar_mxM unitmxE det_scalar unitfE expf_neq0 // conjC_nat -natrM pnatr_eq0. Qed.
Example C30_instance : exists g : 'rV[Cx]_2, (forall i, g 0 i != 0) /\ g 0 0 != g 0 1 /\
  pb_filter exW 1 <> None.
Proof.
exists (\row_i i.+1%:R); split; first by move=> i; rewrite mxE pnatr_eq0.
split; first by rewrite !mxE eqr_nat.
by apply/eqP; rewrite pb_filterN exW_unit.
Qed.
Example C31_instance : exW \in unitmx /\ exX *m exX^H \in unitmx.
Proof. by split; [exact: exW_unit|exact: exX_gram]. Qed.
(** a source missing from the reference channel: the projected filter is singular *)
Example C31_second_instance : exists W : 'M[Cx]_2, exists2 W', pb_filter W 0 = Some W' & pb_filter W' 0 = None.
Proof.
have [W' e] : exists W', pb_filter (1%:M : 'M[Cx]_2) 0 = Some W' by rewrite pb_filterE ?unitmx1 //; eexists.
exists 1%:M, W' => //; case e' : (pb_filter W' 0) => [V|] //.
have /(C31_second_defined e)/(_ 1) : pb_filter W' 0 <> None by rewrite e'.
by rewrite invmx1 mxE eqxx.
Qed.
Example C33_instance : exists Z, mdp (separate exX exW) (Some exX) 0 = Some Z.
Proof.
have := @C34_mdp_defined _ _ exX exW 0 exW_unit exX_gram; rewrite /apply_mdp.
by case: mdp => [Z|] // _; exists Z.
Qed.
Lemma exX_pd : pd (covariance exX).
Proof.
rewrite /covariance /exX ctr_scalar -scalar_mxM conjC_nat scale_scalar_mx -scalemx1.
by apply: pdZ; [rewrite mulr_gt0 ?invr_gt0 ?mulr_gt0 ?ltr0n|exact: pd1].
Qed.
Example C35_instance : exists eig, eigh_contract eig /\ pd (covariance exX).
Proof. by have [eig H] := eigh_contract_sat; exists eig; split=> //; exact: exX_pd. Qed.
(** the real branch: a solver returning the standard basis for scalar matrices *)
Definition eig_scalar (eig : eigh_t) : eigh_t := fun n A =>
  if is_scalar_mx A then (\row_i re (A i i), 1%:M) else eig n A.
Lemma eig_scalar_contract eig : eigh_contract eig -> eigh_contract (eig_scalar eig).
Proof.
move=> H n A hA; rewrite /eig_scalar; case: ifP => [/is_scalar_mxP[a e]|_]; last exact: H.
split=> /=; first by rewrite ctr1 mul1mx.
- rewrite mulmx1 mul1mx; apply/matrixP => i j; rewrite rdiagE mxE {1}e mxE.
  case: (i =P j) => [ij|] //; rewrite !mulr1n.
  have ha : (A i i)^* = A i i by rewrite -{2}hA ctrE.
  by rewrite -real_cre; [rewrite e mxE eqxx mulr1n|apply/CrealP].
- by move=> i j _; rewrite !mxE e !mxE !eqxx; exact: Rle_refl.
Qed.
Example C35_real_instance : exists eig,
  [/\ eigh_contract eig, is_real exX, is_real (eig 2%N (covariance exX)).2 & pd (covariance exX)].
Proof.
have [eig H] := eigh_contract_sat; exists (eig_scalar eig); split; last exact: exX_pd.
- exact: eig_scalar_contract.
- by apply/eqP/matrixP => i j; rewrite !mxE rmorphMn conjC_nat.
- rewrite /eig_scalar; have -> : is_scalar_mx (covariance exX).
    by apply/is_scalar_mxP; eexists; rewrite /covariance /exX ctr_scalar -scalar_mxM scale_scalar_mx.
  by apply/eqP/matrixP => i j; rewrite !mxE conjC_nat.
Qed.

Print Assumptions C31_idempotent.
Print Assumptions C34_fastiva_mdp_refuted.
Print Assumptions C36_complex.
