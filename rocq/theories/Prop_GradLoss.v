(** C66: the gradient methods (GradICA, GradFDICA, GradIVA and their natural variants) descend
    the loss they report. *)
From Coq Require Import Reals Lra FunctionalExtensionality.
From mathcomp Require Import all_ssreflect all_algebra.
From mathcomp Require Import complex ring.
From Verif Require Import RStruct MxC CxR NpLin RealLemmas Eigh EighProofs SpatialISS AuxIVA Gradient GradLoss GradLossProofs.
Import Order.TTheory GRing.Theory Num.Theory.
Set Implicit Arguments.
Unset Strict Implicit.
Unset Printing Implicit Defensive.
Local Open Scope ring_scope.

(** * Spectrograms: GradIVA and NaturalGradIVA *)
Section C66.
Variables (F n T : nat).
Notation spec := ('I_F -> 'M[Cx]_(n, T)).
Notation filt := ('I_F -> 'M[Cx]_n).
(** the score function is the derivative of the contrast function at [Y], in the sense of Wirtinger
    (iva.py:655-658: the score function is "the partial derivative of the contrast function") *)
Definition wirtinger (G : spec -> 'M[R]_(n, T)) (score : spec -> spec) (Y : spec) :=
  forall (H : spec) s t, derivable_pt_lim (fun e => G (fun i => Y i + c e *: H i) s t) 0%coqR
    (2 * (\sum_i re ((score Y i s t)^* * H i s t))%R)%coqR.

Lemma rp_eq0C z : re (z^* * z) = 0 -> z = 0.
Proof. by rewrite mulrC re_zzc => /eqP; rewrite expf_eq0 /= cabs_eq0 => /eqP. Qed.
Lemma rp_ge0C z : (0 <= re (z^* * z))%coqR.
Proof. by rewrite mulrC re_zzc -RpowE; apply: pow2_ge_0. Qed.
Lemma embTC k : (k%:R)^-1 = c ((k%:R)^-1)%R.
Proof.
rewrite cV; congr (_^-1); elim: k => [|k IH]; first by rewrite c0.
by rewrite !mulrSr cD c1 -IH.
Qed.
Let cjC := [rmorphism of @conjC Cx].
Lemma iva_lossE G (X : spec) W :
  iva_loss G X W = lossO 2%coqR (fun M : 'M[Cx]_n => ln (cabs (\det M))) G X W.
Proof. by []. Qed.


Local Notation ldC := (fun M : 'M[Cx]_n => ln (cabs (\det M))).
(** C66: the displacement of a holonomic gradient step is the gradient of the loss: for every
    direction, the derivative of the loss is the inner product with it *)
Theorem C66_gradient G score X W (eta : R) W1 Y1 : wirtinger G score (sep X W) -> eta <> 0%coqR ->
  gradient_step conjC score true (c eta) X W = Some (W1, Y1) ->
  forall D : filt, derivable_pt_lim (fun e => odflt 0%coqR (iva_loss G X (fun i => W i + c e *: D i))) 0%coqR
    (2 / eta * (\sum_i re (\tr ((W i - W1 i)^H *m D i)))%R)%coqR.
Proof.
move=> HG e0; rewrite /gradient_step; case: ifP => // /andP[/eqP T0 /forallP uW] [<- _] D.
have := lossO_slope (cj := cjC) (@conjCK _) (embTC T) reD re0 reMc (ld := ldC) (@deriv0_logdet n) (@unit_small n) D T0 uW HG.
apply: deriv0_ext => //.
have E i : re (\tr ((W i - (W i - c eta *: grad cjC score X W i))^H *m D i)) =
  eta * re (\tr ((map_mx cjC (grad cjC score X W i))^T *m D i)).
  by rewrite subKr ctrZ c_conj -scalemxAl linearZ /= reMc.
rewrite -/(grad cjC score X W) (eq_bigr _ (fun i _ => E i)) -mulr_sumr; toR.
by rewrite /Rdiv Rmult_assoc -(Rmult_assoc (/ eta)) Rinv_l // Rmult_1_l.
Qed.
(** C66: so a holonomic gradient step, and a natural gradient step of both types, decrease the loss
    for every small enough step size, unless they do not move the filters at all *)
Theorem C66_descent G score X W holonomic : wirtinger G score (sep X W) -> (forall i, W i \in unitmx) ->
  forall step, step = gradient_step conjC score true \/ step = natural_step conjC score holonomic ->
  (exists W1 Y1 i, step 1 X W = Some (W1, Y1) /\ W1 i <> W i) ->
  exists e0, (0 < e0)%coqR /\ forall eta, (0 < eta < e0)%coqR ->
    exists W' l l', [/\ step (c eta) X W = Some (W', sep X W'), iva_loss G X W = Some l, iva_loss G X W' = Some l' & (l' < l)%coqR].
Proof.
move=> HG uW step Hs [W1 [Y1 [i [E ne]]]].
have T0 : T <> 0%N.
  by case: Hs E => -> ; rewrite ?/gradient_step ?/natural_step /has_frames; case: eqP.
have Tb : T != 0%N by apply/eqP.
have Ub : [forall i, W i \in unitmx] by apply/forallP.
have [D ED neg] : exists2 D : filt, (forall eta, step (c eta) X W = Some (shift c W D eta, sep X (shift c W D eta))) &
  (\sum_i re (\tr ((map_mx cjC (grad cjC score X W i))^T *m D i)) < 0)%coqR.
  case: Hs => Es; rewrite {}Es in E *.
    exists (fun i => - grad cjC score X W i).
      move=> eta; rewrite /gradient_step /has_frames Tb Ub /=; congr (Some (_, _)); last congr (sep X _);
      by apply: functional_extensionality => j; rewrite /shift scalerN.
    rewrite (eq_bigr _ (fun j _ => grad_neg _ reD re0 score X W j)) sumrN.
    apply: Ropp_lt_gt_0_contravar; rewrite (bigD1 i) //=.
    apply: Rplus_lt_le_0_compat; last by apply: sumR_ge0 => j _; exact: (sq_ge0 reD re0 rp_ge0C).
    apply: (sq_gt0 reD re0 rp_ge0C rp_eq0C) => z.
    move: E; rewrite /gradient_step /has_frames Tb Ub /= => -[E _]; case: ne.
    by rewrite -E scale1r -/(grad cjC score X W i) z subr0.
  exists (fun i => - (directions cjC score holonomic X W i *m W i)).
    move=> eta; rewrite /natural_step /has_frames Tb /=; congr (Some (_, _)); last congr (sep X _);
    by apply: functional_extensionality => j; rewrite /shift scalerN.
  rewrite (eq_bigr _ (fun j _ => natural_neg (@conjCK _ : involutive cjC) reD re0 score holonomic X (uW j))) sumrN.
  apply: Ropp_lt_gt_0_contravar; rewrite (bigD1 i) //=.
  apply: Rplus_lt_le_0_compat; last by apply: sumR_ge0 => j _; exact: (sq_ge0 reD re0 rp_ge0C).
  apply: (sq_gt0 reD re0 rp_ge0C rp_eq0C) => z.
  move: E; rewrite /natural_step /has_frames Tb /= => -[E _]; case: ne.
  by rewrite -E scale1r z mul0mx subr0.
have [e1 [p1 H]] := descent (cj := cjC) (@conjCK _) c0 (embTC T) reD re0 reMc Rlt_0_2 (ld := ldC) (@deriv0_logdet n) (@unit_small n) T0 uW HG neg.
exists e1; split=> // eta /H [l [l' [h1 h2 h3]]].
by exists (shift c W D eta), l, l'; split.
Qed.
End C66.

(** * Bin-wise contrasts: GradFDICA and NaturalGradFDICA *)
(** C66: the loss of FDICA is the loss of IVA for the contrast summed over the bins, so the two
    theorems above are about it as well *)
Theorem C66_bins F n T (G : ('I_F -> 'M[Cx]_(n, T)) -> 'I_F -> 'M[R]_(n, T)) X W :
  bins_loss G X W = iva_loss (fun Y => \sum_i G Y i) X W.
Proof.
rewrite /bins_loss /iva_loss; case: ifP => // _; congr Some.
rewrite sumrB -mulr_sumr; congr (_ - _); rewrite exchange_big /=; apply: eq_bigr => s _.
rewrite /meanR -mulr_sumr exchange_big /=; congr (_ * _); apply: eq_bigr => t _.
by rewrite summxE.
Qed.

(** * The models of the library *)
Lemma sumR_scal I (r : seq I) (P : pred I) (f : I -> R) k :
  \sum_(i <- r | P i) (k * f i)%coqR = (k * (\sum_(i <- r | P i) f i)%R)%coqR.
Proof. by rewrite RmulE mulr_sumr. Qed.
Lemma deriv0_sumF (I : finType) (f : I -> R -> R) (l : I -> R) :
  (forall i, deriv0 (f i) (l i)) -> deriv0 (fun e => \sum_i f i e) (\sum_i l i).
Proof. by move=> H; apply: deriv0_sum => i _. Qed.
Section Models.
Variables (F n T : nat) (fl : R -> R).
Notation spec := ('I_F -> 'M[Cx]_(n, T)).
Lemma norms_sq (Y : spec) s t : norms Y s t ^+ 2 = \sum_i cabs (Y i s t) ^+ 2.
Proof.
rewrite mxE -RpowE -Rsqr_pow2 Rsqr_sqrt //.
by apply: sumR_ge0 => i _; rewrite -RpowE; apply: pow2_ge_0.
Qed.
(** the square of a modulus along a line *)
Lemma deriv0_cabs2 (y h : Cx) : deriv0 (fun e => cabs (y + c e * h) ^+ 2) (2 * re (y^* * h))%coqR.
Proof.
have E e : ((cabs y ^+ 2)%R + (2 * re (y^* * h) * e + (cabs h ^+ 2)%R * (e ^+ 2)%R))%coqR = cabs (y + c e * h) ^+ 2.
  by rewrite !cabs2E reMconj reD imD reMc imMc !expr2; toR; Rring.
apply: (deriv0_ext E _ (deriv0D (deriv0_const _) (deriv0D (deriv0Z _ (deriv0_pow 1)) (deriv0Z _ (deriv0_pow 2))))).
have -> : ((1%N == 1%N)%:R : R) = 1%coqR by [].
have -> : ((2%N == 1%N)%:R : R) = 0%coqR by [].
lra.
Qed.
Lemma deriv0_norms (Y H : spec) s t : norms Y s t <> 0%coqR ->
  deriv0 (fun e => norms (fun i => Y i + c e *: H i) s t) (\sum_i re ((Y i s t / c (norms Y s t))^* * H i s t)).
Proof.
move=> nz.
have N0 : (0 < norms Y s t)%coqR by have : (0 <= norms Y s t)%coqR by [rewrite mxE; apply: sqrt_pos]; lra.
have D := deriv0_sumF (fun i => deriv0_cabs2 (Y i s t) (H i s t)).
have S0 : (\sum_i cabs (Y i s t + c 0%coqR * H i s t) ^+ 2) = (norms Y s t * norms Y s t)%coqR.
  rewrite RmulE -expr2 norms_sq; apply: eq_bigr => i _; by rewrite c0 mul0r addr0.
have P0 : (0 < \sum_i cabs (Y i s t + c 0%coqR * H i s t)%R ^+ 2)%coqR.
  by rewrite S0; apply: Rmult_lt_0_compat.
apply: (deriv0_ext _ _ (deriv0_comp D (derivable_pt_lim_sqrt _ P0))) => [e|].
  by rewrite mxE; congr R_sqrt.sqrt; apply: eq_bigr => i _; rewrite !mxE.
rewrite S0 sqrt_square; last by lra.
have E i : re ((Y i s t / c (norms Y s t))^* * H i s t) = ((norms Y s t)^-1 * re ((Y i s t)^* * H i s t))%R.
  by rewrite rmorphM -cV c_conj -mulrA mulrCA reMc.
rewrite (eq_bigr _ (fun i _ => E i)) -mulr_sumr sumR_scal -RinvE //; toR.
move: (\big[_/_]_(i < F) _) => q; Rfield; lra.
Qed.
(** C66: the scores of the library are the derivatives of its contrasts, where the flooring is not
    active.  GradLaplaceIVA and NaturalGradLaplaceIVA: *)
Theorem C66_laplace (Y : spec) : (forall s t, norms Y s t <> 0%coqR /\ fl (norms Y s t) = norms Y s t) ->
  wirtinger (@iva_laplace F n T) (iva_laplace_score fl) Y.
Proof.
move=> nz H s t; have [n0 fn] := nz s t.
apply: (deriv0_ext _ _ (deriv0Z 2%coqR (deriv0_norms H n0))) => [e|]; first by rewrite [RHS]mxE.
by congr (_ * _)%coqR; apply: eq_bigr => i _; rewrite /iva_laplace_score [in RHS]mxE fn.
Qed.
(** GradLaplaceFDICA and NaturalGradLaplaceFDICA *)
Theorem C66_bins_laplace (Y : spec) : (forall i s t, Y i s t != 0 /\ fl (cabs (Y i s t)) = cabs (Y i s t)) ->
  wirtinger (fun Z => \sum_i @bins_laplace F n T Z i) (bins_laplace_score fl) Y.
Proof.
move=> nz H s t.
have D i : deriv0 (fun e => bins_laplace (fun j => Y j + c e *: H j) i s t)
   (2 * re ((bins_laplace_score fl Y i s t)^* * H i s t))%coqR.
  have [y0 fy] := nz i s t; have p := cabs_gt0 y0.
  have P0 : (0 < cabs (Y i s t + c 0%coqR * H i s t)%R ^+ 2)%coqR.
    by rewrite c0 mul0r addr0 -RpowE; apply: pow_lt.
  apply: (deriv0_ext _ _ (deriv0Z 2%coqR (deriv0_comp (deriv0_cabs2 (Y i s t) (H i s t)) (derivable_pt_lim_sqrt _ P0)))) => [e|].
    by rewrite !mxE -RpowE -Rsqr_pow2 sqrt_Rsqr //; exact: cabs_ge0.
  rewrite c0 mul0r addr0 -RpowE -Rsqr_pow2 sqrt_Rsqr; last by lra.
  rewrite [bins_laplace_score _ _ _ _ _]mxE fy rmorphM -cV c_conj -mulrA mulrCA reMc -RinvE; last by lra.
  toR; move: (cabs _) p (re _) => u p v; Rfield; lra.
have := deriv0_sumF (fun i => D i).
by apply: deriv0_ext => [e|]; [rewrite summxE|rewrite sumR_scal].
Qed.
(** GradGaussIVA and NaturalGradGaussIVA, for the variances held by the object *)
Theorem C66_gauss (a : 'M[R]_(n, T)) (Y : spec) : (forall s t, a s t <> 0%coqR) ->
  wirtinger (iva_gauss a) (iva_gauss_score a) Y.
Proof.
move=> a0 H s t.
have D := deriv0_sumF (fun i => deriv0_cabs2 (Y i s t) (H i s t)).
apply: (deriv0_ext _ _ (deriv0D (deriv0_const (INR F * ln (a s t))%coqR) (deriv0Z (/ a s t)%coqR D))) => [e|].
  rewrite [RHS]mxE RpowE norms_sq /Rdiv [(_ * / a s t)%coqR]Rmult_comm; congr (_ + _ * _)%coqR; apply: eq_bigr => i _.
  by rewrite !mxE.
rewrite Rplus_0_l sumR_scal.
have E i : re ((iva_gauss_score a Y i s t)^* * H i s t) = ((a s t)^-1 * re ((Y i s t)^* * H i s t))%R.
  by rewrite mxE rmorphM -cV c_conj -mulrA mulrCA reMc.
rewrite (eq_bigr _ (fun i _ => E i)) -mulr_sumr -RinvE //; toR.
move: (\big[_/_]_(i < F) _) => q; by Rfield.
Qed.
End Models.

(** * Real signals: GradICA and NaturalGradICA *)
Section Real.
Variables (n T : nat).
Notation spec := ('I_1 -> 'M[R]_(n, T)).
Notation filt := ('I_1 -> 'M[R]_n).
(** the score function is the derivative of the contrast function at [Y] *)
Definition derivative (G : spec -> 'M[R]_(n, T)) (score : spec -> spec) (Y : spec) :=
  forall (H : spec) s t, derivable_pt_lim (fun e => G (fun i => Y i + (e : R) *: H i) s t) 0%coqR
    (score Y 0%R s t * H 0%R s t)%coqR.

Let cR := [rmorphism of real_complex R].
Lemma cdet m (M : 'M[R]_m) : \det (map_mx cR M) = c (\det M).
Proof. by rewrite det_map_mx. Qed.
Lemma cmap_line m (W D : 'M[R]_m) (e : R) : map_mx cR W + c e *: map_mx cR D = map_mx cR (W + e *: D).
Proof. by rewrite map_mxD map_mxZ. Qed.
Lemma deriv0_logdetR m (W D : 'M[R]_m) : W \in unitmx ->
  deriv0 (fun e => ln (Rabs (\det (W + e *: D)))) (\tr (invmx W *m D)).
Proof.
move=> uW; have uc : map_mx cR W \in unitmx by rewrite map_unitmx.
apply: (deriv0_ext _ _ (deriv0_logdet (map_mx cR D) uc)) => [e|].
  by rewrite cmap_line cdet cabs_c.
by rewrite -map_invmx -map_mxM trace_map_mx -[RHS]rec.
Qed.
Lemma unit_smallR m (W D : 'M[R]_m) : W \in unitmx ->
  exists e0, (0 < e0)%coqR /\ forall e, (Rabs e < e0)%coqR -> W + e *: D \in unitmx.
Proof.
move=> uW; have uc : map_mx cR W \in unitmx by rewrite map_unitmx.
have [e0 [p H]] := unit_small (map_mx cR D) uc; exists e0; split=> // e /H.
by rewrite cmap_line map_unitmx.
Qed.
Let cjR := [rmorphism of @idfun R].
Lemma cjRK : involutive cjR. Proof. by []. Qed.
Let rp (z : R) : R := z.
Lemma rpDR x y : rp (x + y)%R = (rp x + rp y)%R. Proof. by []. Qed.
Lemma rp_ge0R (z : R) : (0 <= rp (cjR z * z)%R)%coqR.
Proof. by rewrite /rp /=; toR; exact: Rle_0_sqr. Qed.
Lemma rp_eq0R (z : R) : rp (cjR z * z)%R = 0 -> z = 0.
Proof. by move/eqP; rewrite /rp /= mulf_eq0 orbb => /eqP. Qed.
Local Notation ldR := (fun M : 'M[R]_n => ln (Rabs (\det M))).
Lemma ica_lossE G (X : spec) W : ica_loss G X W = lossO 1%coqR ldR G X W.
Proof.
by rewrite /ica_loss /lossO /lossR big_ord1 mul1r.
Qed.
Lemma slopeR G score Y : derivative G score Y -> slope_at cjR id rp 1%coqR G score Y.
Proof.
by move=> HG H s t; apply: (deriv0_ext _ _ (HG H s t)) => //; rewrite Rmult_1_l big_ord1.
Qed.
Theorem C66_real_gradient G score X W (eta : R) W1 Y1 : derivative G score (sep X W) -> eta <> 0%coqR ->
  gradient_step id score true eta X W = Some (W1, Y1) ->
  forall D : filt, derivable_pt_lim (fun e => odflt 0%coqR (ica_loss G X (fun i => W i + (e : R) *: D i))) 0%coqR
    (/ eta * (\tr ((W 0 - W1 0)^T *m D 0))%R)%coqR.
Proof.
move=> HG e0; rewrite /gradient_step; case: ifP => // /andP[/eqP T0 /forallP uW] [<- _] D.
have := lossO_slope (cj := cjR) cjRK (erefl _) rpDR (erefl _) (fun x z => erefl _) (ld := ldR) (@deriv0_logdetR n) (@unit_smallR n) D T0 uW (slopeR HG).
apply: deriv0_ext => [e|]; first by rewrite ica_lossE.
rewrite Rmult_1_l big_ord1.
have -> : \tr ((W 0 - (W 0 - eta *: grad cjR score X W 0))^T *m D 0) =
  eta * \tr ((map_mx cjR (grad cjR score X W 0))^T *m D 0).
  rewrite subKr linearZ /= -scalemxAl linearZ /=; congr (_ * \tr (_^T *m _)).
  by apply/matrixP=> a b; rewrite [RHS]mxE.
by toR; rewrite -Rmult_assoc Rinv_l // Rmult_1_l.
Qed.
Theorem C66_real_descent G score X W holonomic : derivative G score (sep X W) -> (forall i, W i \in unitmx) ->
  forall step, step = gradient_step id score true \/ step = natural_step id score holonomic ->
  (exists W1 Y1, step 1 X W = Some (W1, Y1) /\ W1 0 <> W 0) ->
  exists e0, (0 < e0)%coqR /\ forall eta, (0 < eta < e0)%coqR ->
    exists W' l l', [/\ step eta X W = Some (W', sep X W'), ica_loss G X W = Some l, ica_loss G X W' = Some l' & (l' < l)%coqR].
Proof.
move=> HG uW step Hs [W1 [Y1 [E ne]]].
have T0 : T <> 0%N.
  by case: Hs E => -> ; rewrite ?/gradient_step ?/natural_step /has_frames; case: eqP.
have Tb : T != 0%N by apply/eqP.
have Ub : [forall i, W i \in unitmx] by apply/forallP.
have [D ED neg] : exists2 D : filt, (forall eta, step eta X W = Some (shift id W D eta, sep X (shift id W D eta))) &
  (\sum_i rp (\tr ((map_mx cjR (grad cjR score X W i))^T *m D i)) < 0)%coqR.
  case: Hs => Es; rewrite {}Es in E *.
    exists (fun i => - grad cjR score X W i).
      move=> eta; rewrite /gradient_step /has_frames Tb Ub /=; congr (Some (_, _)); last congr (sep X _);
      by apply: functional_extensionality => j; rewrite /shift scalerN.
    rewrite big_ord1 (grad_neg _ rpDR (erefl _)).
    apply: Ropp_lt_gt_0_contravar; apply: (sq_gt0 rpDR (erefl _) rp_ge0R rp_eq0R) => z.
    move: E; rewrite /gradient_step /has_frames Tb Ub /= => -[E _]; case: ne.
    by rewrite -E scale1r -[_ *m _]/(grad cjR score X W 0) z subr0.
  exists (fun i => - (directions cjR score holonomic X W i *m W i)).
    move=> eta; rewrite /natural_step /has_frames Tb /=; congr (Some (_, _)); last congr (sep X _);
    by apply: functional_extensionality => j; rewrite /shift scalerN.
  rewrite big_ord1 (natural_neg cjRK rpDR (erefl _) score holonomic X (uW 0)).
  apply: Ropp_lt_gt_0_contravar; apply: (sq_gt0 rpDR (erefl _) rp_ge0R rp_eq0R) => z.
  move: E; rewrite /natural_step /has_frames Tb /= => -[E _]; case: ne.
  by rewrite -E scale1r -[directions _ _ _ _ _ _]/(directions cjR score holonomic X W 0) z mul0mx subr0.
have [e1 [p1 H]] := descent (cj := cjR) cjRK (erefl _) (erefl _) rpDR (erefl _) (fun x z => erefl _) Rlt_0_1 (ld := ldR) (@deriv0_logdetR n) (@unit_smallR n) T0 uW (slopeR HG) neg.
exists e1; split=> // eta /H [l [l' [h1 h2 h3]]].
by exists (shift id W D eta), l, l'; rewrite !ica_lossE; split.
Qed.
End Real.

(** GradLaplaceICA and NaturalGradLaplaceICA *)
Theorem C66_real_laplace n T (Y : 'I_1 -> 'M[R]_(n, T)) : (forall s t, Y 0 s t <> 0%coqR) ->
  derivative (@laplace_contrast n T) (@laplace_score n T) Y.
Proof.
move=> nz H s t.
have L : deriv0 (fun e => (Y 0%R s t + H 0%R s t * e)%coqR) (H 0%R s t).
  apply: (deriv0_ext _ _ (deriv0D (deriv0_const (Y 0%R s t)) (deriv0Z (H 0%R s t) (deriv0_pow 1)))) => [e|]; first by rewrite expr1.
  by have -> : ((1%N == 1%N)%:R : R) = 1%coqR by []; lra.
have E e : Rabs (Y 0%R s t + H 0%R s t * e)%coqR = laplace_contrast (fun i => Y i + (e : R) *: H i) s t.
  by rewrite !mxE [in RHS]mulrC.
have Y0 : (Y 0%R s t + H 0%R s t * 0)%coqR = Y 0%R s t by lra.
rewrite [laplace_score _ _ _ _]mxE; case: Rlt_dec => [p|np].
  apply: (deriv0_ext E _ (deriv0_comp L (Rabs_derive_1 _ _))) => //; by rewrite Y0.
case: Rlt_dec => [q|nq]; last by have := nz s t; lra.
apply: (deriv0_ext E _ (deriv0_comp L (Rabs_derive_2 _ _))) => //; by rewrite Y0.
Qed.

(** * The default update of GradICA, GradFDICA, GradLaplaceICA and GradLaplaceFDICA
    ([is_holonomic=False]) is not a descent direction *)
Section Refuted.
Definition w_x : 'I_1 -> 'M[R]_(2, 3) := fun _ => \matrix_(a, t)
  (if a == 0%R then if t == ord_max then 6 else 0 else if t == ord_max then -3 else 3)%coqR.
Definition w_y : 'M[R]_(2, 3) := \matrix_(a, t) (if (a == 1%R) && (t == ord_max) then -3 else 3)%coqR.
Definition w_w : 'I_1 -> 'M[R]_2 := fun _ => \matrix_(a, b) (if (a == 1%R) && (b == 0%R) then 0 else 1)%coqR.
Definition w_v : 'M[R]_2 := \matrix_(a, b) (if a == b then 1 else if a == 0%R then -1 else 0)%coqR.
Lemma w_wv : w_w 0 *m w_v = 1%:M.
Proof. by apply/matrixP => a b; case: (ord2P a) => ->; case: (ord2P b) => ->; rewrite mxE sum2 !mxE /= ?mulr1n ?mulr0n; toR; lra. Qed.
Lemma w_unit i : w_w i \in unitmx.
Proof. by rewrite (ord1 i); have [] := mulmx1_unit w_wv. Qed.
Lemma w_inv : invmx (w_w 0) = w_v.
Proof. by rewrite -[invmx _]mulmx1 -w_wv mulKmx // w_unit. Qed.
Lemma w_sep : sep w_x w_w 0 = w_y.
Proof.
apply/matrixP => a t; rewrite /sep mxE sum2 !mxE /=.
by case: (ord2P a) => -> /=; case: ifP => _; toR; lra.
Qed.
Lemma w_frames s t : sep w_x w_w 0 s t <> 0%coqR.
Proof. by rewrite w_sep mxE; case: ifP => _; lra. Qed.
Lemma w_score a t : laplace_score (sep w_x w_w) 0 a t = (if (a == 1%R) && (t == ord_max) then -1 else 1)%coqR.
Proof.
rewrite [LHS]mxE -/(sep w_x w_w 0) w_sep [w_y a t]mxE.
by case: ((a == 1) && (t == ord_max)); case: Rlt_dec => h //; try (case: Rlt_dec => h' //); exfalso; lra.
Qed.
Lemma w_P : PhiY id (laplace_score (sep w_x w_w) 0) (sep w_x w_w 0) = \matrix_(a, b) (if a == b then 3 else 1)%coqR.
Proof.
have T3 : ((3%:R)^-1 : R) = (/ 3)%coqR by rewrite -RnatE -RinvE /=; [congr Rinv; lra|lra].
apply/matrixP => a b; rewrite !mxE T3 w_sep !big_ord_recl big_ord0 !w_score !mxE.
by case: (ord2P a) => ->; case: (ord2P b) => -> /=; toR; lra.
Qed.
(** C66 refuted: with the signals of GradLaplaceICA, a plain gradient step of the non-holonomic type
    increases the loss for every small step size *)
Theorem C66_nonholonomic_refuted : exists (X : 'I_1 -> 'M[R]_(2, 3)) W,
  [/\ derivative (@laplace_contrast 2 3) (@laplace_score 2 3) (sep X W), W 0 \in unitmx &
  exists e0, (0 < e0)%coqR /\ forall eta, (0 < eta < e0)%coqR ->
    exists W' l l', [/\ gradient_step id (@laplace_score 2 3) false eta X W = Some (W', sep X W'),
       ica_loss (@laplace_contrast 2 3) X W = Some l, ica_loss (@laplace_contrast 2 3) X W' = Some l' & (l < l')%coqR]].
Proof.
exists w_x, w_w; have HG := C66_real_laplace w_frames; split=> //; first exact: w_unit.
set D : 'I_1 -> 'M[R]_2 := fun i => - (directions id (@laplace_score 2 3) false w_x w_w i *m map_mx id (invmx (w_w i))^T).
have pos : (0 < \sum_i id (\tr ((map_mx idfun (grad [rmorphism of @idfun R] (@laplace_score 2 3) w_x w_w i))^T *m D i)))%coqR.
  rewrite big_ord1 /grad /D /directions /direction.
  rewrite -[sep w_x w_w 0]/(sep w_x w_w 0) w_P w_inv /mxtrace !(sum2, mxE) /= ?mulr1n ?mulr0n; toR; lra.
have T0 : 3%N <> 0%N by [].
have [e1 [p1 H]] := ascent (cj := [rmorphism of @idfun R]) (fun x => erefl _) (erefl _) (erefl _) (fun x y => erefl _) (erefl _) (fun x z => erefl _) Rlt_0_1 (ld := fun M : 'M[R]_2 => ln (Rabs (\det M))) (@deriv0_logdetR 2) (@unit_smallR 2) T0 w_unit (slopeR HG) pos.
exists e1; split=> // eta /H [l [l' [h1 h2 h3]]].
exists (shift id w_w D eta), l, l'; rewrite !ica_lossE; split=> //.
rewrite /gradient_step /has_frames /=; have -> : [forall i, w_w i \in unitmx] by apply/forallP => i; exact: w_unit.
have -> // : (fun i => w_w i - eta *: (directions id (@laplace_score 2 3) false w_x w_w i *m map_mx id (invmx (w_w i))^T)) = shift id w_w D eta.
by apply: functional_extensionality => i; rewrite /shift scalerN.
Qed.
(** concrete case of [C66_real_gradient] and [C66_real_descent]: the same signals with the
    holonomic update, which does decrease the loss *)
Example C66_instance : exists e0, (0 < e0)%coqR /\ forall eta, (0 < eta < e0)%coqR ->
    exists W' l l', [/\ gradient_step id (@laplace_score 2 3) true eta w_x w_w = Some (W', sep w_x W'),
       ica_loss (@laplace_contrast 2 3) w_x w_w = Some l, ica_loss (@laplace_contrast 2 3) w_x W' = Some l' & (l' < l)%coqR].
Proof.
apply: (C66_real_descent (holonomic := false) (C66_real_laplace w_frames) w_unit (step := gradient_step id (@laplace_score 2 3) true)); first by left.
rewrite /gradient_step /has_frames /=; have -> : [forall i, w_w i \in unitmx] by apply/forallP => i; exact: w_unit.
eexists; eexists; split; first by [].
move/matrixP => /(_ 0 0); rewrite /directions /direction w_P w_inv !(sum2, mxE) /= ?mulr1n ?mulr0n; toR; lra.
Qed.
End Refuted.
(** concrete case of [C66_gradient], [C66_descent] and [C66_laplace]: one source observed at 1 and
    filtered by 2 (GradLaplaceIVA without flooring) *)
Section Instance.
Let one : 'I_1 -> 'M[Cx]_1 := fun _ => 1%:M.
Let two : 'I_1 -> 'M[Cx]_1 := fun _ => (c 2%coqR)%:M.
Lemma inst_norm s t : norms (sep one two) s t = 2%coqR.
Proof.
rewrite mxE big_ord1 /sep mul_scalar_mx !mxE (ord1 s) (ord1 t) /= mulr1n mulr1 cabs_c -RpowE.
by rewrite Rabs_right; [rewrite -Rsqr_pow2 sqrt_Rsqr; lra|lra].
Qed.
Example C66_iva_instance : [/\ wirtinger (@iva_laplace 1 1 1) (iva_laplace_score id) (sep one two), (forall i, two i \in unitmx) &
  exists W1 Y1 i, gradient_step conjC (iva_laplace_score id) true 1 one two = Some (W1, Y1) /\ W1 i <> two i].
Proof.
have c2 : c 2%coqR != 0 by apply: c_neq0; lra.
have u : forall i, two i \in unitmx by move=> i; rewrite unitmxE det_scalar unitfE expf_neq0.
split=> //; first by apply: C66_laplace => s t; rewrite inst_norm; split=> //; lra.
rewrite /gradient_step /has_frames /=; have -> : [forall i, two i \in unitmx] by apply/forallP.
eexists; eexists; exists 0; split; first by [].
move/eqP; rewrite -subr_eq0 addrAC subrr add0r scale1r oppr_eq0 => /eqP z.
have uV : map_mx [rmorphism of @conjC Cx] (invmx (two 0))^T \in unitmx by rewrite map_unitmx unitmx_tr unitmx_inv.
have : directions conjC (iva_laplace_score id) true one two 0 = 0 by rewrite -[LHS](mulmxK uV) z mul0mx.
move/matrixP => /(_ 0 0); rewrite /directions /direction 2!mxE big_ord1 [iva_laplace_score _ _ _ _ _]mxE inst_norm.
rewrite /sep mul_scalar_mx !mxE /= mulr1n mulr1 divff // mul1r c_conj invr1 mul1r -c1 -cB -[0 in RHS]c0 => /c_inj.
by toR; lra.
Qed.
End Instance.
