(** Properties C57, C68 and C69: filter update of ADMM, fixed points of the proximal methods, and
    agreement of the masking variants. *)
From Coq Require Import Reals Lra FunctionalExtensionality.
From mathcomp Require Import all_ssreflect all_algebra.
From mathcomp Require Import ring.
From Verif Require Import RStruct MxC CxR NpLin RealLemmas Eigh EighProofs Prox ProxProofs SvdExist Prop_Prox NmfMM ProxBss ProxBssProofs.
Import Order.TTheory GRing.Theory Num.Theory.
Set Implicit Arguments.
Unset Strict Implicit.
Unset Printing Implicit Defensive.
Local Open Scope ring_scope.

(** ** C57: the least-squares problem of the filter update of ADMM *)
Definition ls_cost n T Q (X : 'M[Cx]_(n, T)) (VY : 'M[Cx]_n) (VYt : 'I_Q -> 'M[Cx]_(n, T)) (W : 'M[Cx]_n) : R :=
  (nrm (W - VY) + \sum_q nrm (W *m X - VYt q))%R.
Lemma ls_expand n T Q (X : 'M[Cx]_(n, T)) VY (VYt : 'I_Q -> 'M[Cx]_(n, T)) W Z :
  ls_cost X VY VYt Z = ls_cost X VY VYt W + nrm (Z - W) + \sum_(q < Q) nrm ((Z - W) *m X) +
    2%:R * mip (Z - W) (W *m (Q%:R *: (X *m X^H) + 1%:M) - (VY + (\sum_q VYt q) *m X^H)).
Proof.
rewrite /ls_cost (nrm3 Z W VY).
have -> : \sum_q nrm (Z *m X - VYt q) = \sum_(q < Q) nrm ((Z - W) *m X) + 2%:R * mip (Z - W) (\sum_q (W *m X - VYt q) *m X^H) + \sum_q nrm (W *m X - VYt q).
  rewrite mip_sumr mulr_sumr -!big_split; apply: eq_bigr => q _ /=.
  by rewrite (nrm3 _ (W *m X)) -mulmxBl mipC mip_mulr mipC.
have -> : \sum_q (W *m X - VYt q) *m X^H = Q%:R *: (W *m (X *m X^H)) - (\sum_q VYt q) *m X^H.
  rewrite -mulmx_suml sumrB sumr_const card_ord mulmxBl -scaler_nat -scalemxAl mulmxA //.
rewrite mulmxDr mulmx1 -scalemxAr !opprD !mipDr !mipNr; toR.
have -> : (1%coqR *+ 2 : R) = 2%coqR by [].
set a1 := mip _ _; set a2 := mip _ _; set a3 := mip _ _; set a4 := mip _ _; set a5 := \sum__ _; set a6 := \sum__ _.
by set a7 := nrm _; set a8 := nrm _; clearbody a1 a2 a3 a4 a5 a6 a7 a8; lra.
Qed.
(** the update is always defined *)
Theorem C57_defined n T Q (X : 'M[Cx]_(n, T)) VY (VYt : 'I_Q -> 'M[Cx]_(n, T)) : exists W, admm_filter X VY VYt = Some W.
Proof. by rewrite admm_filter_def; eexists. Qed.
Lemma white_normal n T Q (X : 'M[Cx]_(n, T)) VY (VYt : 'I_Q -> 'M[Cx]_(n, T)) a W :
  X *m X^H = a%:M -> admm_filter X VY VYt = Some W ->
  W *m (Q%:R *: (X *m X^H) + 1%:M) = VY + (\sum_q VYt q) *m X^H.
Proof.
move=> wh; rewrite admm_filter_def => -[WE]; have u := gram_unit X Q.
have e : Q%:R *: (X *m X^H) + 1%:M = (Q%:R * a + 1)%:M by rewrite wh scale_scalar_mx raddfD.
rewrite -{1}WE e tr_scalar_mx scalar_mxC mulmxA mulmxV ?mul1mx //.
by move: u; rewrite e.
Qed.
(** it solves the least-squares problem when the channels are white (X X^H = a I) *)
Theorem C57_whitened n T Q (X : 'M[Cx]_(n, T)) VY (VYt : 'I_Q -> 'M[Cx]_(n, T)) a W :
  X *m X^H = a%:M -> admm_filter X VY VYt = Some W ->
  forall Z, (ls_cost X VY VYt W + nrm (Z - W) <= ls_cost X VY VYt Z)%coqR.
Proof.
move=> wh e Z; rewrite (ls_expand X VY VYt W Z) (white_normal wh e).
rewrite subrr; have -> : mip (Z - W) 0 = 0 by rewrite /mip mulmx0 linear0 re0.
have s0 : (0 <= (\sum_(q < Q) nrm ((Z - W) *m X))%R)%coqR by apply: sumR_ge0 => q _; exact: nrm_ge0.
by rewrite mulr0 addr0; move: s0; set x1 := \sum__ _; set x2 := nrm _; set x3 := ls_cost _ _ _ _; clearbody x1 x2 x3; toR; lra.
Qed.
(** In general it solves (Q X X^H + I)^T W = B instead of W (Q X X^H + I) = B: with one penalty,
    X = [1; 0] and V - Y = E_12 the returned filter is not optimal. *)
Theorem C57_refuted : exists (X : 'M[Cx]_(2, 1)) VY (VYt : 'I_1 -> 'M[Cx]_(2, 1)) W Z,
  admm_filter X VY VYt = Some W /\ (ls_cost X VY VYt Z < ls_cost X VY VYt W)%coqR.
Proof.
pose X : 'M[Cx]_(2, 1) := delta_mx 0 0; pose E : 'M[Cx]_2 := delta_mx 0 1.
exists X, E, (fun _ => 0); have [W e] := C57_defined X E (fun _ : 'I_1 => 0); exists W, E; split=> //.
have XX : X *m X^H = delta_mx 0 0 by rewrite ctr_delta mul_delta_mx.
have EX : E *m X = 0 by rewrite mul_delta_mx_0.
have -> : ls_cost X E (fun _ : 'I_1 => 0) E = 0 by rewrite /ls_cost subrr nrm0 big_ord1 subr0 EX nrm0 addr0.
rewrite /ls_cost big_ord1; have := nrm_ge0 (W *m X - 0).
suff h : (0 < nrm (W - E))%coqR by move=> h'; exact: Rplus_lt_le_0_compat.
have WE : W 0 1 = 2%:R^-1.
  move: e; rewrite admm_filter_def => -[<-]; rewrite big_ord1 mul0mx addr0 scale1r XX raddfD /= trmx_delta trmx1.
  set A : 'M[Cx]_2 := delta_mx 0 0 + 1%:M; pose B : 'M[Cx]_2 := \matrix_(i, j) (if i == j then if i == 0 then 2%:R^-1 else 1 else 0).
  have AB : A *m B = 1%:M.
    apply/matrixP => i j; rewrite !mxE sum2 !mxE.
    by have [->|->] := ord2P i; have [->|->] := ord2P j; rewrite /= ?mulr1 ?mulr0 ?addr0 ?add0r ?mulr1n ?mulr0n ?mul0r // -[1 + 1]/(2%:R) mulfV // pnatr_eq0.
  have [uA _] := mulmx1_unit AB.
  have -> : invmx A = B by rewrite -[LHS]mulmx1 -AB mulmxA mulVmx // mul1mx.
  by rewrite !mxE sum2 !mxE /= mulr1 mulr0 addr0.
apply: Rlt_le_trans (nrm_entry _ 0 1); rewrite !mxE WE /=.
have -> : 2%:R^-1 - 1 = c (- (1 / 2))%coqR by rewrite cRN cRdiv ?cR2 ?cR1; [field|lra].
by rewrite cabs_c Rabs_Ropp Rabs_pos_eq; [rewrite -RpowE; lra|lra].
Qed.

(** ** C68: fixed points of the iterations *)
Section Fixed.
Variables (svd : svd_t) (F n T Q : nat).
Hypothesis Hs : svd_contract svd.
Notation spec := ('I_F -> 'M[Cx]_(n, T)).
Notation filt := ('I_F -> 'M[Cx]_n).
Definition dist m (A B : 'I_F -> 'M[Cx]_(n, m)) : R := \sum_i nrm (A i - B i).
(** [prox] is the proximal operator of the convex function [pen] *)
Definition is_prox (pen : spec -> R) (prox : prox_t F n T) : Prop := forall Z mu, (0 < mu)%coqR ->
  exists P, prox Z mu = Some P /\
  forall V, (mu * pen P + dist P Z / 2 + dist V P / 2 <= mu * pen V + dist V Z / 2)%coqR.
Definition cost (pen : 'I_Q -> spec -> R) (X : spec) (W : filt) : R :=
  (\sum_q pen q (fun i => W i *m X i) - \sum_i ln (cabs (\det (W i))))%R.
Variables (pen : 'I_Q -> spec -> R) (prox : 'I_Q -> prox_t F n T).
Hypothesis Hp : forall q, is_prox (pen q) (prox q).
Implicit Types (X : spec) (W Z : filt).
Lemma dist3 m (A B C : 'I_F -> 'M[Cx]_(n, m)) :
  dist A C = (dist A B + 2 * (\sum_i mip (A i - B i)%R (B i - C i)%R)%R + dist B C)%coqR.
Proof.
rewrite /dist -[2%coqR]/(2%:R : R) (_ : (_ * _)%coqR = \sum_i 2%:R * mip (A i - B i) (B i - C i)); last first.
  by rewrite -mulr_sumr.
by rewrite !RaddE -!big_split; apply: eq_bigr => i _ /=; rewrite (nrm3 (A i) (B i)).
Qed.
(** compute_loss is the documented cost when it is defined *)
Theorem C68_loss X W l : compute_loss (Some pen) X W = Some l -> l = cost pen X W.
Proof. by rewrite /compute_loss; case: ifP => // _ [<-]. Qed.
Lemma prox_ineq q (Z P V : spec) mu : (0 < mu)%coqR -> prox q Z mu = Some P ->
  (mu * pen q P + (\sum_i mip (V i - P i)%R (Z i - P i)%R)%R <= mu * pen q V)%coqR.
Proof.
move=> m0 e; have [P' []] := Hp q Z m0; rewrite e => -[<-] /(_ V); rewrite (dist3 V P Z).
have -> : \sum_i mip (V i - P i) (P i - Z i) = - \sum_i mip (V i - P i) (Z i - P i).
  by rewrite -sumrN; apply: eq_bigr => i _; rewrite -mipNr opprB.
move: (\sum_i _) (dist _ _) (dist _ _) (pen _ _) (pen _ _) => s a b p p'; toR; lra.
Qed.
Lemma logdet_ineq W mu D : (0 < mu)%coqR -> neg_logdet svd W mu = Some D ->
  (forall i, D i \in unitmx) /\ forall Z, (forall i, Z i \in unitmx) ->
  (mu * (\sum_i ln (cabs (\det (Z i))))%R + (\sum_i mip (Z i - D i)%R (W i - D i)%R)%R <=
   mu * (\sum_i ln (cabs (\det (D i))))%R + dist Z D / 2)%coqR.
Proof.
move=> m0 /for_allP h.
have A i : D i \in unitmx /\ forall Y : 'M[Cx]_n, Y \in unitmx -> (logdet_cost mu (W i) (D i) <= logdet_cost mu (W i) Y)%coqR.
  by have [D' []] := C38_neg_logdet m0 (Hs (W i)); rewrite h => -[<-] [].
split=> [i|Z uZ]; first by have [] := A i.
rewrite /dist; toR.
rewrite !sumR_mull; rewrite /Rdiv sumR_mulr.
rewrite !sumR_add; apply: sumR_le => i _; have [_ /(_ _ (uZ i))] := A i.
rewrite /logdet_cost -/(nrm (D i - W i)).
have e m1 (A1 B1 : 'M[Cx]_m1) : \sum_i \sum_j cabs (A1 i j - B1 i j) ^+ 2 = nrm (A1 - B1).
  by apply: eq_bigr => a _; apply: eq_bigr => b _; rewrite !mxE.
rewrite !e (nrm3 (Z i) (D i) (W i)) -(opprB (W i)) mipNr.
move: (mip _ _) (nrm _) (nrm _) (ln _) (ln _) => a b d f g; toR.
have -> : (1%coqR *+ 2 : R) = 2%coqR by [].
lra.
Qed.
Lemma relax_fix m1 m2 (a : R) (D W : 'M[Cx]_(m1, m2)) : a <> 0 -> c a *: D + c (1 - a) *: W = W -> D = W.
Proof.
move=> /c_neq0 a0 /eqP; rewrite cB c1 scalerBl scale1r addrCA -subr_eq0 addrAC subrr add0r -scalerBr.
by rewrite scaler_eq0 (negbTE a0) subr_eq0 => /eqP.
Qed.
(** C68: at a fixed point of PDSBSS.update_once no other demixing filter has a smaller loss by more
    than the quadratic term: W minimises loss(Z) + |Z - W|^2 / (2 mu1). *)
Theorem C68_pds mu1 mu2 alpha X (s s' : pds_state F n T Q) :
  (0 < mu1)%coqR -> (0 < mu2)%coqR -> alpha <> 0 ->
  pds_update svd mu1 mu2 alpha prox X s = Some s' ->
  (forall i, demix_filter s' i = demix_filter s i) -> (forall q i, dual s' q i = dual s q i) ->
  (forall i, demix_filter s i \in unitmx) /\
  forall Z, (forall i, Z i \in unitmx) ->
  (cost pen X (demix_filter s) <= cost pen X Z + dist Z (demix_filter s) / (2 * mu1))%coqR.
Proof.
move=> m1 m2 a0; rewrite /pds_update; case E1: (neg_logdet _ _ _) => [D|] //; case: ifP => // _.
case E2: (for_all_in _) => [P|] // [<-] /= fW fY; set W := demix_filter s in fW E1 E2 *; set Y := dual s in fY E1 E2 *.
have DW : D = W by apply: functional_extensionality => i; apply: relax_fix a0 (fW i).
rewrite DW in E1 E2 fY; have [uW h1] := logdet_ineq m1 E1; split=> // Z uZ; have {h1} := h1 Z uZ.
have PW q : P q = fun i => W i *m X i.
  apply: functional_extensionality => i; have := relax_fix a0 (fY q i); rewrite /subT /addT /ProxBss.separate /subW /scaleW.
  rewrite -/W -/Y cR2 scaler_nat mulr2n addrK -addrA => /eqP; rewrite -subr_eq0 addrAC subrr add0r subr_eq0.
  by move=> /eqP.
pose S i := (\sum_q Y q i) *m (X i)^H; pose K := \sum_i mip (Z i - W i) (S i).
have -> : \sum_i mip (Z i - W i) (subW W (scaleW (mu1 * mu2) S) i - W i) = (- (mu1 * mu2) * K)%coqR.
  rewrite /K sumR_mull; apply: eq_bigr => i _; rewrite /subW /scaleW addrAC subrr add0r mipNr mipZr; toR; move: (mip _ _) => k; Rr.
have KE : K = \sum_q \sum_i mip ((Z i - W i) *m X i) (Y q i).
  rewrite exchange_big; apply: eq_bigr => i _; rewrite /S mulmx_suml mip_sumr; apply: eq_bigr => q _.
  by rewrite mipC -mip_mulr mipC.
have PE q : (pen q (fun i => W i *m X i) + mu2 * (\sum_i mip ((Z i - W i)%R *m X i) (Y q i))%R <= pen q (fun i => Z i *m X i))%coqR.
  have i2 : (0 < (1 / mu2)%R)%coqR by rewrite div1r; apply/RltP; rewrite invr_gt0; apply/RltP.
  have := prox_ineq (fun i => Z i *m X i) i2 (for_all_inP E2 q).
  rewrite PW; have -> : \sum_i mip (Z i *m X i - W i *m X i) (addT (Y q) (separate X (subW (scaleW 2 W) W)) i - W i *m X i) = \sum_i mip ((Z i - W i) *m X i) (Y q i).
    apply: eq_bigr => i _; rewrite -mulmxBl /addT /ProxBss.separate /subW /scaleW cR2 scaler_nat mulr2n addrK addrK //.
  move: (\sum_i _) (pen _ _) (pen _ _) => k p1 p2; rewrite div1r -RinvE; last lra; toR => h.
  have := Rmult_le_compat_l mu2 _ _ (Rlt_le _ _ m2) h; rewrite Rmult_plus_distr_l -!Rmult_assoc Rinv_r; [lra|lra].
have : ((\sum_q pen q (fun i => W i *m X i))%R + mu2 * K <= (\sum_q pen q (fun i => Z i *m X i))%R)%coqR.
  by rewrite KE sumR_mull sumR_add; apply: sumR_le => q _; exact: PE.
clear KE; clearbody K; rewrite /cost; move: (\sum_q _) (\sum_q _) (\sum_i _) (\sum_i _) (dist _ _) K => p1 p2 l1 l2 d k.
toR => h1 h2; apply: (Rmult_le_reg_l mu1) => //.
have e x y : (mu1 * (x - y + d / (2 * mu1)) = mu1 * x - mu1 * y + d / 2)%coqR by Rf; lra.
by rewrite e; nra.
Qed.
Lemma neg_logdet_some W mu : (0 < mu)%coqR -> exists D, neg_logdet svd W mu = Some D.
Proof.
move=> m0; apply: for_all_some => i; have [D [-> _]] := C38_neg_logdet m0 (Hs (W i)); by exists D.
Qed.
(** the iteration never fails *)
Theorem C68_pds_defined mu1 mu2 alpha X k (s : pds_state F n T Q) : (0 < Q)%N -> (0 < mu1)%coqR -> (0 < mu2)%coqR ->
  exists s', pds_run svd mu1 mu2 alpha prox X k s = Some s'.
Proof.
move=> Q0 m1 m2; elim: k s => [|k IH] s /=; first by exists s.
rewrite /pds_update; have [D ->] := neg_logdet_some (subW (demix_filter s) (scaleW (mu1 * mu2) (fun i => (\sum_q dual s q i) *m (X i)^H))) m1.
have -> : (Q == 0%N) || (mu2 == 0) = false.
  by rewrite eqn0Ngt Q0 /=; apply/eqP; rewrite -R0E; lra.
have i2 : (0 < (1 / mu2)%R)%coqR by rewrite div1r; apply/RltP; rewrite invr_gt0; apply/RltP.
have [q|P ->] := @for_all_in_some _ _ _ _ (fun q => prox q (addT (dual s q) (separate X (subW (scaleW 2 D) (demix_filter s)))) (1 / mu2)%R).
  by have [P [-> _]] := Hp q (addT (dual s q) (separate X (subW (scaleW 2 D) (demix_filter s)))) i2; exists P.
exact: IH.
Qed.
(** C68 for ADMMBSS, white data *)
Theorem C68_admm rho alpha X (s s' : admm_state F n T Q) :
  (0 < rho)%coqR -> alpha <> 0 -> (forall i, exists a, X i *m (X i)^H = a%:M) ->
  admm_update svd rho alpha prox X s = Some s' ->
  (forall i, a_filter s' i = a_filter s i) ->
  (forall i, auxiliary1 s' i = auxiliary1 s i) -> (forall q i, auxiliary2 s' q i = auxiliary2 s q i) ->
  (forall i, dual1 s' i = dual1 s i) -> (forall q i, dual2 s' q i = dual2 s q i) ->
  (forall i, a_filter s i \in unitmx) /\
  forall Z, (forall i, Z i \in unitmx) ->
  (cost pen X (a_filter s) <= cost pen X Z + rho * dist Z (a_filter s) / 2)%coqR.
Proof.
move=> r0 a0 wh; rewrite /admm_update; case E0: (for_all _) => [W|] //; case: ifP => // _.
case E1: (neg_logdet _ _ _) => [V'|] //; case E2: (for_all_in _) => [Vt'|] // [<-] /= fW fV fVt fY fYt.
have eW : a_filter s = W by apply: functional_extensionality => i; rewrite fW.
have eV : V' = auxiliary1 s by apply: functional_extensionality.
have eVt q : Vt' q = auxiliary2 s q by apply: functional_extensionality.
set Y := dual1 s in fY E0 E1 *; set Yt := dual2 s in fYt E0 E2 *.
have WV : auxiliary1 s = W.
  apply: functional_extensionality => i; apply/esym/(relax_fix a0); rewrite -[RHS](congr1 (fun f => f i) eV).
  have := fY i; rewrite /subW /addW -addrA => /eqP; rewrite -subr_eq0 addrAC subrr add0r subr_eq0 => /eqP; exact.
have WVt q : auxiliary2 s q = fun i => W i *m X i.
  apply: functional_extensionality => i; apply/esym/(relax_fix a0); rewrite -[RHS](congr1 (fun f => f i) (eVt q)).
  have := fYt q i; rewrite /subT /addT -addrA => /eqP; rewrite -subr_eq0 addrAC subrr add0r subr_eq0 => /eqP; exact.
have YE i : Y i = - ((\sum_q Yt q i) *m (X i)^H).
  have [a ha] := wh i; have := white_normal ha (for_allP E0 i); rewrite WV.
  have -> : \sum_q (auxiliary2 s q i - Yt q i) = Q%:R *: (W i *m X i) - \sum_q Yt q i.
    rewrite sumrB (eq_bigr (fun _ => W i *m X i)) => [|q _]; last by rewrite WVt.
    by rewrite sumr_const card_ord scaler_nat.
  rewrite mulmxDr mulmx1 mulmxBl -scalemxAl -scalemxAr mulmxA [W i - _ + _]addrC -addrA => /(addrI _) /eqP.
  by rewrite addrCA -[X in X == _]addr0 => /eqP /(addrI _) /eqP; rewrite eq_sym subr_eq0 => /eqP ->.
have i2 : (0 < (1 / rho)%R)%coqR by rewrite div1r; apply/RltP; rewrite invr_gt0; apply/RltP.
rewrite eW; have UW : addW (scaleW alpha W) (scaleW (1 - alpha) W) = W.
  by apply: functional_extensionality => i; rewrite /addW /scaleW cB c1 scalerBl scale1r addrC subrK.
rewrite eV WV UW in E1; have [uW h1] := logdet_ineq i2 E1; split=> // Z uZ; have {h1} := h1 Z uZ.
pose K := \sum_i mip (Z i - W i) ((\sum_q Yt q i) *m (X i)^H).
have -> : \sum_i mip (Z i - W i) (addW W Y i - W i) = (- K)%coqR.
  by rewrite /K RoppE -sumrN; apply: eq_bigr => i _; rewrite /addW addrAC subrr add0r YE mipNr.
have KE : K = \sum_q \sum_i mip ((Z i - W i) *m X i) (Yt q i).
  rewrite exchange_big; apply: eq_bigr => i _; rewrite mulmx_suml mip_sumr; apply: eq_bigr => q _.
  by rewrite mipC -mip_mulr mipC.
have PE q : (pen q (fun i => W i *m X i) + rho * (\sum_i mip ((Z i - W i)%R *m X i) (Yt q i))%R <= pen q (fun i => Z i *m X i))%coqR.
  have := prox_ineq (fun i => Z i *m X i) i2 (for_all_inP E2 q).
  rewrite eVt WVt; have -> : \sum_i mip (Z i *m X i - W i *m X i)
      (addT (addT (scaleT alpha (separate X W)) (scaleT (1 - alpha) (fun i => W i *m X i))) (Yt q) i - W i *m X i) = \sum_i mip ((Z i - W i) *m X i) (Yt q i).
    apply: eq_bigr => i _; rewrite -mulmxBl /addT /ProxBss.separate /scaleT cB c1 scalerBl scale1r.
    by rewrite [X in X + Yt q i - _]addrCA subrr addr0 addrAC subrr add0r.
  move: (\sum_i _) (pen _ _) (pen _ _) => k p1 p2; rewrite div1r -RinvE; last lra; toR => h.
  have := Rmult_le_compat_l rho _ _ (Rlt_le _ _ r0) h; rewrite Rmult_plus_distr_l -!Rmult_assoc Rinv_r; [lra|lra].
have : ((\sum_q pen q (fun i => W i *m X i))%R + rho * K <= (\sum_q pen q (fun i => Z i *m X i))%R)%coqR.
  by rewrite KE sumR_mull sumR_add; apply: sumR_le => q _; exact: PE.
clear KE; clearbody K; rewrite /cost; move: (\sum_q _) (\sum_q _) (\sum_i _) (\sum_i _) (dist _ _) K => p1 p2 l1 l2 d k.
rewrite div1r -RinvE; last lra.
toR => h1 h2; have := Rmult_le_compat_l rho _ _ (Rlt_le _ _ r0) h2.
rewrite !Rmult_plus_distr_l -!Rmult_assoc Rinv_r; [lra|lra].
Qed.
Theorem C68_admm_defined rho alpha X k (s : admm_state F n T Q) : (0 < Q)%N -> (0 < rho)%coqR ->
  exists s', admm_run svd rho alpha prox X k s = Some s'.
Proof.
move=> Q0 r0; elim: k s => [|k IH] s /=; first by exists s.
have i2 : (0 < (1 / rho)%R)%coqR by rewrite div1r; apply/RltP; rewrite invr_gt0; apply/RltP.
rewrite /admm_update; case E: (for_all _) => [W|]; last first.
  have [i|W] := @for_all_some _ _ (fun i => admm_filter (X i) (auxiliary1 s i - dual1 s i) (fun q => auxiliary2 s q i - dual2 s q i)).
    exact: C57_defined.
  by rewrite E.
have -> : (rho == 0) || (Q == 0%N) = false.
  by rewrite eqn0Ngt Q0 orbF; apply/eqP; rewrite -R0E; lra.
have [D ->] := neg_logdet_some (addW (addW (scaleW alpha W) (scaleW (1 - alpha) (auxiliary1 s))) (dual1 s)) i2.
case E2: (for_all_in _) => [P|]; first exact: IH.
have [q|P] := @for_all_in_some _ _ _ _ (fun q => prox q (addT (addT (scaleT alpha (separate X W)) (scaleT (1 - alpha) (auxiliary2 s q))) (dual2 s q)) (1 / rho)%R).
  by have [P [-> _]] := Hp q (addT (addT (scaleT alpha (separate X W)) (scaleT (1 - alpha) (auxiliary2 s q))) (dual2 s q)) i2; exists P.
by rewrite E2.
Qed.
End Fixed.

(** ** The operators of ssspy.linalg.prox satisfy [is_prox] *)
Section Operators.
Variables F n T : nat.
Notation spec := ('I_F -> 'M[Cx]_(n, T)).
(** prox.l1 applied to an array *)
Definition prox_l1_array : prox_t F n T := fun Z mu =>
  let P i a t := prox_l1 (Z i a t) mu in
  if [forall i, [forall a, [forall t, P i a t != None]]] then Some (fun i => \matrix_(a, t) odflt 0 (P i a t)) else None.
(** prox.l21 with axis2 the frequency axis *)
Definition prox_l21_array : prox_t F n T := fun Z mu =>
  let P a t := prox_l21 (\row_i Z i a t) mu in
  if [forall a, [forall t, P a t != None]] then Some (fun i => \matrix_(a, t) (odflt 0 (P a t)) 0 i) else None.
Definition pen_l1 (V : spec) : R := \sum_i \sum_a \sum_t cabs (V i a t).
Definition pen_l21 (V : spec) : R := \sum_a \sum_t R_sqrt.sqrt (\sum_i cabs (V i a t) ^+ 2).
Lemma distE (A B : spec) : dist A B = \sum_i \sum_a \sum_t cabs (A i a t - B i a t) ^+ 2.
Proof. by apply: eq_bigr => i _; apply: eq_bigr => a _; apply: eq_bigr => t _; rewrite !mxE. Qed.
Theorem C68_l1 : is_prox pen_l1 prox_l1_array.
Proof.
move=> Z mu m0; rewrite /prox_l1_array.
have h i a t := C37_l1 (Z i a t) m0.
have -> : [forall i, [forall a, [forall t, prox_l1 (Z i a t) mu != None]]].
  by apply/forallP => i; apply/forallP => a; apply/forallP => t; have [p [-> _]] := h i a t.
eexists; split=> [//|V]; rewrite /pen_l1 !distE /Rdiv.
rewrite !sumR_mull !sumR_mulr !sumR_add; apply: sumR_le => i _.
rewrite !sumR_mull !sumR_mulr !sumR_add; apply: sumR_le => a _.
rewrite !sumR_mull !sumR_mulr !sumR_add; apply: sumR_le => t _.
rewrite !mxE; have [p [-> /(_ (V i a t))]] := h i a t; by rewrite /l1_cost /odflt /oapp !RpowE.
Qed.
Theorem C68_l21 : is_prox pen_l21 prox_l21_array.
Proof.
move=> Z mu m0; rewrite /prox_l21_array.
have h a t := C37_l21 (\row_i Z i a t) m0.
have -> : [forall a, [forall t, prox_l21 (\row_i Z i a t) mu != None]].
  by apply/forallP => a; apply/forallP => t; have [p [-> _]] := h a t.
have dE (A B : spec) : dist A B = \sum_a \sum_t \sum_i cabs (A i a t - B i a t) ^+ 2.
  rewrite distE exchange_big; apply: eq_bigr => a _; by rewrite exchange_big.
eexists; split=> [//|V]; rewrite /pen_l21 !dE /Rdiv.
rewrite !sumR_mull !sumR_mulr !sumR_add; apply: sumR_le => a _.
rewrite !sumR_mull !sumR_mulr !sumR_add; apply: sumR_le => t _.
have [p [e /(_ (\row_i V i a t))]] := h a t; rewrite /group_cost /Rdiv.
have pE i : (\matrix_(a0, t0) (odflt 0 (prox_l21 (\row_i0 Z i0 a0 t0) mu)) 0 i : 'M[Cx]_(n, T)) a t = p 0 i by rewrite mxE e.
have e1 : \sum_i cabs (p 0 i) ^+ 2 = \sum_i cabs ((\matrix_(a0, t0) (odflt 0 (prox_l21 (\row_i0 Z i0 a0 t0) mu)) 0 i : 'M[Cx]_(n, T)) a t) ^+ 2.
  by apply: eq_bigr => i _; rewrite pE.
have e2 : \sum_i cabs (p 0 i - (\row_i Z i a t) 0 i) ^+ 2 = \sum_i cabs ((\matrix_(a0, t0) (odflt 0 (prox_l21 (\row_i0 Z i0 a0 t0) mu)) 0 i : 'M[Cx]_(n, T)) a t - Z i a t) ^+ 2.
  by apply: eq_bigr => i _; rewrite pE mxE.
have e3 : \sum_i cabs ((\row_i V i a t) 0 i - p 0 i) ^+ 2 = \sum_i cabs (V i a t - (\matrix_(a0, t0) (odflt 0 (prox_l21 (\row_i0 Z i0 a0 t0) mu)) 0 i : 'M[Cx]_(n, T)) a t) ^+ 2.
  by apply: eq_bigr => i _; rewrite pE mxE.
have e4 : \sum_i cabs ((\row_i V i a t) 0 i) ^+ 2 = \sum_i cabs (V i a t) ^+ 2 by apply: eq_bigr => i _; rewrite mxE.
have e5 : \sum_i cabs ((\row_i V i a t) 0 i - (\row_i Z i a t) 0 i) ^+ 2 = \sum_i cabs (V i a t - Z i a t) ^+ 2 by apply: eq_bigr => i _; rewrite !mxE.
by rewrite e1 e2 e3 e4 e5.
Qed.
End Operators.

(** ** C69: the masking variants are the plain methods with the operator "mask times input" *)
Section Masking.
Variables (svd : svd_t) (F n T : nat) (mask_fn : ('I_F -> 'M[Cx]_(n, T)) -> ('I_F -> 'M[Cx]_(n, T))).
Notation spec := ('I_F -> 'M[Cx]_(n, T)).
Definition prox_of_mask : prox_t F n T := fun Z _ => Some (fun i => \matrix_(a, t) (mask_fn Z i a t * Z i a t)).
Variable prox : 'I_1 -> prox_t F n T.
Hypothesis prox_mask : forall Z mu, prox 0 Z mu = prox_of_mask Z mu.
Theorem C69_pds mu1 mu2 alpha X k (s : pds_state F n T 1) : mu2 <> 0 ->
  omap (fun s => (m_demix_filter s, m_dual s))
    (mpds_run svd mu1 mu2 alpha mask_fn X k (MPdsState (demix_filter s) (dual s 0))) =
  omap (fun s => (demix_filter s, dual s 0)) (pds_run svd mu1 mu2 alpha prox X k s).
Proof.
move=> /eqP/negbTE m2; elim: k s => [|k IH] s //=; rewrite /mpds_update /pds_update m2 /=.
have -> : (fun i => (\sum_q dual s q i) *m (X i)^H) = (fun i => dual s 0 i *m (X i)^H).
  by apply: functional_extensionality => i; rewrite big_ord1.
case: (neg_logdet _ _ _) => [D|] //.
set Z := addT _ _; case E: (for_all_in _) => [P|]; last first.
  have [q|P] := @for_all_in_some _ _ _ _ (fun q : 'I_1 => prox q (addT (dual s q) (separate X (subW (scaleW 2 D) (demix_filter s)))) (1 / mu2)%R).
    by rewrite (ord1 q) prox_mask; eexists.
  by rewrite E.
have := for_all_inP E 0; rewrite prox_mask => -[PE].
by rewrite -IH /= -PE.
Qed.
Theorem C69_admm rho alpha X k (s : admm_state F n T 1) :
  omap (fun s => (ma_filter s, (m_auxiliary1 s, m_auxiliary2 s), (m_dual1 s, m_dual2 s)))
    (madmm_run svd rho alpha mask_fn X k (MAdmmState (a_filter s) (auxiliary1 s) (auxiliary2 s 0) (dual1 s) (dual2 s 0))) =
  omap (fun s => (a_filter s, (auxiliary1 s, auxiliary2 s 0), (dual1 s, dual2 s 0))) (admm_run svd rho alpha prox X k s).
Proof.
elim: k s => [|k IH] s //=; rewrite /madmm_update /admm_update orbF /=.
have -> : (fun i => admm_filter (X i) (auxiliary1 s i - dual1 s i) (fun q => auxiliary2 s q i - dual2 s q i)) =
          (fun i => madmm_filter (X i) (auxiliary1 s i - dual1 s i) (auxiliary2 s 0 i - dual2 s 0 i)).
  by apply: functional_extensionality => i; rewrite /admm_filter /madmm_filter big_ord1 scale1r.
case: (for_all _) => [W|] //; case: ifP => // _; case: (neg_logdet _ _ _) => [D|] //.
case E: (for_all_in _) => [P|]; last first.
  have [q|P] := @for_all_in_some _ _ _ _ (fun q : 'I_1 => prox q (addT (addT (scaleT alpha (separate X W)) (scaleT (1 - alpha) (auxiliary2 s q))) (dual2 s q)) (1 / rho)%R).
    by rewrite (ord1 q) prox_mask; eexists.
  by rewrite E.
have := for_all_inP E 0; rewrite prox_mask => -[PE].
by rewrite -IH /= -PE.
Qed.
End Masking.

(** ** Instances *)
Example C57_instance : exists X : 'M[Cx]_2, X *m X^H = 1%:M /\ X <> 1%:M.
Proof.
exists (- 1%:M); split; first by rewrite ctrN ctr1 mulmxN mulmx1 opprK.
move=> /matrixP/(_ 0 0); rewrite !mxE mulr1n => /eqP; rewrite -subr_eq0 -opprD oppr_eq0 -[1 + 1]/(2%:R) pnatr_eq0 //.
Qed.
(** one source, bin and frame: loss |w| - ln |w|; w = 1 with dual variable 1 is a fixed point *)
Example C68_instance svd : svd_contract svd ->
  let s := PdsState (fun _ => 1%:M) (fun _ _ => 1%:M) : pds_state 1 1 1 1 in
  exists s', [/\ pds_update svd (1 / 2)%coqR 1 1 (fun _ => @prox_l1_array 1 1 1) (fun _ => 1%:M) s = Some s',
    forall i, demix_filter s' i = demix_filter s i & forall q i, dual s' q i = dual s q i].
Proof.
move=> Hs s; pose h := (1 / 2)%coqR.
have nl : prox_neg_logdet svd ((c h)%:M : 'M[Cx]_1) h = Some 1%:M.
  rewrite /prox_neg_logdet; have := Hs 1%N (c h)%:M; case: (svd _ _) => [[U d] V] [/= uU uV d0 e].
  have dE : rdiag d = (c (d 0 0))%:M by apply/matrixP => i j; rewrite (ord1 i) (ord1 j) rdiagE mxE.
  rewrite dE in e.
  have e2 : c (h * h)%coqR = c (d 0%R 0%R * d 0%R 0%R)%coqR.
    have : (c h)%:M^H *m (c h)%:M = (c (d 0 0)%R * c (d 0 0)%R)%:M :> 'M[Cx]_1.
      rewrite e !ctrM ctr_scalar c_conj -!mulmxA (mulmxA U^H) uU mul1mx (mulmxA _%:M) -scalar_mxM.
      by rewrite -scalar_mxC mulmxA (mulmx1C uV) mul1mx.
    by rewrite ctr_scalar c_conj -scalar_mxM => /matrixP/(_ 0 0); rewrite !mxE !mulr1n !cRM.
  have dh : d 0 0 = h by have := d0 0; move: e2 => /c_inj; rewrite /h; toR; move: (d 0 0) => x; nra.
  have pn : prox_neg_log h h = Some 1%coqR.
    rewrite /prox_neg_log /h; case: RlebP => [_|]; last lra.
    have e4 : ((1 / 2) ^ 2 + 4 * (1 / 2) = (3 / 2) ^ 2)%coqR by lra.
    rewrite e4 sqrt_pow2; last lra.
    by case: RlebP => [_|]; [congr Some; lra|lra].
  have -> : [forall i, prox_neg_log (d 0 i) h != None] by apply/forallP => i; rewrite (ord1 i) dh pn.
  congr Some; have -> : rdiag (map_mx (fun s0 : R => odflt 0 (prox_neg_log s0 h)) d) = 1%:M.
    by apply/matrixP => i j; rewrite (ord1 i) (ord1 j) rdiagE !mxE dh pn /= cR1.
  have ch : c h != 0 by apply: c_neq0; rewrite /h; lra.
  apply: (scalerI ch); rewrite mulmx1 scalemx1 e dh scalemxAl; congr (_ *m _).
  by rewrite scalar_mxC mul_scalar_mx.
have E : neg_logdet svd (subW (demix_filter s) (scaleW ((1 / 2)%coqR * 1) (fun i => (\sum_q dual s q i) *m (1%:M : 'M[Cx]_1)^H))) h = Some (fun _ => 1%:M).
  rewrite /neg_logdet /for_all.
  have k i : subW (demix_filter s) (scaleW ((1 / 2)%coqR * 1) (fun i => (\sum_q dual s q i) *m (1%:M : 'M[Cx]_1)^H)) i = (c h)%:M.
    rewrite /subW /scaleW big_ord1 /= ctr1 mulmx1 Rmult_1_r scalemx1 -raddfB; congr (_%:M).
    by rewrite -/h -[1 in LHS]cR1 -cRB; congr c; rewrite /h; lra.
  rewrite /=; have -> : [forall i, prox_neg_logdet svd (subW (demix_filter s) (scaleW ((1 / 2)%coqR * 1) (fun i => (\sum_q dual s q i) *m (1%:M : 'M[Cx]_1)^H)) i) h != None].
    by apply/forallP => i; rewrite k nl.
  by congr Some; apply: functional_extensionality => i; rewrite k nl.
have nz : (1 == 0 :> R) = false by apply: oner_eq0.
rewrite /pds_update E nz /=.
have P2 : prox_l1 (2%:R : Cx) (1 / 1)%R = Some 1.
  rewrite /prox_l1 /shrink -cR2 cabs_c Rabs_pos_eq; last lra.
  rewrite (_ : (1 / 1)%R = 1%coqR :> R); last by rewrite divr1.
  case: RltbP => [|_]; first lra.
  case: eqP => [|_]; first by rewrite -R0E; lra.
  rewrite Rmax_left; last lra.
  by congr Some; rewrite -cRM -cR1; congr c; lra.
have zE : addT (dual s 0) (separate (fun _ => 1%:M) (subW (scaleW 2 (fun _ => 1%:M)) (demix_filter s))) = fun _ => 2%:R%:M.
  apply: functional_extensionality => i; rewrite /addT /separate /subW /scaleW /= cR2 mulmx1 scaler_nat mulr2n addrK.
  by rewrite -raddfD.
have PZ : prox_l1_array (fun _ : 'I_1 => (2%:R)%:M : 'M[Cx]_1) (1 / 1)%R = Some (fun _ => 1%:M).
  rewrite /prox_l1_array; have k (a t : 'I_1) : (2%:R%:M : 'M[Cx]_1) a t = 2%:R by rewrite (ord1 a) (ord1 t) mxE.
  have -> : [forall i : 'I_1, [forall a, [forall t, prox_l1 ((2%:R%:M : 'M[Cx]_1) a t) (1 / 1)%R != None]]].
    by apply/forallP => i; apply/forallP => a; apply/forallP => t; rewrite k P2.
  congr Some; apply: functional_extensionality => i; apply/matrixP => a t; rewrite mxE k P2 (ord1 a) (ord1 t) mxE //.
case E2: (for_all_in _) => [P|]; last first.
  have [q|P] := @for_all_in_some _ _ _ _ (fun q : 'I_1 => @prox_l1_array 1 1 1 (addT (dual s q) (separate (fun _ => 1%:M) (subW (scaleW 2 (fun _ => 1%:M)) (demix_filter s)))) (1 / 1)%R).
    by rewrite (ord1 q) zE PZ; eexists.
  by rewrite E2.
have := for_all_inP E2 0; rewrite zE PZ => -[PE].
eexists; split=> [//|i|q i] /=.
  by rewrite /addW /scaleW cR1 scale1r Rminus_diag_eq // cR0 scale0r addr0.
rewrite (ord1 q) -PE /addT /scaleT cR1 scale1r Rminus_diag_eq // cR0 scale0r addr0.
by rewrite /subT -raddfB -[2%:R]/(1 + 1) addrK.
Qed.
(** soft thresholding as a mask *)
Example C69_instance F n T mu : (0 < mu)%coqR -> exists mask_fn : ('I_F -> 'M[Cx]_(n, T)) -> ('I_F -> 'M[Cx]_(n, T)),
  forall Z, @prox_l1_array F n T Z mu = prox_of_mask mask_fn Z mu.
Proof.
move=> m0; exists (fun Z i => \matrix_(a, t) (c (odflt 0 (shrink (cabs (Z i a t)) mu)))) => Z.
rewrite /prox_l1_array /prox_of_mask.
have h i a t : exists s, shrink (cabs (Z i a t)) mu = Some s.
  have [p []] := C37_l1 (Z i a t) m0; rewrite /prox_l1; case: (shrink _ _) => // s _ _; by exists s.
have -> : [forall i, [forall a, [forall t, prox_l1 (Z i a t) mu != None]]].
  by apply/forallP => i; apply/forallP => a; apply/forallP => t; rewrite /prox_l1; have [s ->] := h i a t.
congr Some; apply: functional_extensionality => i; apply/matrixP => a t; rewrite !mxE /prox_l1.
by have [s ->] := h i a t.
Qed.
Print Assumptions C57_defined.
Print Assumptions C57_whitened.
Print Assumptions C57_refuted.
Print Assumptions C68_pds.
Print Assumptions C68_admm.
Print Assumptions C68_pds_defined.
Print Assumptions C68_admm_defined.
Print Assumptions C68_l1.
Print Assumptions C68_l21.
Print Assumptions C69_pds.
Print Assumptions C69_admm.
