(** C90: complete runs and calls of the gradient methods. *)
From Coq Require Import Reals Lra FunctionalExtensionality.
From mathcomp Require Import all_ssreflect all_algebra all_fingroup.
From mathcomp Require Import ring.
From Verif Require Import RStruct MxC CxR NpLin RealLemmas NmfMM Eigh EighProofs SpatialISS Scale AuxIVA AuxIVAProofs AuxIVARun AuxIVACall Gradient GradLoss GradRun.
From Verif Require Import ProxProofs Prop_Frames Prop_Bins.
Import Order.TTheory GRing.Theory Num.Theory.
Set Implicit Arguments.
Unset Strict Implicit.
Unset Printing Implicit Defensive.
Local Open Scope ring_scope.

Lemma recorded_shift S S' (g : S -> S') (st : S -> option S) (st' : S' -> option S') (l : S -> option R) (l' : S' -> option R) v :
  (forall s, st' (g s) = omap g (st s)) -> (forall s, l' (g s) = omap (fun x => x + v) (l s)) ->
  forall k s, recorded st' l' k (g s) = omap (fun p => (g p.1, [seq x + v | x <- p.2])) (recorded st l k s).
Proof.
move=> hs hl; elim=> [|k IH] s /=; rewrite hl; case: (l s) => // x.
by rewrite /= hs; case: (st s) => // s1 /=; rewrite IH; case: recorded => [[]|].
Qed.

Section Order.
Variables (F n T : nat) (fl : R -> R) (d : descent) (holonomic : bool) (eta : R).
Notation spec := ('I_F -> 'M[Cx]_(n, T)).
Notation filt := ('I_F -> 'M[Cx]_n).
Implicit Types (X Y : spec) (W : filt) (a : 'M[R]_(n, T)).
Variables (pn : {perm 'I_n}) (pi : {perm 'I_F}) (pj : {perm 'I_T}) (A : filt).
(** separated signals with sources, bins and frames in another order *)
Definition rY Y : spec := fun i => \matrix_(s, t) Y (pi i) (pn s) (pj t).
Definition rV a : 'M[R]_(n, T) := \matrix_(s, t) a (pn s) (pj t).
(** the recording with bins and frames in another order, mixed in every bin, and the filters
    that go with it *)
Definition rX X : spec := fun i => A i *m \matrix_(m, t) X (pi i) m (pj t).
Definition rW W : filt := fun i => row_perm pn (W (pi i)) *m invmx (A i).
Hypothesis uA : forall i, A i \in unitmx.
Hypothesis oA : d = Plain -> forall i, A i *m (A i)^H = 1%:M.

Lemma sep_order X W : sep (rX X) (rW W) = rY (sep X W).
Proof.
apply: functional_extensionality => i; rewrite /sep /rX /rW mulmxA -(mulmxA (row_perm _ _)) mulVmx // mulmx1.
by apply/matrixP => s t; rewrite !mxE; apply: eq_bigr => m _; rewrite !mxE.
Qed.
Definition pp (P : 'M[Cx]_n) : 'M[Cx]_n := \matrix_(a, b) P (pn a) (pn b).
Lemma PhiY_order (Phi Y : spec) i : PhiY conjC (rY Phi i) (rY Y i) = pp (PhiY conjC (Phi (pi i)) (Y (pi i))).
Proof.
apply/matrixP => a b; rewrite !mxE -(sum_bins pj (fun t => Phi (pi i) (pn a) t * (Y (pi i) (pn b) t)^*)).
by congr (_ * _); apply: eq_bigr => t _; rewrite !mxE.
Qed.
Lemma direction_order P : direction holonomic (pp P) = pp (direction holonomic P).
Proof. by rewrite /direction; case: holonomic; apply/matrixP => a b; rewrite !mxE (inj_eq perm_inj). Qed.
Lemma pp_mul P (M : 'M[Cx]_n) : pp P *m row_perm pn M = row_perm pn (P *m M).
Proof.
apply/matrixP => a b; rewrite !mxE -(sum_bins pn (fun k => P (pn a) k * M k b)).
by apply: eq_bigr => k _; rewrite !mxE.
Qed.
Lemma unit_order W i : (rW W i \in unitmx) = (W (pi i) \in unitmx).
Proof. by rewrite /rW row_permE !unitmx_mul unitmx_perm unitmx_inv uA andbT. Qed.
Lemma inv_order W i : W (pi i) \in unitmx -> invmx (rW W i) = A i *m invmx (W (pi i)) *m perm_mx pn^-1.
Proof.
move=> uW; rewrite /rW row_permE !invmx_mul ?unitmx_mul ?unitmx_perm ?unitmx_inv ?uA ?uW // invmxK.
suff -> : invmx (perm_mx pn) = perm_mx pn^-1 :> 'M[Cx]_n by rewrite mulmxA.
have u : (perm_mx pn : 'M[Cx]_n) \in unitmx by rewrite unitmx_perm.
by rewrite -[LHS]mulmx1 -(perm_mx1 _ n) -(mulgV pn) perm_mxM mulKmx.
Qed.
Lemma hinv_order W i : d = Plain -> W (pi i) \in unitmx ->
  (invmx (rW W i))^H = row_perm pn (invmx (W (pi i)))^H *m invmx (A i).
Proof.
move=> dP uW; rewrite inv_order // !ctrM mulmxA row_permE; congr (_ *m _ *m _).
  apply/matrixP => a b; rewrite ctrE !mxE -[pn^-1%g]/(pn^-1)%g.
  rewrite conjC_nat; congr (_%:R); apply: congr1; apply/eqP/eqP => [<-|<-]; by rewrite ?permK ?permKV.
by rewrite -[LHS]mul1mx -(mulVmx (uA i)) -mulmxA oA // mulmx1.
Qed.
Lemma directions_order (score score' : spec -> spec) X W i : score' (rY (sep X W)) = rY (score (sep X W)) ->
  directions conjC score' holonomic (rX X) (rW W) i = pp (directions conjC score holonomic X W (pi i)).
Proof. by move=> h; rewrite /directions sep_order h PhiY_order direction_order. Qed.
Lemma descend_order (score score' : spec -> spec) X W : score' (rY (sep X W)) = rY (score (sep X W)) ->
  descend d holonomic eta score' (rX X) (rW W) = omap rW (descend d holonomic eta score X W).
Proof.
move=> h; rewrite /descend; case e: d; rewrite /natural_step /gradient_step.
  rewrite (eq_forallb (P2 := fun i => W (pi i) \in unitmx)); last by move=> i; rewrite unit_order.
  rewrite (forall_bins pi (fun i => W i \in unitmx)); case: has_frames; last by [].
  case hu: [forall i, _]; last by [].
  have uW i : W i \in unitmx by move/forallP: hu.
  apply: (f_equal (fun q => Some q)); apply: functional_extensionality => i /=.
  have := hinv_order e (uW (pi i)); rewrite {1 2}/MxC.ctr -map_trmx => ->.
  by rewrite (directions_order _ h) mulmxA pp_mul scalemxAl -mulmxBl -linearZ -linearB map_trmx.
case: has_frames; last by [].
apply: (f_equal (fun q => Some q)); apply: functional_extensionality => i /=.
by rewrite (directions_order _ h) /rW mulmxA pp_mul scalemxAl -mulmxBl -linearZ -linearB.
Qed.

(** the losses move by [2 sum_i log |det A_i|] *)
Definition shift : R := (2 * (\sum_i ln (cabs (\det (A i))))%R)%coqR.
Lemma logdet_order W : (forall i, W i \in unitmx) ->
  (\sum_i ln (cabs (\det (rW W i))))%R = (\sum_i ln (cabs (\det (W i))))%R - (\sum_i ln (cabs (\det (A i))))%R.
Proof.
move=> uW; rewrite -(sum_bins pi (fun i => ln (cabs (\det (W i))))) -sumrB; apply: eq_bigr => i _.
have zW : \det (W (pi i)) != 0 by rewrite -unitfE -unitmxE.
have zA : \det (A i) != 0 by rewrite -unitfE -unitmxE.
rewrite /rW row_permE !det_mulmx det_perm det_inv !cabsM cabsV.
have -> : cabs ((-1) ^+ pn) = 1 by case: (odd_perm pn); rewrite ?expr1 ?expr0 ?cabsN cabs1.
rewrite mul1r -RinvE; last by apply: Rgt_not_eq; exact: cabs_gt0.
toR; rewrite ln_mult; [rewrite ln_Rinv; [by []|]|..]; try exact: cabs_gt0.
by apply: Rinv_0_lt_compat; exact: cabs_gt0.
Qed.
Lemma units_order W : [forall i, rW W i \in unitmx] = [forall i, W i \in unitmx].
Proof. by rewrite -(forall_bins pi (fun i => W i \in unitmx)); apply: eq_forallb => i; exact: unit_order. Qed.
Lemma iva_loss_order (G G' : spec -> 'M[R]_(n, T)) X W : G' (rY (sep X W)) = rV (G (sep X W)) ->
  iva_loss G' (rX X) (rW W) = omap (fun x => x + shift) (iva_loss G X W).
Proof.
move=> h; rewrite /iva_loss units_order; case: (T != 0%N); last by [].
case hu: [forall i, _]; last by [].
apply: (f_equal (fun q => Some q)); rewrite sep_order h logdet_order; last by move/forallP: hu.
have -> : \sum_s meanR (fun t => rV (G (sep X W)) s t) = \sum_s meanR (fun t => G (sep X W) s t).
  rewrite -[RHS](sum_bins pn); apply: eq_bigr => s _; rewrite -[RHS](meanR_bins pj).
  by apply: f_equal; apply: functional_extensionality => t; rewrite mxE.
rewrite /shift; toR; Rr.
Qed.
Lemma norms_order Y : norms (rY Y) = rV (norms Y).
Proof.
apply/matrixP => s t; rewrite !mxE -(sum_bins pi (fun i => cabs (Y i (pn s) (pj t)) ^+ 2)).
by apply: f_equal; apply: eq_bigr => i _; rewrite mxE.
Qed.
Lemma variance_order Y : source_variance (rY Y) = rV (source_variance Y).
Proof.
apply/matrixP => s t; rewrite !mxE -(meanR_bins pi (fun i => cabs (Y i (pn s) (pj t)) ^+ 2)).
by apply: f_equal; apply: functional_extensionality => i; rewrite mxE.
Qed.
Lemma all_order (P : R -> bool) a : [forall s, [forall t, P (rV a s t)]] = [forall s, [forall t, P (a s t)]].
Proof.
rewrite -(forall_bins pn (fun s => [forall t, P (a s t)])); apply: eq_forallb => s.
by rewrite -(forall_bins pj (fun t => P (a (pn s) t))); apply: eq_forallb => t; rewrite mxE.
Qed.
Lemma laplace_iva_once_order X W : laplace_iva_once fl d holonomic eta (rX X) (rW W) = omap rW (laplace_iva_once fl d holonomic eta X W).
Proof.
rewrite /laplace_iva_once sep_order norms_order (all_order (fun x => fl x != 0)).
case: [forall s, _]; last by [].
apply: descend_order; apply: functional_extensionality => i; apply/matrixP => s t; by rewrite [LHS]mxE norms_order !mxE.
Qed.
Lemma gauss_iva_once_order X s : gauss_iva_once d holonomic eta (rX X) (rW s.1, rV s.2) =
  omap (fun s => (rW s.1, rV s.2)) (gauss_iva_once d holonomic eta X s).
Proof.
rewrite /gauss_iva_once [(_, _).1]/= sep_order variance_order (all_order (fun x => x != 0)).
case: (_ && _); last by [].
rewrite (descend_order (score := @iva_gauss_score F n T (source_variance (sep X s.1)))); last first.
  by apply: functional_extensionality => i; apply/matrixP => a t; rewrite !mxE.
by case: (descend _ _ _ _ _ _).
Qed.
Lemma laplace_fdica_once_order X W : laplace_fdica_once fl d holonomic eta (rX X) (rW W) = omap rW (laplace_fdica_once fl d holonomic eta X W).
Proof.
rewrite /laplace_fdica_once sep_order.
have -> : [forall i, [forall s, [forall t, fl (cabs (rY (sep X W) i s t)) != 0]]] = [forall i, [forall s, [forall t, fl (cabs (sep X W i s t)) != 0]]].
  rewrite -(forall_bins pi (fun i => [forall s, [forall t, fl (cabs (sep X W i s t)) != 0]])); apply: eq_forallb => i.
  rewrite -(forall_bins pn (fun s => [forall t, fl (cabs (sep X W (pi i) s t)) != 0])); apply: eq_forallb => s.
  by rewrite -(forall_bins pj (fun t => fl (cabs (sep X W (pi i) (pn s) t)) != 0)); apply: eq_forallb => t; rewrite mxE.
case: [forall i, _]; last by [].
by apply: descend_order; apply: functional_extensionality => i; apply/matrixP => s t; rewrite !mxE.
Qed.
Lemma bins_loss_order X W : bins_loss (@bins_laplace F n T) (rX X) (rW W) = omap (fun x => x + shift) (bins_loss (@bins_laplace F n T) X W).
Proof.
rewrite /bins_loss units_order; case: (T != 0%N); last by [].
case hu: [forall i, _]; last by [].
apply: (f_equal (fun q => Some q)); rewrite sep_order.
have mE (H : 'I_F -> R) (L : 'I_F -> R) : \sum_i (H i - (2 * L i)%coqR) = (\sum_i H i - (2 * (\sum_i L i)%R)%coqR)%R.
  by rewrite sumrB; congr (_ - _); rewrite RmulE mulr_sumr; apply: eq_bigr => i _; rewrite RmulE.
rewrite !mE logdet_order; last by move/forallP: hu.
have -> : \sum_i \sum_s meanR (fun t => bins_laplace (rY (sep X W)) i s t) = \sum_i \sum_s meanR (fun t => bins_laplace (sep X W) i s t).
  rewrite -[RHS](sum_bins pi); apply: eq_bigr => i _; rewrite -[RHS](sum_bins pn); apply: eq_bigr => s _; rewrite -[RHS](meanR_bins pj).
  by apply: f_equal; apply: functional_extensionality => t; rewrite !mxE.
rewrite /shift; toR; Rr.
Qed.
Definition moved (o : filt * seq R) := (rW o.1, [seq x + shift | x <- o.2]).
(** C90: reordering sources, bins and frames, and mixing (by unitary matrices, for the plain
    gradient) *)
Theorem C90_laplace_run X k W : laplace_iva_run fl d holonomic eta (rX X) k (rW W) = omap moved (laplace_iva_run fl d holonomic eta X k W).
Proof.
apply: recorded_shift => W1; first exact: laplace_iva_once_order.
apply: iva_loss_order; apply/matrixP => s t.
rewrite [LHS]mxE.
by rewrite norms_order !mxE.
Qed.
Theorem C90_fdica_run X k W : laplace_fdica_run fl d holonomic eta (rX X) k (rW W) = omap moved (laplace_fdica_run fl d holonomic eta X k W).
Proof. by apply: recorded_shift => W1; [exact: laplace_fdica_once_order|exact: bins_loss_order]. Qed.
Theorem C90_gauss_run X k W a : gauss_iva_run d holonomic eta (rX X) k (rW W, rV a) =
  omap (fun o => ((rW o.1.1, rV o.1.2), [seq x + shift | x <- o.2])) (gauss_iva_run d holonomic eta X k (W, a)).
Proof.
rewrite /gauss_iva_run.
apply: (@recorded_shift _ _ (fun s : filt * 'M[R]_(n, T) => (rW s.1, rV s.2)) _ _ _ _ shift _ _ k (W, a)) => s; first exact: gauss_iva_once_order.
rewrite /gauss_iva_loss [(_, _).2]/= [(_, _).1]/= (all_order (fun x => Rltb 0 x)); case: [forall a, _]; last by [].
apply: iva_loss_order; apply/matrixP => b t; rewrite [LHS]mxE.
by rewrite norms_order !mxE.
Qed.
(** mixing by unitary matrices does not change the losses *)
Theorem C90_unitary : (forall i, A i *m (A i)^H = 1%:M) -> shift = 0.
Proof.
move=> hA; rewrite /shift big1 ?Rmult_0_r // => i _; rewrite cabs_det_unitary; last by apply: mulmx1C; exact: hA.
exact: ln_1.
Qed.
(** projection back to channel [r] of the mixed recording is projection back to channel [r'] of
    the original, when the first is a multiple of the second *)
Lemma restore_order X W (r r' : 'I_n) (e : 'I_F -> Cx) : (forall i, row r (A i) = e i *: delta_mx 0 r') ->
  restore_f (rX X) r (rW W) = omap (fun Y i => e i *: rY Y i) (restore_f X r' W).
Proof.
move=> hr; rewrite /restore_f /all_bins.
have E i : omap fst (apply_pb (rX X i) (rW W i) r) = omap (fun M : 'M[Cx]_(n, T) => e i *: \matrix_(s, t) M (pn s) (pj t)) (omap fst (apply_pb (X (pi i)) (W (pi i)) r')).
  rewrite /apply_pb /pb_filter /np_inv unit_order; case hu: (W (pi i) \in unitmx); last by [].
  apply: (f_equal (fun q => Some q)) => /=; apply/matrixP => s t; rewrite /separate inv_order // !mxE.
  have -> : \sum_j scale_rows (row r (A i *m invmx (W (pi i)) *m perm_mx pn^-1)) (rW W i) s j * rX X i j t =
    (A i *m invmx (W (pi i)) *m perm_mx pn^-1) r s * sep (rX X) (rW W) i s t.
    by rewrite [sep _ _ _]/(_ *m _) !mxE mulr_sumr; apply: eq_bigr => j _; rewrite !mxE mulrAC mulrC.
  have -> : (A i *m invmx (W (pi i)) *m perm_mx pn^-1) r s = e i * invmx (W (pi i)) r' (pn s).
    have -> : (A i *m invmx (W (pi i)) *m perm_mx pn^-1) r s = (row r (A i) *m invmx (W (pi i)) *m perm_mx pn^-1) 0 s.
      by rewrite -!row_mul [RHS]mxE.
    rewrite hr -scalemxAl -rowE -scalemxAl [LHS]mxE; congr (_ * _).
    by rewrite -col_permE [LHS]mxE [LHS]mxE.
  rewrite sep_order [rY _ _ _ _]mxE [sep _ _ _]/(_ *m _) [(_ *m _) _ _]mxE -mulrA; congr (_ * _); rewrite mulr_sumr; apply: eq_bigr => j _; rewrite !mxE mulrAC mulrC.
  by rewrite mulrA.
rewrite (eq_forallb (P2 := fun i => isSome (omap fst (apply_pb (X (pi i)) (W (pi i)) r')))); last first.
  by move=> i; rewrite E; case: (omap fst _).
rewrite (forall_bins pi (fun i => isSome (omap fst (apply_pb (X i) (W i) r')))).
case hs: [forall i, _]; last by [].
apply: (f_equal (fun q => Some q)); apply: functional_extensionality => i; rewrite E /rY.
by have := forallP hs (pi i); case: (omap fst _).
Qed.
Definition moved_out (e : 'I_F -> Cx) (o : spec * seq R) : spec * seq R := (fun i => e i *: rY o.1 i, [seq x + shift | x <- o.2]).
Lemma restored_order (S S' : Type) (f : S -> filt) (f' : S' -> filt) (g : S -> S') X (r r' : 'I_n) (e : 'I_F -> Cx) (o : option (S * seq R)) :
  (forall i, row r (A i) = e i *: delta_mx 0 r') -> (forall s, f' (g s) = rW (f s)) ->
  restored (rX X) r f' (omap (fun p => (g p.1, [seq x + shift | x <- p.2])) o) = omap (moved_out e) (restored X r' f o).
Proof.
move=> hr hg; case: o => [[s ls]|]; last by [].
rewrite /restored [omap _ (Some (s, ls))]/=; cbv iota beta; rewrite hg (restore_order X (f s) hr).
by case: (restore_f X r' (f s)).
Qed.
(** C90: complete calls, when the reference channel is a multiple of a channel of the original *)
Theorem C90_laplace_call X k W (r r' : 'I_n) (e : 'I_F -> Cx) : (forall i, row r (A i) = e i *: delta_mx 0 r') ->
  laplace_iva_call fl d holonomic eta (rX X) r k (rW W) = omap (moved_out e) (laplace_iva_call fl d holonomic eta X r' k W).
Proof. by move=> hr; rewrite /laplace_iva_call C90_laplace_run; exact: restored_order. Qed.
Theorem C90_fdica_call X k W (r r' : 'I_n) (e : 'I_F -> Cx) : (forall i, row r (A i) = e i *: delta_mx 0 r') ->
  laplace_fdica_call fl d holonomic eta (rX X) r k (rW W) = omap (moved_out e) (laplace_fdica_call fl d holonomic eta X r' k W).
Proof. by move=> hr; rewrite /laplace_fdica_call C90_fdica_run; exact: restored_order. Qed.
Theorem C90_gauss_call X k W (r r' : 'I_n) (e : 'I_F -> Cx) : (forall i, row r (A i) = e i *: delta_mx 0 r') ->
  gauss_iva_call d holonomic eta (rX X) r k (rW W) = omap (moved_out e) (gauss_iva_call d holonomic eta X r' k W).
Proof.
move=> hr; rewrite /gauss_iva_call.
have {1}-> : const_mx 1%coqR = rV (const_mx 1%coqR) by apply/matrixP => s t; rewrite !mxE.
by rewrite C90_gauss_run; exact: (restored_order (g := fun s : filt * 'M[R]_(n, T) => (rW s.1, rV s.2))).
Qed.
End Order.

(** * The order of the microphones: calls from identity matrices *)
Section Channels.
Variables (F n T : nat) (fl : R -> R) (d : descent) (holonomic : bool) (eta : R).
Notation spec := ('I_F -> 'M[Cx]_(n, T)).
Variables (q : {perm 'I_n}) (pi : {perm 'I_F}) (pj : {perm 'I_T}).
Notation mix := (fun _ : 'I_F => perm_mx q : 'M[Cx]_n).
Lemma mix_unit i : mix i \in unitmx. Proof. by rewrite unitmx_perm. Qed.
Lemma mix_unitary i : mix i *m (mix i)^H = 1%:M.
Proof.
suff -> : (mix i)^H = perm_mx q^-1 by rewrite -perm_mxM mulgV perm_mx1.
apply/matrixP => a b; rewrite ctrE !mxE conjC_nat; congr (_%:R); apply: congr1.
by apply/eqP/eqP => [<-|<-]; rewrite ?permK ?permKV.
Qed.
Lemma mix_row (r : 'I_n) i : row r (mix i) = 1 *: delta_mx 0 (q r).
Proof. by apply/rowP => b; rewrite !mxE mul1r eq_sym. Qed.
Lemma mix_X (X : spec) : rX pi pj mix X = rY q pi pj X.
Proof. by apply: functional_extensionality => i; rewrite /rX -row_permE; apply/matrixP => s t; rewrite !mxE. Qed.
Lemma mix_W : rW q pi mix (@eyes F n) = @eyes F n.
Proof.
apply: functional_extensionality => i; rewrite /rW /eyes row_permE mulmx1 mulmxV //; exact: mix_unit.
Qed.
Lemma mix_out (o : spec * seq R) : moved_out q pi pj mix (fun _ => 1) o = (rY q pi pj o.1, o.2).
Proof.
rewrite /moved_out (C90_unitary mix_unitary); congr (_, _).
  by apply: functional_extensionality => i; rewrite scale1r.
by rewrite -[RHS]map_id; apply: eq_map => x; rewrite addr0.
Qed.
Lemma mix_omap (o : option (spec * seq R)) : omap (moved_out q pi pj mix (fun _ => 1)) o = omap (fun o => (rY q pi pj o.1, o.2)) o.
Proof. by case: o => // o; apply: (f_equal (fun q => Some q)); exact: mix_out. Qed.
(** C90: channels, bins and frames in another order give the separated signals in that order and
    the same losses; the reference is the same microphone *)
Theorem C90_laplace_channels X k r : laplace_iva_call fl d holonomic eta (rY q pi pj X) r k (@eyes F n) =
  omap (fun o => (rY q pi pj o.1, o.2)) (laplace_iva_call fl d holonomic eta X (q r) k (@eyes F n)).
Proof. by rewrite -mix_X -{1}mix_W (C90_laplace_call fl holonomic eta q pi pj mix_unit (fun _ => mix_unitary) X k (@eyes F n) (mix_row r)) mix_omap. Qed.
Theorem C90_fdica_channels X k r : laplace_fdica_call fl d holonomic eta (rY q pi pj X) r k (@eyes F n) =
  omap (fun o => (rY q pi pj o.1, o.2)) (laplace_fdica_call fl d holonomic eta X (q r) k (@eyes F n)).
Proof. by rewrite -mix_X -{1}mix_W (C90_fdica_call fl holonomic eta q pi pj mix_unit (fun _ => mix_unitary) X k (@eyes F n) (mix_row r)) mix_omap. Qed.
Theorem C90_gauss_channels X k r : gauss_iva_call d holonomic eta (rY q pi pj X) r k (@eyes F n) =
  omap (fun o => (rY q pi pj o.1, o.2)) (gauss_iva_call d holonomic eta X (q r) k (@eyes F n)).
Proof. by rewrite -mix_X -{1}mix_W (C90_gauss_call holonomic eta q pi pj mix_unit (fun _ => mix_unitary) X k (@eyes F n) (mix_row r)) mix_omap. Qed.
End Channels.

(** * Gains and silence in single frames *)
Section FrameGain.
Variables (F n T : nat) (fl : R -> R) (d : descent) (holonomic : bool) (eta : R).
Notation spec := ('I_F -> 'M[Cx]_(n, T)).
Notation filt := ('I_F -> 'M[Cx]_n).
Implicit Types (X Y : spec) (W : filt) (a : 'M[R]_(n, T)).
Variable g : 'I_T -> Cx.
Hypothesis g0 : forall t, g t != 0.
(** every frame multiplied by its own gain *)
Definition gX X : spec := fun i => \matrix_(m, t) (g t * X i m t).
Definition gV a : 'M[R]_(n, T) := \matrix_(s, t) (cabs (g t) ^+ 2 * a s t).
Lemma gg t : (0 < cabs (g t) ^+ 2)%coqR.
Proof. by have := cabs_gt0 (g0 t) => h; rewrite -RpowE; apply: pow_lt. Qed.
Lemma sep_gain X W : sep (gX X) W = gX (sep X W).
Proof.
apply: functional_extensionality => i; apply/matrixP => s t; rewrite !mxE mulr_sumr.
by apply: eq_bigr => m _; rewrite !mxE mulrCA.
Qed.
Lemma variance_gain Y : source_variance (gX Y) = gV (source_variance Y).
Proof.
apply/matrixP => s t; rewrite !mxE /meanR mulrCA; congr (_ * _); rewrite mulr_sumr.
by apply: eq_bigr => i _; rewrite mxE cabsM exprMn.
Qed.
Lemma descend_gain a X W : (forall s t, a s t != 0) ->
  descend d holonomic eta (@iva_gauss_score F n T (gV a)) (gX X) W = descend d holonomic eta (@iva_gauss_score F n T a) X W.
Proof.
move=> a0; rewrite /descend /natural_step /gradient_step.
have -> : directions conjC (@iva_gauss_score F n T (gV a)) holonomic (gX X) W = directions conjC (@iva_gauss_score F n T a) holonomic X W.
  apply: functional_extensionality => i; rewrite /directions sep_gain; apply: f_equal; apply/matrixP => s b; rewrite !mxE; congr (_ * _).
  apply: eq_bigr => t _; rewrite !mxE cM cabs_sqr rmorphM.
  have zg : g t != 0 by []. have zg' : (g t)^* != 0 by rewrite conjC_eq0.
  have za : c (a s t) != 0 by rewrite c_eq0.
  set u := BigOp.bigop _ _ _; set v := BigOp.bigop _ _ _ .
  move: u v (g t) (c (a s t)) zg zg' za => u v x y.
  move: (v^* ) (x^* ) => v' x' zx zx' zy.
  by field; rewrite zx zx' zy.
by case: d; case: (_ && _); case: has_frames.
Qed.
Lemma gauss_once_gain X W a a' : gauss_iva_once d holonomic eta (gX X) (W, a') =
  omap (fun s => (s.1, gV s.2)) (gauss_iva_once d holonomic eta X (W, a)).
Proof.
rewrite /gauss_iva_once [(_, _).1]/= [(_, a).1]/= sep_gain variance_gain.
have -> : [forall s, [forall t, gV (source_variance (sep X W)) s t != 0]] = [forall s, [forall t, source_variance (sep X W) s t != 0]].
  apply: eq_forallb => s; apply: eq_forallb => t; rewrite mxE mulf_eq0.
  by have := gg t; case: eqP => //= ->; move=> h; exfalso; move: h; toR; lra.
case h: (_ && _); last by [].
rewrite descend_gain; first by case: (descend _ _ _ _ _ _).
by move=> s t; have /andP [_ /forallP/(_ s)/forallP/(_ t)] := h.
Qed.
(** the losses move by the mean logarithm of the gains *)
Definition gain_shift : R := \sum_(s < n) meanR (fun t => (INR F * ln (cabs (g t) ^+ 2))%coqR).
Lemma gauss_loss_gain X W a : gauss_iva_loss (gX X) (W, gV a) = omap (fun x => x + gain_shift) (gauss_iva_loss X (W, a)).
Proof.
rewrite /gauss_iva_loss [(_, _).2]/= [(_, a).2]/=.
have -> : [forall s, [forall t, Rltb 0 (gV a s t)]] = [forall s, [forall t, Rltb 0 (a s t)]].
  apply: eq_forallb => s; apply: eq_forallb => t; rewrite mxE; have h := gg t.
  by apply/RltbP/RltbP; toR => k; [apply: (Rmult_lt_reg_l _ _ _ h); rewrite Rmult_0_r|apply: Rmult_lt_0_compat].
case ha: [forall s, _]; last by [].
have a0 s t : (0 < a s t)%coqR by have /forallP/(_ s)/forallP/(_ t)/RltbP := ha.
rewrite /iva_loss [(_, _).1]/= [(_, a).1]/=; case: (_ && _); last by [].
apply: (f_equal (fun q => Some q)); rewrite /gain_shift sep_gain.
suff -> : \sum_s meanR (fun t => iva_gauss (gV a) (gX (sep X W)) s t) = \sum_s meanR (fun t => iva_gauss a (sep X W) s t) + gain_shift.
  by rewrite addrAC.
rewrite /gain_shift -big_split; apply: eq_bigr => s _; rewrite [RHS]/= -meanRD; apply: eq_meanR => t.
rewrite [LHS]mxE [X in _ = X + _]mxE.
have -> : (norms (gX (sep X W)) s t ^ 2 = cabs (g t) ^+ 2 * norms (sep X W) s t ^ 2)%coqR.
  rewrite !mxE.
  have sq (u : 'I_F -> R) : (R_sqrt.sqrt (\sum_i u i ^+ 2)%R ^ 2 = (\sum_i u i ^+ 2)%R)%coqR.
    apply: pow2_sqrt; apply: sumR_ge0 => i _; rewrite -RpowE; exact: pow2_ge_0.
  rewrite !sq RmulE mulr_sumr; apply: eq_bigr => i _; by rewrite mxE cabsM exprMn.
rewrite mxE; have h := gg t; have h' := a0 s t; move: (cabs (g t) ^+ 2) (a s t) h h' => x y h h'; toR.
rewrite ln_mult //; Rf; lra.
Qed.
Lemma restored_gain S (f : S -> filt) X r (o : option (S * seq R)) : restored (gX X) r f o = omap (fun p => (gX p.1, p.2)) (restored X r f o).
Proof.
case: o => [[s ls]|]; last by [].
rewrite /restored; suff -> : restore_f (gX X) r (f s) = omap gX (restore_f X r (f s)) by case: restore_f.
rewrite /restore_f /all_bins.
have E i : omap fst (apply_pb (gX X i) (f s i) r) = omap (fun M : 'M[Cx]_(n, T) => \matrix_(m, t) (g t * M m t)) (omap fst (apply_pb (X i) (f s i) r)).
  rewrite /apply_pb; case: pb_filter => [V|]; last by [].
  apply: (f_equal (fun q => Some q)) => /=; apply/matrixP => m t; rewrite !mxE mulr_sumr; apply: eq_bigr => j _.
  by rewrite mxE mulrCA.
rewrite (eq_forallb (P2 := fun i => isSome (omap fst (apply_pb (X i) (f s i) r)))); last first.
  by move=> i; rewrite E; case: (omap fst _).
case hs: [forall i, _]; last by [].
apply: (f_equal (fun q => Some q)); apply: functional_extensionality => i; rewrite E.
by have := forallP hs i; rewrite /gX; case: (omap fst _).
Qed.
(** C90: GradGaussIVA and NaturalGradGaussIVA find the same filters whatever the gains of single
    frames; the output carries the gains and the losses after the first move by a constant *)
Theorem C90_frame_gain X k W a W' a' l ls : gauss_iva_run d holonomic eta X k.+1 (W, a) = Some ((W', a'), l :: ls) ->
  exists l', gauss_iva_run d holonomic eta (gX X) k.+1 (W, a) = Some ((W', gV a'), l' :: [seq x + gain_shift | x <- ls]).
Proof.
rewrite /gauss_iva_run /=.
case el: (gauss_iva_loss X (W, a)) => [l0|]; last by [].
have [l' ->] : exists l', gauss_iva_loss (gX X) (W, a) = Some l'.
  move: el; rewrite /gauss_iva_loss /iva_loss; case: [forall s, _]; last by [].
  by case: (_ && _) => // _; eexists.
rewrite (gauss_once_gain X W a a); case: (gauss_iva_once _ _ _ X (W, a)) => [s1|]; last by [].
rewrite [omap _ (Some s1)]/=.
have R := @recorded_shift _ _ (fun s : filt * 'M[R]_(n, T) => (s.1, gV s.2)) (gauss_iva_once d holonomic eta X) (gauss_iva_once d holonomic eta (gX X))
  (gauss_iva_loss X) (gauss_iva_loss (gX X)) gain_shift _ _ k s1.
rewrite R.
- case: recorded => [[s2 ls2]|]; last by [].
  by rewrite /= => -[-> _ ->]; exists l'.
- by move=> [V v]; exact: gauss_once_gain.
- by move=> [V v]; exact: gauss_loss_gain.
Qed.
Theorem C90_frame_gain_call X k r W Y l ls : gauss_iva_call d holonomic eta X r k.+1 W = Some (Y, l :: ls) ->
  exists l', gauss_iva_call d holonomic eta (gX X) r k.+1 W = Some (gX Y, l' :: [seq x + gain_shift | x <- ls]).
Proof.
rewrite /gauss_iva_call restored_gain.
case e: (gauss_iva_run _ _ _ _ _ _) => [[[W' a'] ls']|]; last by [].
rewrite /restored [fst _]/=; case eR: (restore_f X r W') => [Y'|]; last by [].
move=> -[<- els]; move: e; rewrite els => /C90_frame_gain [l' ->].
by exists l'; rewrite /= eR.
Qed.
End FrameGain.

Section Silence.
Variables (F n T : nat) (fl : R -> R) (d : descent) (holonomic : bool) (eta : R).
Notation spec := ('I_F -> 'M[Cx]_(n, T)).
Notation filt := ('I_F -> 'M[Cx]_n).
(** C90: one silent frame makes every run of GradGaussIVA and NaturalGradGaussIVA fail at its first
    update, whatever the [flooring_fn]: the variance is not floored *)
Theorem C90_silent_frame (X : spec) k W a (t : 'I_T) : (0 < n)%N -> (forall i m, X i m t = 0) ->
  gauss_iva_run d holonomic eta X k.+1 (W, a) = None.
Proof.
move=> n0 X0; rewrite /gauss_iva_run /=; case: (gauss_iva_loss _ _) => [l|//].
suff -> : gauss_iva_once d holonomic eta X (W, a) = None by [].
rewrite /gauss_iva_once; case: ifP => // /andP [_ /forallP/(_ (Ordinal n0))/forallP/(_ t)].
rewrite mxE /meanR big1 ?mulr0 ?eqxx // => i _.
suff -> : sep X (W, a).1 i (Ordinal n0) t = 0 by rewrite cabs0 expr0n.
by rewrite mxE big1 // => m _; rewrite X0 mulr0.
Qed.
(** C90: with a positive flooring function the updates of NaturalGradLaplaceIVA and
    NaturalGradLaplaceFDICA never fail, silent frames and singular filters included *)
Theorem C90_natural_defined (X : spec) k W : (0 < T)%N -> (forall x, fl x != 0) ->
  (exists W', iterate (laplace_iva_once fl Natural holonomic eta X) k W = Some W') /\
  (exists W', iterate (laplace_fdica_once fl Natural holonomic eta X) k W = Some W').
Proof.
move=> T0 fl0; split.
- elim: k W => [|k IH] W; first by exists W.
  cbn [iterate]; rewrite {1}/laplace_iva_once.
  have -> : [forall s, [forall t, fl (norms (sep X W) s t) != 0]] by apply/forallP => s; apply/forallP => t.
  by rewrite /descend /natural_step /has_frames -lt0n T0; exact: IH.
- elim: k W => [|k IH] W; first by exists W.
  cbn [iterate]; rewrite {1}/laplace_fdica_once.
  have -> : [forall i, [forall s, [forall t, fl (cabs (sep X W i s t)) != 0]]] by apply/forallP => i; apply/forallP => s; apply/forallP => t.
  by rewrite /descend /natural_step /has_frames -lt0n T0; exact: IH.
Qed.
End Silence.

(** ** The hypotheses are met *)
Section Instance.
(** two microphones and sources, one bin, two frames: two complex tones *)
Definition Xe : 'I_1 -> 'M[Cx]_(2, 2) := fun _ => \matrix_(m, t) (if (m == 0) && (t == 0) then 1%:R else if (m == 1) && (t == 1) then 2%:R else 3%:R).
Definition fle (x : R) : R := Rmax x (/ 2).
Lemma fle0 x : fle x != 0.
Proof. by apply/eqP; have := Rmax_r x (/ 2); rewrite /fle; toR; lra. Qed.
(** every update of a natural gradient run on it is defined, and swapping the microphones swaps
    the separated signals *)
Example C90_instance k : (exists W', iterate (laplace_iva_once fle Natural true (/ 2)%coqR Xe) k (@eyes 1 2) = Some W') /\
  (laplace_iva_call fle Natural true (/ 2)%coqR (rY (tperm 0 1) 1%g 1%g Xe) 0 k (@eyes 1 2) =
  omap (fun o => (rY (tperm 0 1) 1%g 1%g o.1, o.2)) (laplace_iva_call fle Natural true (/ 2)%coqR Xe 1 k (@eyes 1 2))).
Proof.
split; first by have [] := C90_natural_defined true (/ 2)%coqR Xe k (@eyes 1 2) (isT : (0 < 2)%N) fle0.
by rewrite C90_laplace_channels tpermL.
Qed.
Lemma Xe_conj i m t : (Xe i m t)^* = Xe i m t.
Proof. by rewrite mxE; case: (_ && _); [|case: (_ && _)]; rewrite conjC_nat. Qed.
Lemma Xe_neq0 i m t : Xe i m t != 0.
Proof. by rewrite mxE; case: (_ && _); [|case: (_ && _)]; rewrite pnatr_eq0. Qed.
Lemma sep_e : sep Xe (@eyes 1 2) = Xe.
Proof. by apply: functional_extensionality => i; rewrite /sep /eyes mul1mx. Qed.
Lemma ve s t : c (source_variance Xe s t) = Xe 0 s t * Xe 0 s t.
Proof. by rewrite mxE /meanR big_ord_recl big_ord0 addr0 invr1 mul1r cabs_sqr Xe_conj. Qed.
Lemma ve_gt0 s t : (0 < source_variance Xe s t)%coqR.
Proof.
rewrite mxE /meanR big_ord_recl big_ord0 addr0 invr1 mul1r -RpowE; apply: pow_lt; apply: cabs_gt0; exact: Xe_neq0.
Qed.
Definition We : 'I_1 -> 'M[Cx]_2 := fun i => 1%:M - c (/ 2)%coqR *: directions conjC (@iva_gauss_score 1 2 2 (source_variance Xe)) true Xe (@eyes 1 2) i.
Lemma We_unit i : We i \in unitmx.
Proof.
have dE a b : directions conjC (@iva_gauss_score 1 2 2 (source_variance Xe)) true Xe (@eyes 1 2) i a b
    = (2%:R)^-1 * (Xe 0 b 0 / Xe 0 a 0 + Xe 0 b 1 / Xe 0 a 1) - (a == b)%:R.
  rewrite /directions /direction sep_e.
  have sE x : iva_gauss_score (source_variance Xe) Xe i a x = (Xe 0 a x)^-1.
    have z := Xe_neq0 0 a x; rewrite [LHS]mxE ve (ord1 i); move: (Xe 0 a x) z => y z; by field.
  have pE : PhiY conjC (iva_gauss_score (source_variance Xe) Xe i) (Xe i) a b = 2%:R^-1 * (Xe 0 b 0 / Xe 0 a 0 + Xe 0 b 1 / Xe 0 a 1).
    by rewrite [LHS]mxE sum2 !sE (ord1 i) !Xe_conj ![_^-1 * Xe _ _ _]mulrC.
  by rewrite [LHS]mxE pE [X in _ + X]mxE [in X in _ + X]mxE.
have c10 : c (/ 2)%coqR = 2%:R^-1 by rewrite cRV ?cR2; [|lra].
have wE a b : We i a b = (a == b)%:R - 2%:R^-1 * (2%:R^-1 * (Xe 0 b 0 / Xe 0 a 0 + Xe 0 b 1 / Xe 0 a 1) - (a == b)%:R).
  by rewrite /We c10 mxE [X in X + _]mxE [X in _ + X]mxE [in X in _ + X]mxE dE.
rewrite unitmxE det2 unitfE !wE !mxE /=.
have nz (x : Cx) : x = 167%:R / 288%:R -> x != 0 by move=> ->; rewrite mulf_neq0 ?invr_eq0 ?pnatr_eq0.
apply: nz; rewrite subr0 !sub0r; by field; rewrite ?pnatr_eq0.
Qed.
(** a run of GradGaussIVA and NaturalGradGaussIVA on it is defined, and it is not silent *)
Example C90_gauss_instance d : exists s l ls, gauss_iva_run d true (/ 2)%coqR Xe 1 (@eyes 1 2, const_mx 1%coqR) = Some (s, l :: ls).
Proof.
have u1 : [forall i : 'I_1, @eyes 1 2 i \in unitmx] by apply/forallP => i; exact: unitmx1.
have u2 : [forall i, We i \in unitmx] by apply/forallP => i; exact: We_unit.
have o1 : [forall s : 'I_2, [forall t : 'I_2, Rltb 0 ((const_mx 1%coqR : 'M[R]_2) s t)]].
  by apply/forallP => s; apply/forallP => t; apply/RltbP; rewrite mxE; lra.
have o2 : [forall s, [forall t, Rltb 0 (source_variance Xe s t)]].
  by apply/forallP => s; apply/forallP => t; apply/RltbP; exact: ve_gt0.
have o3 : [forall s, [forall t, source_variance Xe s t != 0]].
  by apply/forallP => s; apply/forallP => t; apply/eqP => h; have := ve_gt0 s t; rewrite h; toR; lra.
have dE : descend d true (/ 2)%coqR (@iva_gauss_score 1 2 2 (source_variance Xe)) Xe (@eyes 1 2) = Some We.
  rewrite /descend; case: d; rewrite /gradient_step /natural_step /has_frames ?u1 /=; apply: (f_equal (fun q => Some q)); apply: functional_extensionality => i.
    by rewrite /We /eyes invmx1 trmx1 map_mx1 mulmx1.
  by rewrite /We /eyes mulmx1.
rewrite /gauss_iva_run /recorded /gauss_iva_loss /gauss_iva_once [(_, const_mx _).1]/= [(_, const_mx _).2]/= o1 sep_e o3 dE.
rewrite /iva_loss u1 [_ && _]/=; cbv iota beta; cbn [fst snd]; rewrite [omap _ _]/=; cbv iota beta; cbn [fst snd].
by rewrite o2 u2 /=; do 3 eexists.
Qed.
End Instance.
