(** C45: one iteration of auxiliary-function-based IVA never increases the recorded loss. *)
From Coq Require Import Reals Lra Psatz.
From mathcomp Require Import all_ssreflect all_algebra.
From mathcomp Require Import ring.
From Verif Require Import RStruct MxC CxR NpLin RealLemmas SuperGauss Eigh EighProofs.
From Verif Require Import SpatialIP SpatialIPProofs Prop_IP1 SpatialISS SpatialISSProofs Prop_ISS1.
From Verif Require Import SpatialIP2 SpatialIP2Proofs Prop_IP2 SpatialISS2 SpatialISS2Proofs Prop_ISS2.
From Verif Require Import Scale ScaleProofs AuxIVA AuxIVAProofs.
Import Order.TTheory GRing.Theory Num.Theory.
Set Implicit Arguments.
Unset Strict Implicit.
Unset Printing Implicit Defensive.
Local Open Scope ring_scope.

Section C45.
Variables (F N T : nat).
Notation spec := ('I_F -> 'M[Cx]_(N, T)).
Notation filt := ('I_F -> 'M[Cx]_N).
Notation fn := ('I_N -> 'I_T -> R -> R).
Implicit Types (v : 'M[R]_(N, T)) (X Y : spec) (W : filt) (G dG : fn).

(** the weights where the floor is inactive *)
Lemma weightE fl dG (r : 'M[R]_(N, T)) n t : fl (2 * r n t)%coqR = (2 * r n t)%coqR ->
  weight fl dG r n t = (dG n t (r n t) / (2 * r n t))%coqR.
Proof. by move=> h; rewrite mxE h. Qed.

Definition sg G dG := forall n t, super_gaussian (G n t) (dG n t).

Lemma weight_gt0 fl G dG (r : 'M[R]_(N, T)) n t : sg G dG -> (0 < r n t)%coqR ->
  fl (2 * r n t)%coqR = (2 * r n t)%coqR -> (0 < weight fl dG r n t)%coqR.
Proof.
move=> hG r0 e; rewrite weightE //; have [_ [P _]] := hG n t.
by apply: Rdiv_lt_0_compat; [exact: P|lra].
Qed.
Lemma weight_major fl G dG Y Y' n t : sg G dG -> (0 < norms Y n t)%coqR ->
  fl (2 * norms Y n t)%coqR = (2 * norms Y n t)%coqR ->
  (G n t (norms Y' n t) <= G n t (norms Y n t) +
    weight fl dG (norms Y) n t * (norms Y' n t ^ 2 - norms Y n t ^ 2) + 0)%coqR.
Proof.
move=> hG r0 e; rewrite weightE //.
have := @super_gaussian_majoriser _ _ _ (hG n t) r0 _ (norms_ge0 Y' n t); lra.
Qed.
Lemma no_gap : \sum_(n < N) meanR (fun _ : 'I_T => 0%coqR) = 0.
Proof. by rewrite big1 // => n _; rewrite /meanR big1 ?mulr0. Qed.
Lemma floor_inactive eps (x : R) : (eps <= 2 * x)%coqR -> max_flooring eps (2 * x)%coqR = (2 * x)%coqR.
Proof. by move=> h; rewrite /max_flooring Rmax_left. Qed.
Lemma finite_weightT fl (r : 'M[R]_(N, T)) n :
  (forall t, (0 < fl (2 * r n t))%coqR) -> finite_weight fl r n.
Proof. by move=> h; apply/forallP => t; apply/eqP; have := h t; toR; lra. Qed.

(** ** IP1 *)
Lemma ip1_generic fl G dG (gap : fn) X W : (0 < T)%N ->
  (forall i, W i \in unitmx) -> (forall i, row_free (X i)) ->
  (forall n, finite_weight fl (norms (separate_all X W)) n) ->
  (forall n t, (0 < weight fl dG (norms (separate_all X W)) n t)%coqR) ->
  (forall W' n t, (G n t (norms (separate_all X W') n t) <= G n t (norms (separate_all X W) n t) +
    weight fl dG (norms (separate_all X W)) n t *
     (norms (separate_all X W') n t ^ 2 - norms (separate_all X W) n t ^ 2) +
     gap n t (norms (separate_all X W) n t))%coqR) ->
  (forall (U : 'I_N -> 'M[Cx]_N) (V : 'M[Cx]_N), (forall n, pd (U n)) -> V \in unitmx ->
     exists V', [/\ ip1 fl U V = Some V', V' \in unitmx & (aux_cost U V' <= aux_cost U V)%coqR]) ->
  exists W' l l', [/\ update_once_ip1 fl dG X W = Some W', forall i, W' i \in unitmx,
    compute_loss G X W = Some l, compute_loss G X W' = Some l' &
    (l' <= l + (\sum_n meanR (fun t => gap n t (norms (separate_all X W) n t)))%R)%coqR].
Proof.
move=> T0 uW fX fin pos maj hip; rewrite /update_once_ip1 -lt0n T0 (introT forallP fin).
set phi := weight _ _ _ in pos maj *.
have [|W' e hW'] := @all_bins_ex F _ W (fun i => ip1 fl (wcov phi (X i)) (W i)) (fun i x =>
   x \in unitmx /\ (aux_cost (wcov phi (X i)) x <= aux_cost (wcov phi (X i)) (W i))%coqR).
  move=> i; have [V [eV uV cV]] := hip (wcov phi (X i)) _ (fun n => wcov_pd (pos n) (fX i)) (uW i).
  by exists V.
have uW' i : W' i \in unitmx by have [_ []] := hW' i.
exists W'; do 2 eexists; split; first by rewrite e.
- exact: uW'.
- exact: compute_lossE.
- exact: compute_lossE.
- apply: (majorise (maj W')) => i; have [_ [_]] := hW' i; by rewrite !aux_iss.
Qed.

Theorem C45_ip1 eps G dG X W : (0 < eps <= 1)%coqR -> (0 < T)%N -> sg G dG ->
  (forall i, W i \in unitmx) -> (forall i, row_free (X i)) ->
  (forall n t, (eps <= 2 * norms (separate_all X W) n t)%coqR) ->
  exists W' l l', [/\ update_once_ip1 (max_flooring eps) dG X W = Some W', forall i, W' i \in unitmx,
    compute_loss G X W = Some l, compute_loss G X W' = Some l' & (l' <= l)%coqR].
Proof.
move=> he T0 hG uW fX hn.
have r0 n t : (0 < norms (separate_all X W) n t)%coqR by have := hn n t; lra.
have fi n t := floor_inactive (hn n t).
have [||||] := @ip1_generic (max_flooring eps) G dG (fun _ _ _ => 0%coqR) X W T0 uW fX.
- by move=> n; apply: finite_weightT => t; rewrite fi; have := r0 n t; lra.
- by move=> n t; apply: weight_gt0 hG _ _.
- by move=> W' n t; apply: weight_major.
- move=> U V pU uV; have [W' e h] := C40_sweep_monotone he pU uV.
  have [|W2] := @C39_sweep _ (max_flooring eps) U V _ pU uV.
    by move=> x x0; apply: Rlt_le_trans (Rmax_l _ _).
  by rewrite e => -[<-] u2; exists W'.
- move=> W' [l [l' [e1 e2 e3 e4]]]; rewrite no_gap => h.
  by exists W', l, l'; split=> //; move: h; rewrite -R0E; lra.
Qed.

Theorem C45_ip1_no_flooring G dG X W : (0 < T)%N -> sg G dG ->
  (forall i, W i \in unitmx) -> (forall i, row_free (X i)) ->
  (forall n t, (0 < norms (separate_all X W) n t)%coqR) ->
  exists W' l l', [/\ update_once_ip1 identity_fl dG X W = Some W', forall i, W' i \in unitmx,
    compute_loss G X W = Some l, compute_loss G X W' = Some l' & (l' <= l)%coqR].
Proof.
move=> T0 hG uW fX r0.
have [||||] := @ip1_generic identity_fl G dG (fun _ _ _ => 0%coqR) X W T0 uW fX.
- by move=> n; apply: finite_weightT => t; rewrite /identity_fl; have := r0 n t; lra.
- by move=> n t; apply: weight_gt0 hG _ _.
- by move=> W' n t; apply: weight_major.
- move=> U V pU uV; have [W' e h] := C40_sweep_monotone_identity pU uV.
  have [|W2] := @C39_sweep _ identity_fl U V _ pU uV; first by [].
  by rewrite e => -[<-] u2; exists W'.
- move=> W' [l [l' [e1 e2 e3 e4]]]; rewrite no_gap => h.
  by exists W', l, l'; split=> //; move: h; rewrite -R0E; lra.
Qed.

(** AuxLaplaceIVA with the floor possibly active: the loss grows by at most
    [n_sources * eps / 2], whatever the signals. *)
Lemma laplace_weight_gt0 eps (r : 'M[R]_(N, T)) n t : (0 < eps)%coqR ->
  (0 < weight (max_flooring eps) (@d_laplace N T) r n t)%coqR.
Proof.
move=> e0; rewrite mxE; apply: Rdiv_lt_0_compat; first by rewrite /d_laplace; lra.
exact: Rlt_le_trans e0 (Rmax_r _ _).
Qed.
Lemma laplace_gap eps : (0 < T)%N ->
  \sum_(n < N) meanR (fun _ : 'I_T => (eps / 2)%coqR) = (INR N * eps / 2)%coqR.
Proof.
move=> T0; under eq_bigr do rewrite meanR_const //.
have h : (INR N * (eps / 2) = INR N * eps / 2)%coqR by Rfield.
by rewrite sumr_const card_ord -mulr_natl -RnatE -RmulE h.
Qed.
Theorem C45_laplace_ip1 eps X W : (0 < eps <= 1)%coqR -> (0 < T)%N ->
  (forall i, W i \in unitmx) -> (forall i, row_free (X i)) ->
  exists W' l l', [/\ update_once_ip1 (max_flooring eps) (@d_laplace N T) X W = Some W',
    forall i, W' i \in unitmx, compute_loss (@laplace N T) X W = Some l,
    compute_loss (@laplace N T) X W' = Some l' & (l' <= l + INR N * eps / 2)%coqR].
Proof.
move=> he T0 uW fX; rewrite -(laplace_gap eps T0).
apply: (@ip1_generic _ _ _ (fun _ _ _ => (eps / 2)%coqR)) => //.
- move=> n; apply: finite_weightT => t; apply: Rlt_le_trans (Rmax_r _ _); lra.
- by move=> n t; apply: laplace_weight_gt0; lra.
- move=> W' n t; rewrite [weight _ _ _ _ _]mxE /laplace /d_laplace /max_flooring.
  by apply: laplace_floor_gap; [lra|exact: norms_ge0].
- move=> U V pU uV; have [W' e h] := C40_sweep_monotone he pU uV.
  have [|W2] := @C39_sweep _ (max_flooring eps) U V _ pU uV.
    by move=> x x0; apply: Rlt_le_trans (Rmax_l _ _).
  by rewrite e => -[<-] u2; exists W'.
Qed.

(** ** ISS1 *)
Lemma iss1_generic eps G dG (gap : fn) X W Y : (0 < T)%N -> (0 < eps <= 1)%coqR ->
  (forall i, W i \in unitmx) -> (forall i, row_free (X i)) -> (forall i, Y i = W i *m X i) ->
  (forall n, finite_weight (max_flooring eps) (norms Y) n) ->
  (forall n t, (0 < weight (max_flooring eps) dG (norms Y) n t)%coqR) ->
  (forall Y' n t, (G n t (norms Y' n t) <= G n t (norms Y n t) +
    weight (max_flooring eps) dG (norms Y) n t * (norms Y' n t ^ 2 - norms Y n t ^ 2) +
     gap n t (norms Y n t))%coqR) ->
  exists Y' W' l l', [/\ update_once_iss1 (max_flooring eps) dG Y = Some Y',
    forall i, W' i \in unitmx /\ Y' i = W' i *m X i,
    compute_loss_output G X Y = Some l, compute_loss_output G X Y' = Some l' &
    (l' <= l + (\sum_n meanR (fun t => gap n t (norms Y n t)))%R)%coqR].
Proof.
move=> T0 he uW fX eY fin pos maj; rewrite /update_once_iss1 (introT forallP fin).
set phi := weight _ _ _ in pos maj *.
have step i : exists2 x, iss1 (max_flooring eps) phi (Y i) = Some x & exists V : 'M[Cx]_N,
   [/\ x = V *m X i, V \in unitmx & (iss_cost phi x V <= iss_cost phi (Y i) (W i))%coqR].
  have [V [e uV cV]] := @C43_sweep_monotone N T eps phi (W i) (X i) T0 (fun k t => Rlt_le _ _ (pos k t)) he (uW i).
  by rewrite eY e; eexists; [|exists V].
have [Y' eY' hY'] := @all_bins_ex F _ Y _ _ step.
have [W' hW'] : exists W' : filt, forall i, [/\ Y' i = W' i *m X i, W' i \in unitmx &
    (iss_cost phi (Y' i) (W' i) <= iss_cost phi (Y i) (W i))%coqR].
  apply: (@fin_all_exists _ (fun _ => 'M[Cx]_N) (fun i V => [/\ Y' i = V *m X i, V \in unitmx &
    (iss_cost phi (Y' i) V <= iss_cost phi (Y i) (W i))%coqR])) => i.
  by have [_] := hY' i.
have uW' i : W' i \in unitmx by have [] := hW' i.
have eW' i : Y' i = W' i *m X i by have [] := hW' i.
exists Y', W'; do 2 eexists; split; first by [].
- by move=> i.
- exact: (compute_loss_outputE _ T0 uW fX eY).
- exact: (compute_loss_outputE _ T0 uW' fX eW').
- by apply: (majorise (maj Y')) => i; have [] := hW' i.
Qed.

Theorem C45_iss1 eps G dG X W Y : (0 < eps <= 1)%coqR -> (0 < T)%N -> sg G dG ->
  (forall i, W i \in unitmx) -> (forall i, row_free (X i)) -> (forall i, Y i = W i *m X i) ->
  (forall n t, (eps <= 2 * norms Y n t)%coqR) ->
  exists Y' W' l l', [/\ update_once_iss1 (max_flooring eps) dG Y = Some Y',
    forall i, W' i \in unitmx /\ Y' i = W' i *m X i,
    compute_loss_output G X Y = Some l, compute_loss_output G X Y' = Some l' & (l' <= l)%coqR].
Proof.
move=> he T0 hG uW fX eY hn.
have r0 n t : (0 < norms Y n t)%coqR by have := hn n t; lra.
have fi n t := floor_inactive (hn n t).
have [|||] := @iss1_generic eps G dG (fun _ _ _ => 0%coqR) X W Y T0 he uW fX eY.
- by move=> n; apply: finite_weightT => t; rewrite fi; have := r0 n t; lra.
- by move=> n t; apply: weight_gt0 hG _ _.
- by move=> Y' n t; apply: weight_major.
- move=> Y' [W' [l [l' [e1 e2 e3 e4]]]]; rewrite no_gap => h.
  by exists Y', W', l, l'; split=> //; move: h; rewrite -R0E; lra.
Qed.

Theorem C45_laplace_iss1 eps X W Y : (0 < eps <= 1)%coqR -> (0 < T)%N ->
  (forall i, W i \in unitmx) -> (forall i, row_free (X i)) -> (forall i, Y i = W i *m X i) ->
  exists Y' W' l l', [/\ update_once_iss1 (max_flooring eps) (@d_laplace N T) Y = Some Y',
    forall i, W' i \in unitmx /\ Y' i = W' i *m X i,
    compute_loss_output (@laplace N T) X Y = Some l, compute_loss_output (@laplace N T) X Y' = Some l' &
    (l' <= l + INR N * eps / 2)%coqR].
Proof.
move=> he T0 uW fX eY; rewrite -(laplace_gap eps T0).
apply: (@iss1_generic _ _ _ (fun _ _ _ => (eps / 2)%coqR) _ _ _ T0 he uW fX eY).
- move=> n; apply: finite_weightT => t; apply: Rlt_le_trans (Rmax_r _ _); lra.
- by move=> n t; apply: laplace_weight_gt0; lra.
- move=> Y' n t; rewrite [weight _ _ _ _ _]mxE /laplace /d_laplace /max_flooring.
  by apply: laplace_floor_gap; [lra|exact: norms_ge0].
Qed.

(** ** IP2 and ISS2, without flooring (see C41/C44 for the floor of the pairwise updates) *)
Section Pairwise.
Variables (eig : eigh_t) (chol : chol_t).
Hypotheses (He : eigh_contract eig) (Hc : chol_contract chol).

Theorem C45_ip2_pair G dG X W (m n : 'I_N) : (0 < T)%N -> sg G dG -> m != n ->
  (forall i, W i \in unitmx) -> (forall i, row_free (X i)) ->
  (forall t, (0 < norms (separate_all X W) m t)%coqR /\ (0 < norms (separate_all X W) n t)%coqR) ->
  exists W' l l', [/\ iva_ip2_step identity_fl eig chol dG X W (m, n) = Some W',
    forall i, W' i \in unitmx,
    compute_loss G X W = Some l, compute_loss G X W' = Some l' & (l' <= l)%coqR].
Proof.
move=> T0 hG mn uW fX r0.
have fin k : (k == m) || (k == n) -> finite_weight identity_fl (norms (separate_all X W)) k.
  by case/orP => /eqP->; apply: finite_weightT => t; have [] := r0 t; rewrite /identity_fl; lra.
rewrite /iva_ip2_step -lt0n T0 /= !fin ?eqxx ?orbT //=.
set phi := weight _ _ _.
have pos k t : (k == m) || (k == n) -> (0 < phi k t)%coqR.
  by case/orP => /eqP->; have [? ?] := r0 t; apply: weight_gt0 hG _ _.
have step i : exists2 x, ip2_step eig chol identity_fl (wcov phi (X i)) (W i) (m, n) = Some x &
   [/\ x \in unitmx, forall k, k != m -> k != n -> row k x = row k (W i) &
    (aux_cost (wcov phi (X i)) x <= aux_cost (wcov phi (X i)) (W i))%coqR].
  have pm : pd (wcov phi (X i) m) by apply: wcov_pd => // t; apply: pos; rewrite eqxx.
  have pn : pd (wcov phi (X i) n) by apply: wcov_pd => // t; apply: pos; rewrite eqxx orbT.
  have [W1 [e1 k1 _ _ u1]] := C41_normal_equations He Hc (uW i) mn pm pn.
  have [W2 e2 c2] := C41_pair_global_minimum He Hc (uW i) mn pm pn (uW i) (fun _ _ _ => erefl).
  by rewrite e1 in e2; case: e2 => e2; subst W2; exists W1.
have [W' e hW'] := @all_bins_ex F _ W _ _ step.
have uW' i : W' i \in unitmx by have [_ []] := hW' i.
exists W'; do 2 eexists; split; first by [].
- exact: uW'.
- exact: compute_lossE.
- exact: compute_lossE.
- have := @majorise F N T G phi (fun _ _ _ => 0%coqR) (separate_all X W) (separate_all X W') W W'.
  rewrite no_gap => h; rewrite -[X in (_ <= X)%coqR]Rplus_0_r; apply: h => [k t|i].
    have [km|km] := boolP ((k == m) || (k == n)).
      by apply: weight_major => //; case/orP: km => /eqP->; have [] := r0 t.
    have -> : norms (separate_all X W') k t = norms (separate_all X W) k t.
      apply: norms_row => i; rewrite !row_mul; congr (_ *m _).
      by have [_ [_ h _]] := hW' i; move: km; rewrite negb_or => /andP[? ?]; apply: h.
    by lra.
  by have [_ [_ _]] := hW' i; rewrite !aux_iss.
Qed.

Theorem C45_ip2 G dG X W ps W' : (0 < T)%N -> sg G dG -> all (fun p => p.1 != p.2) ps ->
  (forall i, W i \in unitmx) -> (forall i, row_free (X i)) ->
  update_once_ip2 identity_fl eig chol dG X ps W = Some W' ->
  (forall i, W' i \in unitmx) /\
  exists l l', [/\ compute_loss G X W = Some l, compute_loss G X W' = Some l' & (l' <= l)%coqR].
Proof.
move=> T0 hG ap uW fX; elim: ps W uW ap => [|[m n] ps IH] W uW /=.
  move=> _ [<-]; split=> //; do 2 eexists.
  by rewrite (compute_lossE G X T0 uW); split=> //; apply: Rle_refl.
case/andP => mn ap; rewrite /update_once_ip2 /=.
case e: (iva_ip2_step _ _ _ _ _ _) => [V|]; last by elim: ps {IH ap}.
move=> eW'.
have r0 t : (0 < norms (separate_all X W) m t)%coqR /\ (0 < norms (separate_all X W) n t)%coqR.
  move: e; rewrite /iva_ip2_step; case: ifP => // /and3P[_ /forallP/(_ t)/eqP h1 /forallP/(_ t)/eqP h2] _.
  have rp k : (2 * norms (separate_all X W) k t)%coqR <> 0 -> (0 < norms (separate_all X W) k t)%coqR.
    by move=> h; have [//|e] := norms_ge0 (separate_all X W) k t; case: h; rewrite -e Rmult_0_r.
  by split; apply: rp.
have [V1 [l [l' [e1 uV el el' le]]]] := C45_ip2_pair T0 hG mn uW fX r0.
rewrite e in e1; case: e1 => e1; subst V1.
have [uW' [l1 [l2 [E1 E2 le2]]]] := IH V uV ap eW'.
split=> //; exists l, l2; split=> //.
by move: E1; rewrite el' => -[h]; move: le2; rewrite -h; lra.
Qed.

Lemma to_rowsE (A : ringType) (Y : 'M[A]_(N, T)) : to_rows Y = rowsof Y.
Proof. by []. Qed.
Lemma of_rowsK (Y : 'M[Cx]_(N, T)) : @of_rows N T (rowsof Y) = Y.
Proof. by apply/matrixP => i j; rewrite mxE nth_rowsof mxE. Qed.

Theorem C45_iss2 G dG X W Y (ps : seq ('I_N * 'I_N)) : (0 < T)%N -> sg G dG ->
  all (fun p => p.1 != p.2) ps ->
  (forall i, W i \in unitmx) -> (forall i, row_free (X i)) -> (forall i, Y i = W i *m X i) ->
  (forall n t, (0 < norms Y n t)%coqR) ->
  exists Y' W' l l',
   [/\ update_once_iss2 identity_fl eig chol dG [seq (val p.1, val p.2) | p <- ps] Y = Some Y',
    forall i, W' i \in unitmx /\ Y' i = W' i *m X i,
    compute_loss_output G X Y = Some l, compute_loss_output G X Y' = Some l' & (l' <= l)%coqR].
Proof.
move=> T0 hG ap uW fX eY r0.
have fin n : finite_weight identity_fl (norms Y) n.
  by apply: finite_weightT => t; rewrite /identity_fl; have := r0 n t; lra.
rewrite /update_once_iss2 (introT forallP fin).
set phi := weight _ _ _.
have pos k t : (0 < phi k t)%coqR by apply: weight_gt0 hG _ _.
have step i : exists2 x, omap (@of_rows N T)
     (iss2 eig chol identity_fl (to_rows phi) [seq (val p.1, val p.2) | p <- ps] (to_rows (Y i))) = Some x &
   exists V : 'M[Cx]_N, [/\ x = V *m X i, V \in unitmx & (iss_cost phi x V <= iss_cost phi (Y i) (W i))%coqR].
  have [V [e uV cV]] := C44_sweep_monotone He Hc T0 pos (fX i) (uW i) ap.
  by rewrite !to_rowsE eY e /= of_rowsK; eexists; [|exists V].
have [Y' eY' hY'] := @all_bins_ex F _ Y _ _ step.
have [W' hW'] : exists W' : filt, forall i, [/\ Y' i = W' i *m X i, W' i \in unitmx &
    (iss_cost phi (Y' i) (W' i) <= iss_cost phi (Y i) (W i))%coqR].
  apply: (@fin_all_exists _ (fun _ => 'M[Cx]_N) (fun i V => [/\ Y' i = V *m X i, V \in unitmx &
    (iss_cost phi (Y' i) V <= iss_cost phi (Y i) (W i))%coqR])) => i.
  by have [_] := hY' i.
have uW' i : W' i \in unitmx by have [] := hW' i.
have eW' i : Y' i = W' i *m X i by have [] := hW' i.
exists Y', W'; do 2 eexists; split; first by [].
- by move=> i.
- exact: (compute_loss_outputE _ T0 uW fX eY).
- exact: (compute_loss_outputE _ T0 uW' fX eW').
- have := @majorise F N T G phi (fun _ _ _ => 0%coqR) Y Y' W W'.
  rewrite no_gap => h; rewrite -[X in (_ <= X)%coqR]Rplus_0_r; apply: h => [k t|i].
    by apply: weight_major.
  by have [] := hW' i.
Qed.
End Pairwise.

(** ** AuxGaussIVA: the variance update and the spatial update together *)
Lemma source_varianceE Y n t : (0 < F)%N -> source_variance Y n t = (norms Y n t ^ 2 / INR F)%coqR.
Proof.
move=> F0; rewrite mxE norms_sqr /meanR RdivE ?RnatE 1?mulrC //.
by apply/eqP; rewrite pnatr_eq0 -lt0n.
Qed.
Lemma gauss_sg (v : 'M[R]_(N, T)) : (forall n t, (0 < v n t)%coqR) -> sg (@gauss F N T v) (d_gauss v).
Proof. by move=> v0 n t; apply: gauss_super_gaussian. Qed.

Lemma gauss_variance v X W : (0 < T)%N -> (forall i, W i \in unitmx) ->
  (forall n t, (0 < v n t)%coqR) -> (forall n t, (0 < norms (separate_all X W) n t)%coqR) ->
  let v' := source_variance (separate_all X W) in
  (forall n t, (0 < v' n t)%coqR) /\
  exists l l', [/\ compute_loss (@gauss F N T v) X W = Some l,
    compute_loss (@gauss F N T v') X W = Some l' & (l' <= l)%coqR].
Proof.
move=> T0 uW v0 r0 v'.
have hv n t : (0 < norms (separate_all X W) n t)%coqR -> (0 < F)%N.
  move=> h; rewrite lt0n; apply/eqP => F0; move: h; rewrite mxE big1 ?sqrt_0 => [/Rlt_irrefl //|i _].
  by move: (ltn_ord i); rewrite {2}F0.
have v'0 n t : (0 < v' n t)%coqR.
  have F0 := hv n t (r0 n t); rewrite source_varianceE //.
  apply: Rdiv_lt_0_compat; first by apply: pow_lt.
  by apply: lt_0_INR; apply/ssrnat.ltP.
split=> //; do 2 eexists; split; [exact: compute_lossE|exact: compute_lossE|].
rewrite /lossY; apply: Rplus_le_compat_r; apply: sumR_le => n _; apply: meanR_le => t.
have F0 := hv n t (r0 n t); rewrite /gauss /v' source_varianceE //.
apply: variance_opt => //; last by apply: pow_lt.
by apply: lt_0_INR; apply/ssrnat.ltP.
Qed.

Theorem C45_gauss_ip1 eps v X W : (0 < eps <= 1)%coqR -> (0 < T)%N ->
  (forall i, W i \in unitmx) -> (forall i, row_free (X i)) ->
  (forall n t, (0 < v n t)%coqR) -> (forall n t, (eps <= 2 * norms (separate_all X W) n t)%coqR) ->
  exists W' v' l l', [/\ gauss_update_ip1 (max_flooring eps) X W = Some (W', v'),
    (forall i, W' i \in unitmx) /\ (forall n t, (0 < v' n t)%coqR),
    compute_loss (@gauss F N T v) X W = Some l, compute_loss (@gauss F N T v') X W' = Some l' & (l' <= l)%coqR].
Proof.
move=> he T0 uW fX v0 hn.
have r0 n t : (0 < norms (separate_all X W) n t)%coqR by have := hn n t; lra.
have [v'0 [l [l1 [e e1 le1]]]] := gauss_variance T0 uW v0 r0.
set v' := source_variance _ in v'0 e1.
have [W' [l1' [l' [eW uW' e1' e' le']]]] := C45_ip1 he T0 (gauss_sg v'0) uW fX hn.
exists W', v', l, l'; split=> //.
  rewrite /gauss_update_ip1 -/v' eW; case: ifP => //= /negP[].
  by apply/forallP => n; apply/forallP => t; apply/eqP; have := v'0 n t; toR; lra.
by rewrite e1 in e1'; case: e1' le' => <-; lra.
Qed.
Lemma separateE X W Y : (forall i, Y i = W i *m X i) -> norms (separate_all X W) = norms Y.
Proof.
move=> h; apply/matrixP => n t; rewrite !mxE; congr R_sqrt.sqrt.
by apply: eq_bigr => i _; rewrite h.
Qed.
Theorem C45_gauss_iss1 eps v X W Y : (0 < eps <= 1)%coqR -> (0 < T)%N ->
  (forall i, W i \in unitmx) -> (forall i, row_free (X i)) -> (forall i, Y i = W i *m X i) ->
  (forall n t, (0 < v n t)%coqR) -> (forall n t, (eps <= 2 * norms Y n t)%coqR) ->
  exists Y' W' v' l l', [/\ gauss_update_iss1 (max_flooring eps) Y = Some (Y', v'),
    (forall i, W' i \in unitmx /\ Y' i = W' i *m X i) /\ (forall n t, (0 < v' n t)%coqR),
    compute_loss_output (@gauss F N T v) X Y = Some l,
    compute_loss_output (@gauss F N T v') X Y' = Some l' & (l' <= l)%coqR].
Proof.
move=> he T0 uW fX eY v0 hn; have sE := separateE eY.
have r0 n t : (0 < norms (separate_all X W) n t)%coqR by have := hn n t; rewrite sE; lra.
have [v'0 [l [l1 [e e1 le1]]]] := gauss_variance T0 uW v0 r0.
have svE : source_variance (separate_all X W) = source_variance Y.
  by apply/matrixP => n t; rewrite !mxE; apply: eq_meanR => i; rewrite eY.
rewrite svE in v'0 e1; set v' := source_variance Y in v'0 e1.
have [Y' [W' [l1' [l' [eW uW' e1' e' le']]]]] := C45_iss1 he T0 (gauss_sg v'0) uW fX eY hn.
exists Y', W', v', l, l'; split=> //.
- rewrite /gauss_update_iss1 -/v' eW; case: ifP => //= /negP[].
  by apply/forallP => n; apply/forallP => t; apply/eqP; have := v'0 n t; toR; lra.
- move: e; rewrite (compute_lossE _ _ T0 uW) (compute_loss_outputE _ T0 uW fX eY) => -[<-].
  by rewrite /lossY sE.
move: e1 e1'; rewrite (compute_lossE _ _ T0 uW) (compute_loss_outputE _ T0 uW fX eY) /lossY sE.
by move=> -[h1] [h2]; move: le' le1; rewrite -h1 -h2; lra.
Qed.
End C45.

