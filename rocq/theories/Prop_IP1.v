(** Properties C39, C40: update_by_ip1
    (/repo/ssspy/bss/_update_spatial_model.py:17-78). *)
From Coq Require Import Reals Lra.
From mathcomp Require Import all_ssreflect all_algebra.
From Verif Require Import RStruct MxC CxR NpLin RealLemmas SpatialIP SpatialIPProofs.
Import Order.TTheory GRing.Theory Num.Theory.
Set Implicit Arguments.
Unset Strict Implicit.
Unset Printing Implicit Defensive.
Local Open Scope ring_scope.

(** C39: one row update without flooring succeeds, changes row [n] only, the new
    row satisfies the IP normal equations [W' U_n w_n = e_n], and the result is
    invertible. *)
Theorem C39_normal_equations N (U : 'I_N -> 'M[Cx]_N) (W : 'M[Cx]_N) (n : 'I_N) :
  pd (U n) -> W \in unitmx ->
  exists W', [/\ ip1_step identity_fl U W n = Some W',
    forall m, m != n -> row m W' = row m W,
    W' *m U n *m (row n W')^H = delta_mx n 0 & W' \in unitmx].
Proof.
move=> pU uW; have q0 : (0 < ipq (U n) W n)%coqR by exact: ipq_gt0.
have s0 := sqrt_lt_R0 _ q0.
rewrite ip1_stepE //; last by apply/eqP; rewrite /identity_fl; toR; lra.
eexists; split; first reflexivity.
- by move=> m mn; rewrite row_setrow_neq.
- rewrite row_setrow; apply/colP => i; rewrite !setrowM ctrZ ctrK -cV c_conj.
  have uU := pd_unit pU.
  rewrite [in LHS]mxE; case: eqP => [->|/eqP ni].
    rewrite -!scalemxAl -!scalemxAr 2!mxE [in RHS]mxE.
    have := wUw W pU; rewrite /form => ->.
    rewrite -!cM /identity_fl mulrA -!RmulE !eqxx.
    have ss : (R_sqrt.sqrt (ipq (U n) W n) * R_sqrt.sqrt (ipq (U n) W n) = ipq (U n) W n)%coqR.
      by apply: sqrt_sqrt; lra.
    rewrite -RinvE; last by lra.
    rewrite -{3}ss (_ : (_ * _ * _ = 1)%coqR) ?c1 //.
    by field_simplify; lra.
  by rewrite -scalemxAr -mulmxA mulKVmx // mulKVmx // !mxE (negbTE ni) mulr0.
- exact: new_unit.
Qed.

(** C39: the whole sweep never fails and keeps the filter invertible, for every
    flooring function which keeps positive values positive. *)
Theorem C39_sweep N fl (U : 'I_N -> 'M[Cx]_N) (W : 'M[Cx]_N) :
  (forall x, (0 < x)%coqR -> (0 < fl x)%coqR) ->
  (forall n, pd (U n)) -> W \in unitmx ->
  exists2 W', ip1 fl U W = Some W' & W' \in unitmx.
Proof.
move=> hfl pU uW.
have [W' [e u _]] := @ip1_loop_ind _ fl U (fun _ => True) (enum 'I_N) W uW hfl pU I (fun _ _ _ _ _ _ => I).
by exists W'.
Qed.

(** C40: the updated row is a global minimiser: every invertible matrix which
    agrees with W outside row [n] has at least the same auxiliary cost. *)
Theorem C40_row_global_minimum N (U : 'I_N -> 'M[Cx]_N) (W V : 'M[Cx]_N) (n : 'I_N) :
  pd (U n) -> W \in unitmx -> V \in unitmx ->
  (forall m, m != n -> row m V = row m W) ->
  exists2 W', ip1_step identity_fl U W n = Some W' & (aux_cost U W' <= aux_cost U V)%coqR.
Proof.
move=> pU uW uV eV; have q0 : (0 < ipq (U n) W n)%coqR by exact: ipq_gt0.
have s0 := sqrt_lt_R0 _ q0.
rewrite ip1_stepE //; last by apply/eqP; rewrite /identity_fl; toR; lra.
eexists; first reflexivity.
have VE : V = setrow n (row n V) W.
  apply/row_matrixP => i; case: (eqVneq i n) => [->|ni]; first by rewrite row_setrow.
  by rewrite row_setrow_neq // eV.
rewrite [in X in (_ <= X)%coqR]VE; apply: ip_global => //.
by move: uV; rewrite unitmxE VE det_setrow // unitrM row_setrow unitfE => /andP[].
Qed.

(** C40: a full sweep never increases the auxiliary cost, with the default
    [max_flooring(eps)] for every [0 < eps <= 1]. *)
Theorem C40_sweep_monotone N eps (U : 'I_N -> 'M[Cx]_N) (W : 'M[Cx]_N) :
  (0 < eps <= 1)%coqR -> (forall n, pd (U n)) -> W \in unitmx ->
  exists2 W', ip1 (max_flooring eps) U W = Some W' & (aux_cost U W' <= aux_cost U W)%coqR.
Proof.
move=> he pU uW.
have hfl x : (0 < x)%coqR -> (0 < max_flooring eps x)%coqR.
  by move=> x0; rewrite /max_flooring; apply: Rlt_le_trans (Rmax_r _ _); lra.
have [] := @ip1_loop_ind _ (max_flooring eps) U (fun V => (aux_cost U V <= aux_cost U W)%coqR) (enum 'I_N) W uW hfl pU.
- exact: Rle_refl.
- move=> V V' n uV leV.
  have q0 : (0 < ipq (U n) V n)%coqR by exact: ipq_gt0.
  rewrite ip1_stepE //; last by have := hfl _ (sqrt_lt_R0 _ q0) => ?; apply/eqP; toR; lra.
  case=> <-; apply: Rle_trans leV; exact: ip_floor.
- by move=> W' [e _ h]; exists W'.
Qed.

(** C40, same without flooring. *)
Theorem C40_sweep_monotone_identity N (U : 'I_N -> 'M[Cx]_N) (W : 'M[Cx]_N) :
  (forall n, pd (U n)) -> W \in unitmx ->
  exists2 W', ip1 identity_fl U W = Some W' & (aux_cost U W' <= aux_cost U W)%coqR.
Proof.
move=> pU uW.
have [] := @ip1_loop_ind _ identity_fl U (fun V => (aux_cost U V <= aux_cost U W)%coqR) (enum 'I_N) W uW (fun _ h => h) pU.
- exact: Rle_refl.
- move=> V V' n uV leV eV.
  have [V2 e2 h2] := C40_row_global_minimum (pU n) uV uV (fun _ _ => erefl).
  by move: eV; rewrite e2 => -[<-]; apply: Rle_trans leV.
- by move=> W' [e _ h]; exists W'.
Qed.

(** A concrete instance: two sources, [U_n = (n+1) I + x x^H] with [x = (1,1)],
    and an upper triangular demixing filter. *)
Definition exU (n : 'I_2) : 'M[Cx]_2 := (n.+1)%:R *: 1%:M + const_mx 1 *m (const_mx 1 : 'cV_2)^H.
Definition exW : 'M[Cx]_2 := \matrix_(i, j) (i <= j)%N%:R.
Lemma exU_pd n : pd (exU n).
Proof.
apply: pdD; last exact: psd_outer.
by apply: pdZ; [rewrite ltr0n|exact: pd1].
Qed.
Lemma exW_unit : exW \in unitmx.
Proof.
rewrite unitmxE /exW (_ : \matrix_(_, _) _ = (\matrix_(i, j) (j <= i)%N%:R)^T); last first.
  by apply/matrixP => i j; rewrite !mxE.
rewrite det_tr det_trig.
  by rewrite big1 ?unitr1 // => i _; rewrite mxE leqnn.
by apply/is_trig_mxP => i j ij; rewrite mxE leqNgt ij.
Qed.

Example C39_instance : exists W',
  [/\ ip1_step identity_fl exU exW ord0 = Some W',
    forall m, m != ord0 -> row m W' = row m exW,
    W' *m exU ord0 *m (row ord0 W')^H = delta_mx ord0 0 & W' \in unitmx].
Proof. exact: C39_normal_equations (exU_pd _) exW_unit. Qed.
Example C40_instance : exists2 W', ip1 (max_flooring (1 / 10)%coqR) exU exW = Some W' &
  (aux_cost exU W' <= aux_cost exU exW)%coqR.
Proof. by apply: C40_sweep_monotone exU_pd exW_unit; lra. Qed.
Example C40_row_instance : exists2 W', ip1_step identity_fl exU exW ord0 = Some W' &
  (aux_cost exU W' <= aux_cost exU exW)%coqR.
Proof. exact: (C40_row_global_minimum (exU_pd _) exW_unit exW_unit). Qed.
Example C39_sweep_instance : exists2 W', ip1 (max_flooring 1) exU exW = Some W' & W' \in unitmx.
Proof.
apply: C39_sweep exU_pd exW_unit => x x0.
by rewrite /max_flooring; apply: Rlt_le_trans (Rmax_l _ _).
Qed.

(** Disagreement: with the library's [add_flooring] the sweep can increase the
    cost, and so does [max_flooring(eps)] for an eps > 1 (already for one source
    with U = 1, W = 1). *)
Lemma ip1_scalar fl d : fl 1%coqR = d -> (0 < d)%coqR ->
  ip1 fl (fun _ => 1%:M) (1%:M : 'M[Cx]_1) = Some (c (/ d)%coqR)%:M.
Proof.
move=> hd d0; rewrite /ip1 enum_ordSl enum_ord0 /= /ip1_loop /=.
have q1 : ipq (1%:M : 'M[Cx]_1) 1%:M ord0 = 1%coqR.
  rewrite /ipq invmx1 mul1mx /form mulmx1 -colE ctr_delta mxE.
  by rewrite !mxE !eqxx.
rewrite ip1_stepE ?q1 ?sqrt_1 ?hd ?unitmx1 //; last 2 first.
- exact: pd1.
- by apply/eqP; toR; lra.
congr Some; apply/matrixP => i j; rewrite !ord1 invmx1 !mul1mx ctr_delta.
rewrite !mxE !eqxx mulr1 mulr1n RinvE ?cV //; lra.
Qed.

Lemma aux_cost_scalar x : (0 < x)%coqR ->
  aux_cost (fun _ => 1%:M) ((c x)%:M : 'M[Cx]_1) = (x ^ 2 - 2 * ln x)%coqR.
Proof.
move=> x0; rewrite /aux_cost big_ord_recl big_ord0 addr0 det_scalar1 cabs_c Rabs_pos_eq; last lra.
rewrite /quad mulmx1 mxE big_ord_recl big_ord0 addr0 !mxE eqxx mulr1n c_conj -cM rec.
by toR; rewrite /= Rmult_1_r.
Qed.

Theorem C40_add_flooring_refuted : exists eps (U : 'I_1 -> 'M[Cx]_1) (W W' : 'M[Cx]_1),
  [/\ (0 < eps)%coqR, forall n, pd (U n), W \in unitmx,
      ip1 (add_flooring eps) U W = Some W' & (aux_cost U W < aux_cost U W')%coqR].
Proof.
exists 1%coqR, (fun _ => 1%:M), 1%:M, (c (/ 2)%coqR)%:M; split.
- lra.
- by move=> _; exact: pd1.
- exact: unitmx1.
- by apply: ip1_scalar; rewrite /add_flooring; [toR|]; lra.
- rewrite -[X in aux_cost _ X%:M]c1 !aux_cost_scalar; try (toR; lra).
  toR; rewrite ln_1 ln_Rinv; last lra.
  have := ln_lt_2; lra.
Qed.

Theorem C40_large_floor_refuted : exists eps (U : 'I_1 -> 'M[Cx]_1) (W W' : 'M[Cx]_1),
  [/\ (1 < eps)%coqR, forall n, pd (U n), W \in unitmx,
      ip1 (max_flooring eps) U W = Some W' & (aux_cost U W < aux_cost U W')%coqR].
Proof.
exists 2%coqR, (fun _ => 1%:M), 1%:M, (c (/ 2)%coqR)%:M; split.
- lra.
- by move=> _; exact: pd1.
- exact: unitmx1.
- by apply: ip1_scalar; rewrite /max_flooring; [apply: Rmax_right|]; lra.
- rewrite -[X in aux_cost _ X%:M]c1 !aux_cost_scalar; try (toR; lra).
  toR; rewrite ln_1 ln_Rinv; last lra.
  have := ln_lt_2; lra.
Qed.

Print Assumptions C39_normal_equations.
Print Assumptions C39_sweep.
Print Assumptions C40_row_global_minimum.
Print Assumptions C40_sweep_monotone.
Print Assumptions C40_sweep_monotone_identity.
Print Assumptions C40_add_flooring_refuted.
Print Assumptions C40_large_floor_refuted.
