(** C45, continued: the effect of flooring on the loss of AuxIVA. *)
From Coq Require Import Reals Lra Psatz.
From mathcomp Require Import all_ssreflect all_algebra.
From mathcomp Require Import ring.
From Verif Require Import RStruct MxC CxR NpLin RealLemmas SuperGauss Eigh EighProofs.
From Verif Require Import SpatialIP SpatialIPProofs Prop_IP1 SpatialISS SpatialISSProofs Prop_ISS1.
From Verif Require Import SpatialIP2 SpatialIP2Proofs Prop_IP2 SpatialISS2 SpatialISS2Proofs Prop_ISS2.
From Verif Require Import Scale ScaleProofs AuxIVA AuxIVAProofs Prop_AuxIVA CubicProofs.
Import Order.TTheory GRing.Theory Num.Theory.
Set Implicit Arguments.
Unset Strict Implicit.
Unset Printing Implicit Defensive.
Local Open Scope ring_scope.

(** ** Disagreement: with the floor active the loss can increase, for every eps.
    One source, one bin, two frames. *)
Lemma norms1 (Y : 'I_1 -> 'M[Cx]_(1, 2)) n t : norms Y n t = cabs (Y 0 n t).
Proof.
by rewrite mxE big_ord_recl big_ord0 addr0 -RpowE -Rsqr_pow2 sqrt_Rsqr //; exact: cabs_ge0.
Qed.
Lemma ip1_1 fl (u : R) : (0 < u)%coqR -> (0 < fl (R_sqrt.sqrt (/ u)))%coqR ->
  ip1 fl (fun _ => (c u)%:M) (1%:M : 'M[Cx]_1) = Some (c (/ u / fl (R_sqrt.sqrt (/ u)))%coqR)%:M.
Proof.
move=> u0 d0; rewrite /ip1 enum_ordSl enum_ord0 /= /ip1_loop /=.
have cu : c u != 0 by rewrite c_eq0; apply/eqP; toR; lra.
have iu : invmx ((c u)%:M : 'M[Cx]_1) = (c (/ u)%coqR)%:M.
  by rewrite invmx_scalar RinvE ?cV //; lra.
have q1 : ipq ((c u)%:M : 'M[Cx]_1) 1%:M ord0 = (/ u)%coqR.
  rewrite /ipq iu invmx1 mul1mx /form ctr_delta mul_mx_scalar -scalemxAl mul_delta_mx.
  by rewrite !mxE !eqxx mulr1 rec.
have pu : pd ((c u)%:M : 'M[Cx]_1).
  rewrite -scalemx1; apply: pdZ; last exact: pd1.
  exact: c_gt0.
rewrite ip1_stepE ?q1 ?unitmx1 //; last by apply/eqP; toR; lra.
congr Some; apply/matrixP => i j; rewrite !ord1 iu invmx1 mul1mx mul_scalar_mx ctrZ ctr_delta.
rewrite !mxE !eqxx mulr1 mulr1n c_conj RdivE ?cM ?cV 1?mulrC //; lra.
Qed.
Lemma eq_ip1 N fl (U U' : 'I_N -> 'M[Cx]_N) W : U =1 U' -> ip1 fl U W = ip1 fl U' W.
Proof.
move=> h; rewrite /ip1 /ip1_loop; move: (enum _) => s.
elim: s (Some W) => [|n s IH] o /=; first by [].
have -> : (if o is Some V then ip1_step fl U V n else None) =
          (if o is Some V then ip1_step fl U' V n else None).
  by case: o => [V|//]; rewrite /ip1_step h.
exact: IH.
Qed.
Theorem C45_floor_refuted eps : (0 < eps <= 1)%coqR ->
  exists (X : 'I_1 -> 'M[Cx]_(1, 2)) (W W' : 'I_1 -> 'M[Cx]_1) l l',
    [/\ forall i, row_free (X i) /\ W i \in unitmx,
        update_once_ip1 (max_flooring eps) (@d_laplace 1 2) X W = Some W',
        compute_loss (@laplace 1 2) X W = Some l, compute_loss (@laplace 1 2) X W' = Some l' &
        (l < l')%coqR].
Proof.
move=> he; pose x1 := (eps / 4)%coqR; pose x2 := (2 - eps / 4)%coqR.
pose X (i : 'I_1) : 'M[Cx]_(1, 2) := \matrix_(_, t) c (if t == 0 then x1 else x2).
pose W (i : 'I_1) : 'M[Cx]_1 := 1%:M.
have fX i : row_free (X i).
  rewrite /row_free eqn_leq rank_leq_row lt0n mxrank_eq0; apply/eqP => /matrixP/(_ 0 0).
  by rewrite !mxE eqxx => /eqP; rewrite c_eq0 => /eqP; rewrite /x1; toR; lra.
have X1 i n : X i n 0 = c x1 by rewrite mxE.
have X2 i n : X i n 1 = c x2 by rewrite mxE.
have uW i : W i \in unitmx by rewrite unitmx1.
have r1 n : norms (separate_all X W) n 0 = x1.
  by rewrite norms1 /separate_all /separate mul1mx mxE eqxx cabs_c Rabs_pos_eq // /x1; lra.
have r2 n : norms (separate_all X W) n 1 = x2.
  by rewrite norms1 /separate_all /separate mul1mx mxE /= cabs_c Rabs_pos_eq // /x2; lra.
pose phi := weight (max_flooring eps) (@d_laplace 1 2) (norms (separate_all X W)).
have w1 n : phi n 0 = (2 / eps)%coqR.
  by rewrite mxE r1 /d_laplace /max_flooring Rmax_right // /x1; lra.
have w2 n : phi n 1 = (/ x2)%coqR.
  rewrite mxE r2 /d_laplace /max_flooring Rmax_left; last by rewrite /x2; lra.
  by rewrite /x2; Rfield; lra.
pose u := (1 - eps / 16)%coqR.
have eU i n : wcov phi (X i) n = (c u)%:M.
  apply/matrixP => a b; rewrite !ord1 [LHS]mxE [RHS]mxE eqxx mulr1n /meanC.
  rewrite big_ord_recl big_ord_recl big_ord0 (_ : lift 0 0 = 1 :> 'I_2); last exact/val_inj.
  rewrite w1 w2 addr0 !X1 !X2 !c_conj.
  have -> : (2%:R : R)^-1 = (/ 2)%coqR by rewrite RinvE //; lra.
  rewrite -!cRM -cRD -cRM; congr c; rewrite /x1 /x2 /u; Rfield; lra.
have u0 : (0 < u < 1)%coqR by rewrite /u; lra.
pose w := R_sqrt.sqrt (/ u)%coqR.
have iu : (1 < / u)%coqR by rewrite -[X in (X < _)%coqR]Rinv_1; apply: Rinv_lt_contravar; lra.
have w1' : (1 < w)%coqR by rewrite /w -[X in (X < _)%coqR]sqrt_1; apply: sqrt_lt_1; lra.
have ww : (w * w = / u)%coqR by rewrite /w sqrt_sqrt //; lra.
have step i : exists2 x, ip1 (max_flooring eps) (wcov phi (X i)) (W i) = Some x & x = (c w)%:M.
  have -> : ip1 (max_flooring eps) (wcov phi (X i)) (W i) = ip1 (max_flooring eps) (fun=> (c u)%:M) 1%:M.
    by apply: eq_ip1.
  eexists; first by apply: ip1_1; [lra|rewrite -/w /max_flooring Rmax_left; lra].
  rewrite -/w /max_flooring Rmax_left; last lra.
  by congr (c _)%:M; rewrite -ww; Rfield; lra.
have [W' e hW'] := @all_bins_ex 1 _ W _ _ step.
have eW' i : W' i = (c w)%:M by have [] := hW' i.
have uW' i : W' i \in unitmx.
  by rewrite eW' unitmxE det_scalar1 unitfE; apply: c_neq0; lra.
exists X, W, W'; do 2 eexists; split; [by []| |exact: compute_lossE|exact: compute_lossE|].
  rewrite /update_once_ip1 /=; case: ifP => [_|/negP[]]; first exact: e.
  apply/forallP => n; apply: finite_weightT => t.
  by apply: Rlt_le_trans (Rmax_r _ _); lra.
rewrite /lossY !big_ord_recl !big_ord0 !addr0 /meanR !big_ord_recl !big_ord0 !addr0.
rewrite (_ : lift 0 0 = 1 :> 'I_2); last exact/val_inj.
rewrite !r1 !r2.
have r1' n : norms (separate_all X W') n 0 = (w * x1)%coqR.
  rewrite norms1 /separate_all /separate eW' mul_scalar_mx mxE X1 -cRM cabs_c Rabs_pos_eq //.
  by apply: Rmult_le_pos; rewrite /x1; lra.
have r2' n : norms (separate_all X W') n 1 = (w * x2)%coqR.
  rewrite norms1 /separate_all /separate eW' mul_scalar_mx mxE X2 -cRM cabs_c Rabs_pos_eq //.
  by apply: Rmult_le_pos; rewrite /x2; lra.
rewrite !r1' !r2' /W det1 eW' det_scalar1 cabs1 cabs_c Rabs_pos_eq; last lra.
have -> : (2%:R : R)^-1 = (/ 2)%coqR by rewrite RinvE //; lra.
rewrite [ln 1]ln_1 /laplace /x1 /x2; have := @w_ln_strict w w1'; toR; lra.
Qed.

(** ** A concrete instance: two sources, two bins, two frames, eps = 1. *)
Definition exWv : 'M[Cx]_2 := \matrix_(i, j) (if (i == 0) && (j == 1) then 3%:R else if i == j then 1 else 2%:R).
Definition iWs (i : 'I_2) : 'M[Cx]_2 := exWv.
Definition iXs (i : 'I_2) : 'M[Cx]_(2, 2) := (i.+2)%:R%:M.
Lemma iWs_unit i : iWs i \in unitmx.
Proof.
rewrite unitmxE (expand_det_row _ 0) !big_ord_recl big_ord0 /cofactor !det_mx11 !mxE /=.
rewrite /bump /= !addn0 expr0 expr1 addr0 !mul1r mulN1r.
by rewrite unitfE mulrN -natrM subr_eq0 -[1]/(1%:R) eqr_nat.
Qed.
Lemma iXs_free i : row_free (iXs i).
Proof. by rewrite row_free_unit unitmxE det_scalar unitfE expf_neq0 // pnatr_eq0. Qed.
Lemma i_norms n t : (1 <= 2 * norms (separate_all iXs iWs) n t)%coqR.
Proof.
have h : (1 <= norms (separate_all iXs iWs) n t ^ 2)%coqR.
  rewrite norms_sqr big_ord_recl.
  have h0 : (0 <= \sum_(i < 1) cabs (separate_all iXs iWs (lift ord0 i) n t) ^+ 2)%coqR.
    by apply: sumR_ge0 => i _; rewrite -RpowE; apply: pow_le; apply: cabs_ge0.
  have h1 : (1 <= cabs (separate_all iXs iWs ord0 n t))%coqR.
    rewrite /separate_all /separate /iXs mul_mx_scalar !mxE /=.
    have k (m : nat) : cabs (m%:R : Cx) = INR m by rewrite -c_nat cabs_c Rabs_pos_eq //; exact: pos_INR.
    by case: ifP => _; [|case: ifP => _]; rewrite ?mulr1 -?natrM k /=; lra.
  have : (1 ^ 2 <= cabs (separate_all iXs iWs ord0 n t) ^ 2)%coqR by apply: pow_incr; lra.
  by move: h0; rewrite -RpowE; toR; move: (\sum_(i < 1) _) (cabs _) => a b; lra.
have := norms_ge0 (separate_all iXs iWs) n t; move: h; move: (norms _ n t) => a; nra.
Qed.
Lemma laplace_sg N T : sg (@laplace N T) (@d_laplace N T).
Proof. by move=> n t; exact: laplace_super_gaussian. Qed.
Example C45_instance :
  (exists W' l l', [/\ update_once_ip1 (max_flooring 1) (@d_laplace 2 2) iXs iWs = Some W',
    forall i, W' i \in unitmx, compute_loss (@laplace 2 2) iXs iWs = Some l,
    compute_loss (@laplace 2 2) iXs W' = Some l' & (l' <= l)%coqR]) /\
  (exists W' v' l l', [/\ gauss_update_ip1 (max_flooring 1) iXs iWs = Some (W', v'),
    (forall i, W' i \in unitmx) /\ (forall n t, (0 < v' n t)%coqR),
    compute_loss (@gauss 2 2 2 (const_mx 1%coqR)) iXs iWs = Some l,
    compute_loss (@gauss 2 2 2 v') iXs W' = Some l' & (l' <= l)%coqR]) /\
  (exists Y' W' l l', [/\ update_once_iss1 (max_flooring 1) (@d_laplace 2 2) (separate_all iXs iWs) = Some Y',
    forall i, W' i \in unitmx /\ Y' i = W' i *m iXs i,
    compute_loss_output (@laplace 2 2) iXs (separate_all iXs iWs) = Some l,
    compute_loss_output (@laplace 2 2) iXs Y' = Some l' & (l' <= l)%coqR]).
Proof.
have e1 : (0 < 1 <= 1)%coqR by lra.
split; [|split].
- exact: C45_ip1 (@laplace_sg 2 2) iWs_unit iXs_free i_norms.
- by apply: C45_gauss_ip1 iWs_unit iXs_free _ i_norms => // n t; rewrite mxE; lra.
- have hY i : separate_all iXs iWs i = iWs i *m iXs i by [].
  by apply: (C45_iss1 e1 _ (@laplace_sg 2 2) iWs_unit iXs_free hY i_norms).
Qed.
Example C45_pair_instance : exists eig chol W' l l', [/\ eigh_contract eig /\ chol_contract chol,
  update_once_ip2 identity_fl eig chol (@d_laplace 2 2) iXs [:: (0, 1)] iWs = Some W',
  compute_loss (@laplace 2 2) iXs iWs = Some l, compute_loss (@laplace 2 2) iXs W' = Some l' & (l' <= l)%coqR].
Proof.
have [eig He] := eigh_contract_sat; have [chol Hc] := chol_contract_sat.
have r0 n t : (0 < norms (separate_all iXs iWs) n t)%coqR by have := i_norms n t; lra.
have [W' [l [l' [e uW' el el' le]]]] := C45_ip2_pair He Hc (isT : (0 < 2)%N) (@laplace_sg 2 2)
  (isT : (0 : 'I_2) != 1) iWs_unit iXs_free (fun t => conj (r0 0 t) (r0 1 t)).
exists eig, chol, W', l, l'; split=> //.
Qed.

Print Assumptions C45_ip1.
Print Assumptions C45_ip1_no_flooring.
Print Assumptions C45_laplace_ip1.
Print Assumptions C45_iss1.
Print Assumptions C45_laplace_iss1.
Print Assumptions C45_ip2.
Print Assumptions C45_iss2.
Print Assumptions C45_gauss_ip1.
Print Assumptions C45_gauss_iss1.
Print Assumptions C45_floor_refuted.

