From Coq Require Import Reals Lra.
From mathcomp Require Import all_ssreflect all_algebra.
From mathcomp.algebra_tactics Require Import ring.
From Verif Require Import RStruct MxC CxR NpLin RealLemmas SpatialIP.
Import Order.TTheory GRing.Theory Num.Theory.
Set Implicit Arguments.
Unset Strict Implicit.
Unset Printing Implicit Defensive.
Local Open Scope ring_scope.

(** Specification: the auxiliary cost
    [sum_n w_n^H U_n w_n - 2 log |det W|], where row [n] of [W] is [w_n^H]. *)
Definition quad N (U : 'M[Cx]_N) (r : 'rV[Cx]_N) : R := re ((r *m U *m r^H) 0 0).
Definition aux_cost N (U : 'I_N -> 'M[Cx]_N) (W : 'M[Cx]_N) : R :=
  \sum_n quad (U n) (row n W) - (2 * ln (cabs (\det W)))%coqR.

Section IP1.
Variable N : nat.
Implicit Types (U : 'I_N -> 'M[Cx]_N) (W : 'M[Cx]_N) (n : 'I_N).

Lemma quad_form (A : 'M[Cx]_N) r : quad A r = re (form A r^H r^H).
Proof. by rewrite /quad /form ctrK. Qed.

(** the quantity q = [(W U W^H)^-1]_nn *)
Definition ipq (A W : 'M[Cx]_N) n : R := re (form (invmx A) (invmx W *m delta_mx n 0) (invmx W *m delta_mx n 0)).

Lemma col_inv_neq0 W n : W \in unitmx -> invmx W *m (delta_mx n 0 : 'cV[Cx]_N) != 0.
Proof.
move=> uW; apply/eqP => H.
have : (delta_mx n 0 : 'cV[Cx]_N) n 0 = 0.
  by rewrite (unit_inj _ H) ?unitmx_inv // mxE.
by rewrite mxE !eqxx; apply/eqP; apply: (oner_neq0 Cx).
Qed.

Lemma ipq_gt0 A W n : pd A -> W \in unitmx -> (0 < ipq A W n)%coqR.
Proof.
move=> pA uW; have [_ pos] := pd_inv pA.
by have /pos /gt0_cre[] := col_inv_neq0 n uW.
Qed.

(** what the step computes *)
Lemma ip1_stepE fl U W n : pd (U n) -> W \in unitmx ->
  let q := ipq (U n) W n in
  let w := invmx (U n) *m (invmx W *m delta_mx n 0) in
  fl (R_sqrt.sqrt q) != 0 ->
  ip1_step fl U W n = Some (setrow n ((c (fl (R_sqrt.sqrt q)))^-1 *: w^H) W).
Proof.
move=> pU uW q w fl0; have uU := pd_unit pU; have [hU _] := pU.
rewrite /ip1_step /solve unitmx_mul uW uU /=.
have -> : invmx (W *m U n) *m delta_mx n 0 = w :> 'cV_N by rewrite invmx_mul // -mulmxA.
have -> : re ((w^H *m U n *m w) 0 0) = q.
  rewrite /q /ipq /form /w !ctrM !ctr_inv hU !mulmxA.
  by rewrite -[_ *m invmx (U n) *m U n]mulmxA mulVmx // mulmx1.
rewrite Rmax_left; last by apply: Rlt_le; apply: ipq_gt0.
by rewrite /divs (negbTE fl0).
Qed.

Lemma aux_cost_setrow U W n r : W \in unitmx -> (r *m invmx W) 0 n != 0 ->
  aux_cost U (setrow n r W) =
  (\sum_(m | m != n) quad (U m) (row m W) - 2 * ln (cabs (\det W))
   + (quad (U n) r - 2 * ln (cabs ((r *m invmx W) 0%R n))))%coqR.
Proof.
move=> uW a0; rewrite /aux_cost (bigD1 n) //= row_setrow.
have -> : \sum_(i | i != n) quad (U i) (row i (setrow n r W)) =
          \sum_(i | i != n) quad (U i) (row i W).
  by apply: eq_bigr => i iN; rewrite row_setrow_neq.
rewrite det_setrow // cabsM ln_mult.
- by toR; set x := \sum_(_ | _) _; set y := quad _ _; set a := cabs ((r *m _) _ _); lra.
- exact: cabs_gt0.
- by apply: cabs_gt0; rewrite -unitfE -unitmxE.
Qed.

Lemma aux_cost_split U W n : W \in unitmx ->
  aux_cost U W =
  (\sum_(m | m != n) quad (U m) (row m W) - 2 * ln (cabs (\det W))
   + quad (U n) (row n W))%coqR.
Proof.
move=> uW; rewrite /aux_cost (bigD1 n) //=.
toR; set x := \sum_(_ | _) _; set y := quad _ _; lra.
Qed.

Lemma row_inv W n : W \in unitmx -> (row n W *m invmx W) 0 n = 1.
Proof. by move=> uW; rewrite -row_mul mulmxV // !mxE eqxx. Qed.

Lemma ip_cs A W n r : pd A -> W \in unitmx ->
  (cabs ((r *m invmx W) 0%R n) ^ 2 <= quad A r * ipq A W n)%coqR.
Proof.
move=> pA uW; have [_ pos] := pd_psd pA; have [_ posV] := pd_psd (pd_inv pA).
have := cauchy_schwarz_inv r^H (invmx W *m delta_mx n 0) pA.
have /ge0_cre[-> _] := pos r^H.
have /ge0_cre[-> _] := posV (invmx W *m delta_mx n 0).
rewrite -quad_form -/(ipq A W n) cabsE -cX -cM cle.
have -> : form 1%:M r^H (invmx W *m delta_mx n 0) = (r *m invmx W) 0 n.
  by rewrite /form ctrK mulmx1 mulmxA -colE mxE.
by move=> /RleP; rewrite RpowE RmulE.
Qed.

Section Step.
Variables (U : 'I_N -> 'M[Cx]_N) (W : 'M[Cx]_N) (n : 'I_N).
Hypotheses (pU : pd (U n)) (uW : W \in unitmx).
Let q := ipq (U n) W n.
Let w : 'cV[Cx]_N := invmx (U n) *m (invmx W *m delta_mx n 0).

Lemma wUw : form (U n) w w = c q.
Proof.
have uU := pd_unit pU; have [hU _] := pU.
rewrite /w formM ctr_inv hU mulVmx // mul1mx.
by have [_ /(_ (invmx W *m delta_mx n 0)) /ge0_cre[]] := pd_psd (pd_inv pU).
Qed.

Lemma new_quad d : (0 < d)%coqR -> quad (U n) ((c d)^-1 *: w^H) = (q / d ^ 2)%coqR.
Proof.
move=> d0; rewrite quad_form ctrZ ctrK formZl formZr wUw.
rewrite -cV !c_conj -!cM rec RdivE; last by apply: pow_nonzero; lra.
by rewrite RpowE expr2 invfM [RHS]mulrC mulrA.
Qed.

Lemma new_coord d : (0 < d)%coqR -> ((c d)^-1 *: w^H *m invmx W) 0 n = c (q / d)%coqR.
Proof.
move=> d0; have uU := pd_unit pU; have [hU _] := pU.
rewrite -scalemxAl mxE.
have -> : (w^H *m invmx W) 0 n = form (U n) w w.
  by rewrite /form -mulmxA {3}/w mulKVmx // mulmxA -colE [in RHS]mxE.
rewrite wUw RdivE; last lra.
by rewrite cM cV mulrC.
Qed.

Lemma new_unit d : (0 < d)%coqR -> setrow n ((c d)^-1 *: w^H) W \in unitmx.
Proof.
move=> d0; rewrite unitmxE det_setrow // unitrM -unitmxE uW andbT unitfE.
rewrite new_coord // c_eq0; apply/eqP/Rgt_not_eq.
apply: Rdiv_lt_0_compat => //; exact: ipq_gt0.
Qed.

Lemma new_cost d : (0 < d)%coqR -> aux_cost U (setrow n ((c d)^-1 *: w^H) W) =
  (\sum_(m | m != n) quad (U m) (row m W) - 2 * ln (cabs (\det W))
   + (q / d ^ 2 - 2 * ln (q / d)))%coqR.
Proof.
move=> d0; have q0 : (0 < q / d)%coqR by apply: Rdiv_lt_0_compat => //; exact: ipq_gt0.
rewrite aux_cost_setrow // new_coord //.
  by rewrite new_quad // cabs_c Rabs_pos_eq //; lra.
by rewrite c_eq0; apply/eqP; toR; lra.
Qed.

Lemma ip_global r : (r *m invmx W) 0 n != 0 ->
  (aux_cost U (setrow n ((c (R_sqrt.sqrt q))^-1 *: w^H) W) <= aux_cost U (setrow n r W))%coqR.
Proof.
move=> a0; have q0 : (0 < q)%coqR by exact: ipq_gt0.
have s0 : (0 < R_sqrt.sqrt q)%coqR by exact: sqrt_lt_R0.
rewrite new_cost // aux_cost_setrow //.
apply: Rplus_le_compat_l.
have := ip_cs n r pU uW; have := cabs_gt0 a0.
rewrite -/q; set a := cabs _; set t := quad _ _ => ap cs.
exact: ip_real_opt.
Qed.

Lemma ip_floor eps : (0 < eps <= 1)%coqR ->
  (aux_cost U (setrow n ((c (Rmax (R_sqrt.sqrt q) eps))^-1 *: w^H) W) <= aux_cost U W)%coqR.
Proof.
move=> [e0 e1]; have q0 : (0 < q)%coqR by exact: ipq_gt0.
case: (Rle_or_lt (R_sqrt.sqrt q) eps) => le.
  rewrite Rmax_right // new_cost // (aux_cost_split U n uW).
  apply: Rplus_le_compat_l; apply: ip_real_floor => //.
  have := ip_cs n (row n W) pU uW.
  by rewrite row_inv // cabs1 RpowE expr1n.
rewrite Rmax_left; last by lra.
rewrite -[W in (_ <= aux_cost U W)%coqR](setrow_id n); apply: ip_global.
by rewrite row_inv // oner_neq0.
Qed.
End Step.

(** a flooring function is admissible if it keeps positive numbers positive *)
Lemma ip1_step_some fl U W n : (forall x, (0 < x)%coqR -> (0 < fl x)%coqR) ->
  pd (U n) -> W \in unitmx ->
  exists2 W', ip1_step fl U W n = Some W' & W' \in unitmx.
Proof.
move=> hfl pU uW; have q0 : (0 < ipq (U n) W n)%coqR by exact: ipq_gt0.
have f0 := hfl _ (sqrt_lt_R0 _ q0).
rewrite ip1_stepE //; last by apply/eqP; toR; lra.
by eexists; [reflexivity|apply: new_unit].
Qed.

Lemma ip1_loop_none fl U s :
  foldl (fun o n => if o is Some V then ip1_step fl U V n else None) None s = None.
Proof. by elim: s. Qed.

Lemma ip1_loop_ind fl U (P : 'M[Cx]_N -> Prop) s W : W \in unitmx ->
  (forall x, (0 < x)%coqR -> (0 < fl x)%coqR) -> (forall n, pd (U n)) ->
  P W ->
  (forall V V' n, V \in unitmx -> P V -> ip1_step fl U V n = Some V' -> P V') ->
  exists W', [/\ ip1_loop fl U s W = Some W', W' \in unitmx & P W'].
Proof.
move=> uW hfl pU PW step; elim: s W uW PW => [|n s IH] W uW PW /=; first by exists W.
have [V eV uV] := ip1_step_some hfl (pU n) uW.
rewrite /ip1_loop /= eV; apply: IH => //; exact: step eV.
Qed.
End IP1.
