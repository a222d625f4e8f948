(** Properties C42, C43: update_by_iss1
    (/repo/ssspy/bss/_update_spatial_model.py:146-194). *)
From Coq Require Import Reals Lra.
From mathcomp Require Import all_ssreflect all_algebra.
From Verif Require Import RStruct MxC CxR NpLin RealLemmas SpatialISS SpatialISSProofs.
Import Order.TTheory GRing.Theory Num.Theory.
Set Implicit Arguments.
Unset Strict Implicit.
Unset Printing Implicit Defensive.
Local Open Scope ring_scope.

Section Loop.
Variables (N T : nat) (fl : R -> R) (phi : 'M[R]_(N, T)).
Hypotheses (T0 : (0 < T)%N) (phi0 : forall k t, (0 <= phi k t)%coqR).
Hypothesis (fl0 : forall x, (0 <= x)%coqR -> (0 < fl x)%coqR).

Lemma iss_den_ge0 (Y : 'M[Cx]_(N, T)) n k : (0 <= iss_den phi Y n k)%coqR.
Proof. by rewrite -[iss_den _ _ _ _]/(wpower1 (phi k) (Y n)); apply: wpower1_ge0. Qed.

Lemma iss_okT Y n : iss_ok fl phi Y n.
Proof.
apply/and3P; split=> //.
  by apply/forallP => k; apply/eqP; have := fl0 (iss_den_ge0 Y n k); toR; lra.
by apply/RltbP; apply: fl0; apply: iss_den_ge0.
Qed.

Lemma iss_step_unit Y n : steer_mx (iss_v fl phi Y n) n \in unitmx.
Proof.
apply: steer_unit; rewrite iss_scale ?iss_okT // c_eq0; apply/eqP.
have := fl0 (iss_den_ge0 Y n n) => /sqrt_lt_R0 /Rinv_0_lt_compat; toR; lra.
Qed.

Lemma iss1_loop_ind (P : 'M[Cx]_(N, T) -> 'M[Cx]_N -> Prop) Y s :
  P Y 1%:M ->
  (forall Z D n, D \in unitmx -> P Z D ->
     P (steer (iss_v fl phi Z n) n Z) (steer_mx (iss_v fl phi Z n) n *m D)) ->
  exists D, [/\ iss1_loop fl phi s Y = Some (D *m Y), D \in unitmx & P (D *m Y) D].
Proof.
move=> P1 step.
have gen Z D : D \in unitmx -> P Z D -> Z = D *m Y -> exists D', [/\
  foldl (fun o n => if o is Some Z then iss1_step fl phi Z n else None) (Some Z) s =
    Some (D' *m Y), D' \in unitmx & P (D' *m Y) D'].
  elim: s Z D => [|n s IH] Z D uD PZ e /=; first by exists D; rewrite -e.
  have -> : iss1_step fl phi Z n = Some (steer (iss_v fl phi Z n) n Z).
    by rewrite /iss1_step iss_okT.
  apply: IH (step _ _ n uD PZ) _.
    by rewrite unitmx_mul uD iss_step_unit.
  by rewrite steerE e mulmxA.
by apply: (gen Y 1%:M) => //; rewrite ?unitmx1 ?mul1mx.
Qed.
End Loop.

(** C42: a sweep multiplies the signals by an invertible matrix, so that the
    output stays of the form [W' X] with [W'] invertible. *)
Theorem C42_invertible_action N T fl (phi : 'M[R]_(N, T)) (Y : 'M[Cx]_(N, T)) :
  (0 < T)%N -> (forall k t, (0 <= phi k t)%coqR) ->
  (forall x, (0 <= x)%coqR -> (0 < fl x)%coqR) ->
  exists2 D, iss1 fl phi Y = Some (D *m Y) & D \in unitmx.
Proof.
move=> T0 p0 fl0.
have [] := @iss1_loop_ind N T fl phi T0 p0 fl0 (fun _ _ => True) Y (enum 'I_N) I.
  by [].
by move=> D [e u _]; exists D.
Qed.

Theorem C42_filter N T fl (phi : 'M[R]_(N, T)) (W : 'M[Cx]_N) (X : 'M[Cx]_(N, T)) :
  (0 < T)%N -> (forall k t, (0 <= phi k t)%coqR) ->
  (forall x, (0 <= x)%coqR -> (0 < fl x)%coqR) -> W \in unitmx ->
  exists2 W', iss1 fl phi (W *m X) = Some (W' *m X) & W' \in unitmx.
Proof.
move=> T0 p0 fl0 uW; have [D e uD] := C42_invertible_action (W *m X) T0 p0 fl0.
by exists (D *m W); rewrite ?unitmx_mul ?uD // e mulmxA.
Qed.

(** C43: with [max_flooring(eps)], [0 < eps <= 1], a sweep never increases the
    auxiliary cost, whatever the (non-negative) weights and signals. *)
Theorem C43_sweep_monotone N T eps (phi : 'M[R]_(N, T)) (W : 'M[Cx]_N) (X : 'M[Cx]_(N, T)) :
  (0 < T)%N -> (forall k t, (0 <= phi k t)%coqR) -> (0 < eps <= 1)%coqR -> W \in unitmx ->
  exists W', [/\ iss1 (max_flooring eps) phi (W *m X) = Some (W' *m X), W' \in unitmx &
    (iss_cost phi (W' *m X) W' <= iss_cost phi (W *m X) W)%coqR].
Proof.
move=> T0 p0 [e0 e1] uW.
have fl0 x : (0 <= x)%coqR -> (0 < max_flooring eps x)%coqR.
  by move=> x0; apply: Rlt_le_trans (Rmax_r _ _).
have [] := @iss1_loop_ind N T _ phi T0 p0 fl0 (fun Z D =>
  (wpower phi Z - 2 * ln (cabs (\det D)) <= wpower phi (W *m X))%coqR) (W *m X) (enum 'I_N).
- by rewrite det1 cabs1 [ln _]ln_1; lra.
- move=> Z D n uD h.
  have ok := iss_okT T0 p0 fl0 Z n.
  have := @iss_step_cost N T _ phi Z n p0 ok (fun k => Rmax_l _ _)
    (iss_real_floor _ _ (iss_den_ge0 p0 Z n n) (conj e0 e1)).
  rewrite det_mulmx cabsM ln_mult.
  + by move: h; toR; set a := ln _; set b := ln _; lra.
  + by apply: cabs_gt0; rewrite -unitfE -unitmxE iss_step_unit.
  + by apply: cabs_gt0; rewrite -unitfE -unitmxE.
- move=> D [e uD h]; exists (D *m W); split.
  + by rewrite /iss1 e mulmxA.
  + by rewrite unitmx_mul uD.
  + rewrite /iss_cost -mulmxA det_mulmx cabsM ln_mult.
    * by move: h; toR; set a := ln _; set b := ln _; lra.
    * by apply: cabs_gt0; rewrite -unitfE -unitmxE.
    * by apply: cabs_gt0; rewrite -unitfE -unitmxE.
Qed.

(** C43: each step is optimal: no other steering vector for source [n] gives a
    smaller auxiliary cost (without flooring, positive weighted powers). *)
Theorem C43_step_optimal N T (phi : 'M[R]_(N, T)) (Y : 'M[Cx]_(N, T)) n (v : 'I_N -> Cx) :
  (0 < T)%N -> (forall k, (0 < wpower1 (phi k) (Y n))%coqR) -> 1 - v n != 0 ->
  exists D, [/\ iss1_step identity_fl phi Y n = Some (D *m Y), D \in unitmx &
    (wpower phi (D *m Y) - 2 * ln (cabs (\det D)) <=
     wpower phi (steer v n Y) - 2 * ln (cabs (\det (steer_mx v n))))%coqR].
Proof.
move=> T0 pos vn.
have ok : iss_ok identity_fl phi Y n.
  apply/and3P; split=> //; last exact/RltbP/pos.
  by apply/forallP => k; apply/eqP; have := pos k; rewrite -[wpower1 _ _]/(iss_den phi Y n k) /identity_fl; toR; lra.
have d0 := iss_ok_pos ok; have s0 := sqrt_lt_R0 _ d0.
exists (steer_mx (iss_v identity_fl phi Y n) n); split.
- by rewrite /iss1_step ok -steerE.
- apply: steer_unit; rewrite iss_scale // c_eq0; apply/eqP.
  by have := Rinv_0_lt_compat _ s0; toR; lra.
rewrite -steerE !wpower_steer !det_steer iss_scale // cabs_c Rabs_pos_eq; last first.
  by apply: Rlt_le; apply: Rinv_0_lt_compat.
rewrite ln_Rinv // (bigD1 n) //= iss_self // [X in (_ <= X - _)%coqR](bigD1 n) //=.
have : (\sum_(k | k != n) wpower1 (phi k) (fun t => (Y k t - iss_v identity_fl phi Y n k * Y n t)%R)
        <= \sum_(k | k != n) wpower1 (phi k) (fun t => (Y k t - v k * Y n t)%R))%coqR.
  apply: sumR_le => k kn; rewrite /iss_v (negbTE kn).
  exact: (@quad_lower T (phi k) (Y k) (Y n)).
have -> : wpower1 (phi n) (fun t => Y n t - v n * Y n t) =
          (cabs (1 - v n)%R ^ 2 * iss_den phi Y n n)%coqR.
  rewrite -[iss_den _ _ _ _]/(wpower1 (phi n) (Y n)) /wpower1 RpowE RmulE.
  rewrite mulrCA; congr (_ * _); rewrite mulr_sumr; apply: eq_bigr => t _.
  by rewrite -{1}[Y n t]mul1r -mulrBl cabsM exprMn mulrCA.
have := iss_real_self _ _ d0 (cabs_gt0 vn).
have := ln_sqrt2 _ d0.
rewrite /identity_fl.
toR; set x := \sum_(_ | _) _; set y := \sum_(_ | _) _; lra.
Qed.

(** An instance: two sources, two frames, unequal weights. *)
Definition ex_phi : 'M[R]_(2, 2) := \matrix_(k, t) INR (k + t).+1.
Definition ex_X : 'M[Cx]_(2, 2) := \matrix_(k, t) ((k + 2 * t)%N%:R + 'i).
Example C42_instance :
  exists2 D, iss1 (max_flooring (1 / 10)%coqR) ex_phi ex_X = Some (D *m ex_X) & D \in unitmx.
Proof.
apply: C42_invertible_action => //.
  by move=> k t; rewrite mxE; apply: pos_INR.
by move=> x x0; apply: Rlt_le_trans (Rmax_r _ _); lra.
Qed.
Example C43_instance : exists W', [/\
  iss1 (max_flooring (1 / 10)%coqR) ex_phi (1%:M *m ex_X) = Some (W' *m ex_X),
  W' \in unitmx & (iss_cost ex_phi (W' *m ex_X) W' <= iss_cost ex_phi (1%:M *m ex_X) 1%:M)%coqR].
Proof.
apply: C43_sweep_monotone => //; last exact: unitmx1; last lra.
by move=> k t; rewrite mxE; apply: pos_INR.
Qed.

(** Disagreement: with [add_flooring] a sweep can increase the cost (one source,
    one frame, Y = 1, weight 1, eps = 1). *)
Lemma wpower_one (x y : R) :
  wpower (const_mx x : 'M[R]_1) (const_mx (c y) : 'M[Cx]_1) = (x * y ^ 2)%coqR.
Proof.
rewrite /wpower big_ord_recl big_ord0 addr0 /wpower1 big_ord_recl big_ord0 addr0 !mxE.
rewrite cabs_c invr1 mul1r -RpowE.
by rewrite -RmulE pow2_abs.
Qed.

Theorem C43_add_flooring_refuted : exists eps (phi : 'M[R]_1) (Y D : 'M[Cx]_1),
  [/\ (0 < eps)%coqR, forall k t, (0 <= phi k t)%coqR,
      iss1 (add_flooring eps) phi Y = Some (D *m Y), D \in unitmx &
      (iss_cost phi Y 1%:M < iss_cost phi (D *m Y) D)%coqR].
Proof.
pose phi : 'M[R]_1 := const_mx 1%coqR.
pose Y : 'M[Cx]_1 := const_mx (c 1).
have phi0 k t : (0 <= phi k t)%coqR by rewrite mxE; lra.
have fl0 x : (0 <= x)%coqR -> (0 < add_flooring 1 x)%coqR.
  by rewrite /add_flooring; toR; lra.
have ok := @iss_okT 1 1 _ phi isT phi0 fl0 Y ord0.
have den : iss_den phi Y ord0 ord0 = 1%coqR.
  rewrite /iss_den /meanR big_ord_recl big_ord0 addr0 !mxE invr1 mul1r.
  by rewrite c1 cabs1 expr1n mulr1.
have sc := iss_scale ok.
exists 1%coqR, phi, Y, (steer_mx (iss_v (add_flooring 1) phi Y ord0) ord0); split => //.
- lra.
- by rewrite /iss1 enum_ordSl enum_ord0 /= /iss1_loop /= /iss1_step ok -steerE.
- exact: iss_step_unit.
- have e2 : add_flooring 1 1 = 2%coqR by rewrite /add_flooring; toR; lra.
  rewrite den e2 in sc.
  have s2 : (0 < R_sqrt.sqrt 2)%coqR by apply: sqrt_lt_R0; lra.
  rewrite -steerE /iss_cost det_steer det1 sc cabs1 [ln 1]ln_1 cabs_c Rabs_pos_eq; last first.
    by apply: Rlt_le; apply: Rinv_0_lt_compat.
  have -> : steer (iss_v (add_flooring 1) phi Y ord0) ord0 Y = const_mx (c (/ R_sqrt.sqrt 2)%coqR).
    apply/matrixP => i j; rewrite !ord1 !mxE -sc c1 mulr1; congr (1 - _); exact: mulr1.
  rewrite !wpower_one ln_Rinv //.
  have := ln_sqrt2 2; have := ln_lt_2.
  have -> : ((/ R_sqrt.sqrt 2) ^ 2 = / 2)%coqR.
    rewrite -{2}(sqrt_sqrt 2); last lra.
    by Rfield; lra.
  by toR; lra.
Qed.

Print Assumptions C42_invertible_action.
Print Assumptions C42_filter.
Print Assumptions C43_sweep_monotone.
Print Assumptions C43_step_optimal.
Print Assumptions C43_add_flooring_refuted.
