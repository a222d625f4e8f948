(** Property C44: pairwise iterative source steering, update_by_iss2
    (/repo/ssspy/bss/_update_spatial_model.py:197-314). *)
From Coq Require Import Reals Lra.
From mathcomp Require Import all_ssreflect all_algebra.
From Verif Require Import RStruct MxC CxR NpLin RealLemmas Eigh EighProofs.
From Verif Require Import SpatialIPProofs SpatialISS SpatialISSProofs SpatialIP2 SpatialIP2Proofs.
From Verif Require Import SpatialISS2 SpatialISS2Proofs.
Import Order.TTheory GRing.Theory Num.Theory.
Set Implicit Arguments.
Unset Strict Implicit.
Unset Printing Implicit Defensive.
Local Open Scope ring_scope.

Section Contracts.
Variables (eig : eigh_t) (chol : chol_t).
Hypotheses (He : eigh_contract eig) (Hc : chol_contract chol).

Lemma pG_of N T (phi : 'M[R]_(N, T)) (Y : 'M[Cx]_(N, T)) (m n : 'I_N) :
  m != n -> (forall k t, (0 < phi k t)%coqR) -> row_free Y ->
  forall k, pd (iss2_G (row k phi) (pairY m n Y)).
Proof.
move=> mn p0 fY k; apply: G_pd; last exact: pairY_free.
by move=> t; rewrite mxE.
Qed.

(** C44: one pair update keeps the order of the sources for both orders of the
    pair, multiplies the signals by an invertible matrix which differs from the
    identity in columns [m] and [n] only, and rows [m], [n] of the output are
    combinations of rows [m] and [n] of the input. *)
Theorem C44_step_invertible N T fl (phi : 'M[R]_(N, T)) (Y : 'M[Cx]_(N, T)) (m n : 'I_N) :
  (0 < T)%N -> m != n -> (forall x, (0 < x)%coqR -> (0 < fl x)%coqR) ->
  (forall k t, (0 < phi k t)%coqR) -> row_free Y ->
  exists V : 'M[Cx]_N, [/\ V \in unitmx,
    iss2_step eig chol fl (rowsof phi) (rowsof Y) (val m, val n) = Some (rowsof (V *m Y)) &
    forall k j, j != m -> j != n -> V k j = (k == j)%:R].
Proof.
move=> T0 mn fl0 p0 fY; have pG := pG_of mn p0 fY.
have [l [Z [e2 e3 e4 sl e]]] := iss2_step_mx He Hc T0 mn fl0 pG.
eexists; split; last 2 first.
- exact: e.
- by move=> k j jm jn; rewrite mxE (negbTE jm) (negbTE jn).
have l0 := m2_l_gt0 (pG m) e2 e3 e4 0.
rewrite unitmxE det_steer2 // eqxx [n == m]eq_sym (negbTE mn) eqxx unitfE.
by apply: p_unit => //; apply: fl0; [apply: sqrt_lt_R0|exact: Rlt_0_1].
Qed.

(** C44: without flooring the step is optimal: every steering matrix which
    differs from the identity in columns [m], [n] only has at least its cost. *)
Theorem C44_step_optimal N T (phi : 'M[R]_(N, T)) (Y : 'M[Cx]_(N, T)) (m n : 'I_N) (V : 'M[Cx]_N) :
  (0 < T)%N -> m != n -> (forall k t, (0 < phi k t)%coqR) -> row_free Y ->
  V \in unitmx -> (forall k j, j != m -> j != n -> V k j = (k == j)%:R) ->
  exists V', [/\ V' \in unitmx,
    iss2_step eig chol identity_fl (rowsof phi) (rowsof Y) (val m, val n) = Some (rowsof (V' *m Y)) &
    (wpower phi (V' *m Y) - 2 * ln (cabs (\det V')) <= wpower phi (V *m Y) - 2 * ln (cabs (\det V)))%coqR].
Proof.
move=> T0 mn p0 fY uV hV; have pG := pG_of mn p0 fY.
have [l [Z [e2 e3 e4 sl e]]] := iss2_step_mx He Hc T0 mn (fl := identity_fl) (fun x h => h) pG.
have l0 := m2_l_gt0 (pG m) e2 e3 e4 0; have s0 := sqrt_lt_R0 _ l0.
have nm : (n == m) = false by rewrite eq_sym (negbTE mn).
eexists; split; last 1 first; last exact: e.
- pose a k : 'rV[Cx]_2 := \row_i V k (if i == 0 then m else n).
  have eV : V = steer2 m n a.
    apply/matrixP => k j; rewrite !mxE /=; case: (eqVneq j m) => [->//|jm].
    by case: (eqVneq j n) => [->//|jn]; rewrite hV.
  have d0 : D2 (a m) (a n) != 0 by rewrite -det_steer2 // -eV -unitfE -unitmxE.
  rewrite eV; apply: Rle_trans (iss2_cost_lower mn pG d0).
  rewrite !det_steer2 // !wpower_steer2 // !eqxx nm !andbF /=.
  rewrite (eq_bigr (fun k => quad (Dw (row k phi)) (row k Y + (iss2_q phi Y m n k)^H *m pairY m n Y))); last first.
    by move=> k /andP[/negbTE -> /negbTE ->].
  rewrite [X in (_ <= X + _ + _ - _)%coqR](eq_bigr (fun k => quad (Dw (row k phi)) (row k Y + (iss2_q phi Y m n k)^H *m pairY m n Y))); last first.
    by move=> k ->.
  have := m2_lower (pG m) e2 e3 e4 sl d0; have := p_cost e2 e3 e4 s0 Rlt_0_1.
  rewrite /pair_cost /identity_fl ln_1 pow2_sqrt; last lra.
  have -> : (l 0%R 0%R / l 0%R 0%R = 1)%coqR by Rfield; lra.
  have -> : (1 / 1 ^ 2 = 1)%coqR by Rfield.
  have := ln_sqrt2 _ l0.
  set S := \sum_(_ | _) _; set q1 := quad _ _; set q2 := quad _ _; set q3 := quad _ _; set q4 := quad _ _.
  lra.
- rewrite unitmxE det_steer2 // eqxx nm eqxx unitfE.
  by apply: p_unit => //; exact: Rlt_0_1.
Qed.

(** C44: a whole sweep over any list of pairs of different sources. *)
Theorem C44_sweep_invertible N T fl (phi : 'M[R]_(N, T)) (W : 'M[Cx]_N) (X : 'M[Cx]_(N, T))
    (ps : seq ('I_N * 'I_N)) :
  (0 < T)%N -> (forall x, (0 < x)%coqR -> (0 < fl x)%coqR) ->
  (forall k t, (0 < phi k t)%coqR) -> row_free X -> W \in unitmx -> all (fun p => p.1 != p.2) ps ->
  exists2 W', iss2 eig chol fl (rowsof phi) [seq (val p.1, val p.2) | p <- ps] (rowsof (W *m X)) =
    Some (rowsof (W' *m X)) & W' \in unitmx.
Proof.
move=> T0 fl0 p0 fX; elim: ps W => [|[m n] ps IH] W uW /=; first by move=> _; exists W.
case/andP => mn ap.
have fY : row_free (W *m X) by rewrite -row_free_unit in uW; rewrite /row_free mxrankMfree.
have [V [uV e _]] := C44_step_invertible T0 mn fl0 p0 fY.
have [|W' e' u'] := IH (V *m W) _ ap; first by rewrite unitmx_mul uV.
by exists W' => //; rewrite /iss2 /= e mulmxA.
Qed.

Theorem C44_sweep_monotone N T (phi : 'M[R]_(N, T)) (W : 'M[Cx]_N) (X : 'M[Cx]_(N, T))
    (ps : seq ('I_N * 'I_N)) :
  (0 < T)%N -> (forall k t, (0 < phi k t)%coqR) -> row_free X -> W \in unitmx ->
  all (fun p => p.1 != p.2) ps ->
  exists W', [/\ iss2 eig chol identity_fl (rowsof phi) [seq (val p.1, val p.2) | p <- ps] (rowsof (W *m X)) =
    Some (rowsof (W' *m X)), W' \in unitmx &
    (iss_cost phi (W' *m X) W' <= iss_cost phi (W *m X) W)%coqR].
Proof.
move=> T0 p0 fX; elim: ps W => [|[m n] ps IH] W uW /=.
  by move=> _; exists W; split=> //; apply: Rle_refl.
case/andP => mn ap.
have fY : row_free (W *m X) by rewrite -row_free_unit in uW; rewrite /row_free mxrankMfree.
have h1 (k j : 'I_N) : j != m -> j != n -> (1%:M : 'M[Cx]_N) k j = (k == j)%:R by rewrite mxE.
have [V [uV e le]] := C44_step_optimal T0 mn p0 fY (unitmx1 _ _) h1.
have [|W' [e' u' le']] := IH (V *m W) _ ap; first by rewrite unitmx_mul uV.
exists W'; split=> //; first by rewrite /iss2 /= e mulmxA.
apply: Rle_trans le' _; rewrite /iss_cost det_mulmx cabsM ln_mult; last 2 first.
- by apply: cabs_gt0; rewrite -unitfE -unitmxE.
- by apply: cabs_gt0; rewrite -unitfE -unitmxE.
by move: le; rewrite mul1mx det1 cabs1 [ln 1]ln_1 mulmxA;
  move: (ln (cabs (\det V))) (ln (cabs (\det W))) (wpower _ _) (wpower _ _) => a b x y; toR; lra.
Qed.

(** C44: with max_flooring(eps) the cost can increase, for every eps in (0,1]. *)
Definition refphi (l0 : R) : 'M[R]_(2, 2) :=
  \matrix_(k, t) (2 * (if k == 0%R then (if t == 0%R then 1 else l0) else (if t == 0%R then / l0 else 1)))%coqR.

Lemma refG l0 k : iss2_G (row k (refphi l0)) (pairY 0 1 (1%:M : 'M[Cx]_2)) =
  rdiag (\row_t (refphi l0 k t / 2)%coqR).
Proof.
have -> : pairY 0 1 (1%:M : 'M[Cx]_2) = 1%:M.
  by apply/matrixP => i j; rewrite !mxE; case: (ord2P i) => ->.
rewrite iss2_GE ctr1 mulmx1 mul1mx /Dw; congr rdiag; apply/rowP => t.
rewrite !mxE; set x := (2 * _)%coqR; rewrite RdivE; last lra.
by rewrite mulrC; congr (_ * _ ^-1).
Qed.

Theorem C44_max_flooring_refuted eps : (0 < eps <= 1)%coqR ->
  exists (phi : 'M[R]_(2, 2)) (W W' X : 'M[Cx]_2),
    [/\ forall k t, (0 < phi k t)%coqR, W \in unitmx, row_free X,
        iss2 eig chol (max_flooring eps) (rowsof phi) [:: (0%N, 1%N)] (rowsof (W *m X)) =
          Some (rowsof (W' *m X)) &
        (iss_cost phi (W *m X) W < iss_cost phi (W' *m X) W')%coqR].
Proof.
move=> [e0 e1]; pose l0 := (eps ^ 2 / 4)%coqR.
have l0p : (0 < l0)%coqR by rewrite /l0; nra.
have il := Rinv_0_lt_compat _ l0p.
pose phi := refphi l0; pose X : 'M[Cx]_2 := 1%:M.
have p0 k t : (0 < phi k t)%coqR.
  by rewrite mxE; case: ifP => _; case: ifP => _; lra.
have mn : (0 : 'I_2) != 1 by [].
have fX : row_free X by rewrite row_free_unit unitmx1.
have pG := pG_of mn p0 fX.
have fl0 x : (0 < x)%coqR -> (0 < max_flooring eps x)%coqR.
  by move=> x0; apply: Rlt_le_trans (Rmax_r _ _).
have [l [Z [e2 e3 e4 sl e]]] := iss2_step_mx He Hc (isT : (0 < 2)%N) mn fl0 pG.
have AB : iss2_G (row 0 phi) (pairY 0 1 X) = c l0 *: iss2_G (row 1 phi) (pairY 0 1 X).
  rewrite !refG; apply/matrixP => i j; rewrite !mxE.
  case: (ord2P i) => ->; case: (ord2P j) => -> /=; rewrite ?mulr0n ?mulr0 ?mulr1n // -cRM.
    by congr c; Rfield; lra.
  by congr c; Rfield; lra.
have lE : l 0 0 = l0.
  have h := m2_ZAZ e2 e3; rewrite AB -scalemxAr -scalemxAl e3 in h.
  by have := congr1 (fun M : 'M[Cx]_2 => M 0 0) h; rewrite !mxE eqxx mulr1n mulr1 => /c_inj.
have dZ : (2 * ln (cabs (\det Z^H)) = ln l0)%coqR.
  have := congr1 (@determinant _ _) e3; rewrite !det_mulmx det1 refG det_diag.
  rewrite big_ord_recl big_ord_recl big_ord0 !mxE /= mulr1.
  have -> : (2 * / l0 / 2 = / l0)%coqR by Rfield; lra.
  have -> : (2 * 1 / 2 = 1)%coqR by Rfield.
  rewrite cR1 mulr1 det_ctr => h; rewrite cabs_conj.
  have h2 : (cabs (\det Z) ^ 2 * / l0 = 1)%coqR.
    apply: c_inj; rewrite cRM RpowE cabs_sqr cR1 -h; move: (\det Z) => z.
    by rewrite -mulrA mulrC.
  have z0 : (0 < cabs (\det Z))%coqR by apply: cabs_gt0; rewrite -unitfE -unitmxE.
  have -> : l0 = (cabs (\det Z) ^ 2)%coqR by rewrite -[LHS]Rmult_1_r -h2; Rfield; lra.
  by rewrite ln_sqr.
have sq : R_sqrt.sqrt l0 = (eps / 2)%coqR.
  rewrite (_ : l0 = ((eps / 2) * (eps / 2))%coqR); last by rewrite /l0; Rfield.
  by apply: sqrt_square; lra.
have fm : max_flooring eps (R_sqrt.sqrt (l 0 0)) = eps.
  by rewrite lE sq /max_flooring Rmax_right //; lra.
have fn : max_flooring eps 1 = 1%coqR by rewrite /max_flooring Rmax_left.
rewrite fm fn in e.
exists phi, 1%:M; eexists; exists X; split=> //; first by rewrite unitmx1.
  by rewrite /iss2 /= mul1mx; exact: e.
rewrite /iss_cost det_steer2 // wpower_steer2 //= mul1mx det1 cabs1 [ln 1]ln_1.
rewrite big1 => [|k]; last by case: (ord2P k) => ->.
have := p_cost e2 e3 e4 e0 Rlt_0_1; rewrite /pair_cost lE dZ ln_1.
have -> : (l0 / eps ^ 2 = 1 / 4)%coqR by rewrite /l0; Rfield; lra.
have lnl : (ln l0 = 2 * ln eps - ln 4)%coqR.
  rewrite /l0 /Rdiv ln_mult; [|nra|lra]; rewrite ln_Rinv; last lra.
  by rewrite ln_sqr; lra.
rewrite lnl.
have l4 : (1 < ln 4)%coqR.
  by rewrite -{1}(ln_exp 1); apply: ln_increasing; [exact: exp_pos|have := exp_le_3; lra].
have -> : (1 / 1 ^ 2 = 1)%coqR by Rfield.
have -> : wpower phi X = 2%coqR.
  rewrite /wpower /wpower1 !big_ord_recl !big_ord0 !mxE /= cabs0 cabs1 !expr0n /= !mulr0 !expr1n.
  rewrite !addr0 !add0r !mulr1.
  have -> : (2%:R : R)^-1 = (/ 2)%coqR by rewrite RinvE //; lra.
  by toR; Rfield.
by rewrite -R0E; lra.
Qed.
End Contracts.

(** the hypotheses are met by a 3-source mixture, pairs given in both orders *)
Example C44_instance : exists eig chol W', [/\ eigh_contract eig, chol_contract chol,
  iss2 eig chol identity_fl (rowsof (const_mx 1 : 'M[R]_(3, 3))) [:: (0%N, 1%N); (2%N, 1%N)]
    (rowsof (1%:M *m (1%:M : 'M[Cx]_3))) = Some (rowsof (W' *m (1%:M : 'M[Cx]_3))) & W' \in unitmx].
Proof.
have [eig He] := eigh_contract_sat; have [chol Hc] := chol_contract_sat.
have [] := @C44_sweep_monotone eig chol He Hc 3 3 (const_mx 1) 1%:M 1%:M
  [:: (0, 1); (inord 2, 1)].
- by [].
- by move=> k t; rewrite mxE; exact: Rlt_0_1.
- by rewrite row_free_unit unitmx1.
- exact: unitmx1.
- by rewrite /= andbT -val_eqE /= inordK.
by move=> W' [e u _]; exists eig, chol, W'; split=> //; move: e; rewrite /= inordK.
Qed.

Print Assumptions C44_step_invertible.
Print Assumptions C44_step_optimal.
Print Assumptions C44_sweep_invertible.
Print Assumptions C44_sweep_monotone.
Print Assumptions C44_max_flooring_refuted.
