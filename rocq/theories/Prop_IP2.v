(** Property C41: pairwise iterative projection, update_by_ip2
    (/repo/ssspy/bss/_update_spatial_model.py:81-143, 317-395). *)
From Coq Require Import Reals Lra.
From mathcomp Require Import all_ssreflect all_algebra.
From Verif Require Import RStruct MxC CxR NpLin RealLemmas Eigh EighProofs.
From Verif Require Import SpatialIPProofs SpatialIP2 SpatialIP2Proofs Prop_IP1.
Import Order.TTheory GRing.Theory Num.Theory.
Set Implicit Arguments.
Unset Strict Implicit.
Unset Printing Implicit Defensive.
Local Open Scope ring_scope.

Section Contracts.
Variables (eig : eigh_t) (chol : chol_t).
Hypotheses (He : eigh_contract eig) (Hc : chol_contract chol).

(** existence of the eigen-decomposition used by one step *)
Lemma ip2_eig N (U : 'I_N -> 'M[Cx]_N) (W : 'M[Cx]_N) (m n : 'I_N) :
  W \in unitmx -> m != n -> pd (U m) -> pd (U n) ->
  let G := invmx W *m E_mn m n in
  let A := G^H *m invmx (U m) *m G in let B := G^H *m invmx (U n) *m G in
  exists l Z, [/\ eigh2 eig chol A B 1 = Ok (l, Z), A *m Z = B *m Z *m rdiag l,
    Z^H *m B *m Z = 1%:M, Z \in unitmx & (l 0%R 0%R <= l 0%R 1%R)%coqR].
Proof.
move=> uW mn pm pn G A B.
have pA : pd A by exact: pdA.
have pB : pd B by exact: pdB.
have inv2E (M : 'M[Cx]_2) : M \in unitmx -> inv2 M = Some (invmx M).
  by move=> uM; rewrite inv2_spec -[_ == 0]negbK -unitfE -unitmxE uM.
have [l [Z [e1 e2 e3 e4 e5]]] := geigh1 He Hc inv2E (proj1 pA) pB.
by exists l, Z; split=> //; apply: e5.
Qed.

Lemma put_other N (W : 'M[Cx]_N) (m n k : 'I_N) r s : k != m -> k != n ->
  row k (put W m n r s) = row k W.
Proof. by move=> km kn; rewrite /put !row_setrow_neq. Qed.

(** C41: one pair update without flooring succeeds, changes rows [m] and [n]
    only, and both new rows satisfy the IP normal equations
    [W' U_k w_k = e_k]; the new filter is invertible. *)
Theorem C41_normal_equations N (U : 'I_N -> 'M[Cx]_N) (W : 'M[Cx]_N) (m n : 'I_N) :
  W \in unitmx -> m != n -> pd (U m) -> pd (U n) ->
  exists W', [/\ ip2_step eig chol identity_fl U W (m, n) = Some W',
    forall k, k != m -> k != n -> row k W' = row k W,
    W' *m U m *m (row m W')^H = delta_mx m 0,
    W' *m U n *m (row n W')^H = delta_mx n 0 & W' \in unitmx].
Proof.
move=> uW mn pm pn; have [l [Z [eE AZ ZBZ uZ sl]]] := ip2_eig uW mn pm pn.
have l0 := l_gt0 uW mn pm AZ ZBZ uZ 1.
have s0 := sqrt_lt_R0 _ l0.
have ss : (R_sqrt.sqrt (l 0%R 1%R) ^ 2 = l 0%R 1%R)%coqR by rewrite pow2_sqrt //; lra.
rewrite (ip2_stepE uW mn pm pn AZ ZBZ uZ eE) /identity_fl; last 2 first.
- by apply/eqP; toR; lra.
- by apply/eqP; toR; lra.
eexists; split; first reflexivity.
- by move=> k km kn; rewrite put_other.
- have -> : row m (put W m n (rm U W m n Z (R_sqrt.sqrt (l 0 1))) (rn U W m n Z 1)) =
            rm U W m n Z (R_sqrt.sqrt (l 0 1)).
    by rewrite /put row_setrow_neq // row_setrow.
  rewrite (stationary_m uW mn pm pn AZ ZBZ) // ss.
  by rewrite (_ : (_ / _)%coqR = 1%coqR) ?cR1 ?scale1r //; Rfield; lra.
- rewrite {2}/put row_setrow (stationary_n uW pm pn AZ ZBZ) //; last exact: Rlt_0_1.
  by rewrite (_ : (_ / _)%coqR = 1%coqR) ?cR1 ?scale1r //; Rfield.
- by apply: (new2_unit uW mn pm pn AZ ZBZ uZ) => //; lra.
Qed.

(** C41: the updated pair is a global minimiser: every invertible matrix which
    agrees with [W] outside the two rows has at least the same auxiliary cost. *)
Theorem C41_pair_global_minimum N (U : 'I_N -> 'M[Cx]_N) (W V : 'M[Cx]_N) (m n : 'I_N) :
  W \in unitmx -> m != n -> pd (U m) -> pd (U n) -> V \in unitmx ->
  (forall k, k != m -> k != n -> row k V = row k W) ->
  exists2 W', ip2_step eig chol identity_fl U W (m, n) = Some W' &
    (aux_cost U W' <= aux_cost U V)%coqR.
Proof.
move=> uW mn pm pn uV eV; have [l [Z [eE AZ ZBZ uZ sl]]] := ip2_eig uW mn pm pn.
have l0 := l_gt0 uW mn pm AZ ZBZ uZ 1.
have s0 := sqrt_lt_R0 _ l0.
have ss : (R_sqrt.sqrt (l 0%R 1%R) ^ 2 = l 0%R 1%R)%coqR by rewrite pow2_sqrt //; lra.
rewrite (ip2_stepE uW mn pm pn AZ ZBZ uZ eE) /identity_fl; last 2 first.
- by apply/eqP; toR; lra.
- by apply/eqP; toR; lra.
eexists; first reflexivity.
have -> : V = put W m n (row m V) (row n V).
  apply/row_matrixP => k; rewrite /put.
  case: (eqVneq k n) => [->|kn]; first by rewrite row_setrow.
  rewrite row_setrow_neq //; case: (eqVneq k m) => [->|km]; first by rewrite row_setrow.
  by rewrite row_setrow_neq // eV.
have d0 : D2 (row m V *m (invmx W *m E_mn m n)) (row n V *m (invmx W *m E_mn m n)) != 0.
  apply/eqP => e; have := det_put uW mn (row m V) (row n V); rewrite e mul0r.
  have -> : put W m n (row m V) (row n V) = V.
    apply/row_matrixP => k; rewrite /put.
    case: (eqVneq k n) => [->|kn]; first by rewrite row_setrow.
    rewrite row_setrow_neq //; case: (eqVneq k m) => [->|km]; first by rewrite row_setrow.
    by rewrite row_setrow_neq // eV.
  by move=> /eqP; apply/negP; rewrite -unitfE -unitmxE.
have := pair_lower uW mn pm pn AZ ZBZ uZ sl d0.
rewrite (new2_cost uW mn pm pn AZ ZBZ uZ) //; last lra.
rewrite ss ln_1; have := ln_sqrt2 _ l0.
have -> : (l 0%R 1%R / l 0%R 1%R = 1)%coqR by Rfield; lra.
have -> : (1 / 1 ^ 2 = 1)%coqR by Rfield.
lra.
Qed.

(** C41: a whole sweep over any list of pairs of different sources never fails,
    keeps the filter invertible and never increases the auxiliary cost. *)
Theorem C41_sweep_monotone N (U : 'I_N -> 'M[Cx]_N) (W : 'M[Cx]_N) ps :
  (forall k, pd (U k)) -> W \in unitmx -> all (fun p => p.1 != p.2) ps ->
  exists W', [/\ ip2 eig chol identity_fl U ps W = Some W', W' \in unitmx &
    (aux_cost U W' <= aux_cost U W)%coqR].
Proof.
move=> pU; elim: ps W => [|[m n] ps IH] W uW /=.
  by move=> _; exists W; split=> //; apply: Rle_refl.
case/andP => mn ap; rewrite /ip2 /=.
have [W1 [e1 _ _ _ u1]] := C41_normal_equations uW mn (pU m) (pU n).
have [W2 e2 c2] := C41_pair_global_minimum uW mn (pU m) (pU n) uW (fun _ _ _ => erefl).
rewrite e1 in e2; case: e2 => e2; subst W2.
have [W' [eW' uW' cW']] := IH _ u1 ap.
by exists W'; split=> //; [rewrite e1|apply: Rle_trans cW' c2].
Qed.

(** C41: with an arbitrary flooring function which keeps positive values
    positive the sweep still never fails and keeps the filter invertible. *)
Theorem C41_sweep_invertible N fl (U : 'I_N -> 'M[Cx]_N) (W : 'M[Cx]_N) ps :
  (forall x, (0 < x)%coqR -> (0 < fl x)%coqR) ->
  (forall k, pd (U k)) -> W \in unitmx -> all (fun p => p.1 != p.2) ps ->
  exists2 W', ip2 eig chol fl U ps W = Some W' & W' \in unitmx.
Proof.
move=> hfl pU; elim: ps W => [|[m n] ps IH] W uW /=; first by move=> _; exists W.
case/andP => mn ap; rewrite /ip2 /=.
have [pm pn] := (pU m, pU n).
have [l [Z [eE AZ ZBZ uZ sl]]] := ip2_eig uW mn pm pn.
have s0 := hfl _ (sqrt_lt_R0 _ (l_gt0 uW mn pm AZ ZBZ uZ 1)).
have f1 := hfl _ Rlt_0_1.
have [W' eW' uW'] := IH _ (new2_unit uW mn pm pn AZ ZBZ uZ s0 f1) ap.
exists W' => //; rewrite -eW' (ip2_stepE uW mn pm pn AZ ZBZ uZ eE) //.
  by apply/eqP => e; move: s0; rewrite e => /Rlt_irrefl.
by apply/eqP => e; move: f1; rewrite -/(IZR 1) e => /Rlt_irrefl.
Qed.

(** C41: max_flooring(eps) with eps <= 1 changes nothing as soon as the weighted
    covariance [U_n] is not smaller than [eps^2 U_m] in every direction of the
    pair: some combination [x] of columns [m] and [n] of W^{-1} has
    [x^H U_m^{-1} x >= eps^2 x^H U_n^{-1} x]. *)
Theorem C41_flooring_inactive N (U : 'I_N -> 'M[Cx]_N) (W : 'M[Cx]_N) (m n : 'I_N)
    (h : 'cV[Cx]_2) eps :
  let x := invmx W *m (E_mn m n *m h) in
  W \in unitmx -> m != n -> pd (U m) -> pd (U n) -> (0 < eps <= 1)%coqR -> h != 0 ->
  (eps ^ 2 * re (form (invmx (U n)) x x) <= re (form (invmx (U m)) x x))%coqR ->
  ip2_step eig chol (max_flooring eps) U W (m, n) = ip2_step eig chol identity_fl U W (m, n).
Proof.
move=> x uW mn pm pn [e0 e1] h0 hx.
have [l [Z [eE AZ ZBZ uZ sl]]] := ip2_eig uW mn pm pn.
have l0 := l_gt0 uW mn pm AZ ZBZ uZ.
have s0 := sqrt_lt_R0 _ (l0 1).
suff le : (eps <= R_sqrt.sqrt (l 0%R 1%R))%coqR.
  have g1 : R_sqrt.sqrt (l 0 1) != 0 by apply/eqP; toR; lra.
  have g2 : (1%coqR : R) != 0 by apply/eqP; toR; lra.
  rewrite !(ip2_stepE uW mn pm pn AZ ZBZ uZ eE) /identity_fl /max_flooring ?Rmax_left //.
have exm : form (invmx (U m)) x x = form (rdiag l) (invmx Z *m h) (invmx Z *m h).
  by rewrite -(ZAZ AZ ZBZ) -formM mulKVmx // -formM /x mulmxA.
have exn : form (invmx (U n)) x x = form 1%:M (invmx Z *m h) (invmx Z *m h).
  by rewrite -ZBZ -formM mulKVmx // -formM /x mulmxA.
have y0 : invmx Z *m h != 0.
  by apply: contra h0 => /eqP e; apply/eqP; apply: (unit_inj _ e); rewrite unitmx_inv.
move: exm exn y0 hx; move: (invmx Z *m h) => y -> ->; rewrite form_rdiag form1E !rec !sum2.
move=> y0; rewrite -!RaddE -!RmulE -!RpowE => hx.
apply: Rsqr_incr_0_var; last lra.
rewrite Rsqr_sqrt; last by have := l0 1; lra.
rewrite /Rsqr; apply: Rnot_lt_le => lt.
have p : (0 < cabs (y 0%R 0%R) ^ 2 + cabs (y 1%R 0%R) ^ 2)%coqR.
  have /gt0_cre[_] := proj2 (@pd1 Cx 2) y y0.
  by rewrite form1E rec sum2 -!RpowE.
have p0 : (0 <= cabs (y 0%R 0%R) ^ 2)%coqR by apply: pow2_ge_0.
have p1 : (0 <= cabs (y 1%R 0%R) ^ 2)%coqR by apply: pow2_ge_0.
move: hx p p0 p1; set a := (cabs (y 0%R 0%R) ^ 2)%coqR; set b := (cabs (y 1%R 0%R) ^ 2)%coqR.
by clearbody a b; move: lt sl; set u := l 0 0; set v := l 0 1; clearbody u v => *; nra.
Qed.

(** C41: with max_flooring the cost can increase, for every eps in (0,1]: when
    the covariances of the two sources differ by a factor below eps^2, the floor
    on the generalised eigenvalue is active and shrinks the row. *)
Definition refU (l : R) (k : 'I_2) : 'M[Cx]_2 :=
  rdiag (\row_j if k == 0 then (if j == 0 then 1%coqR else (/ l)%coqR)
               else (if j == 0 then l else 1%coqR)).

Lemma refU_pd l k : (0 < l)%coqR -> pd (refU l k).
Proof.
move=> l0; apply: pd_rdiag => i; rewrite mxE; have := Rinv_0_lt_compat _ l0.
by case: ifP => _; case: ifP => _; lra.
Qed.

Lemma E_mn01 : E_mn (0 : 'I_2) 1 = 1%:M.
Proof.
by apply/matrixP => i j; rewrite !mxE; case: (ord2P i) => ->; case: (ord2P j) => ->.
Qed.

Theorem C41_max_flooring_refuted eps : (0 < eps <= 1)%coqR ->
  exists (U : 'I_2 -> 'M[Cx]_2) (W W' : 'M[Cx]_2),
    [/\ forall k, pd (U k), W \in unitmx,
        ip2 eig chol (max_flooring eps) U [:: (0, 1)] W = Some W' &
        (aux_cost U W < aux_cost U W')%coqR].
Proof.
move=> [e0 e1]; pose l0 := (eps ^ 2 / 4)%coqR.
have l0p : (0 < l0)%coqR by rewrite /l0; nra.
pose U := refU l0; pose W : 'M[Cx]_2 := 1%:M.
have pU k : pd (U k) by exact: refU_pd.
have uW : W \in unitmx by rewrite unitmx1.
have mn : (0 : 'I_2) != 1 by [].
have [l [Z [eE AZ ZBZ uZ sl]]] := ip2_eig uW mn (pU 0) (pU 1).
have lp := l_gt0 uW mn (pU 0) AZ ZBZ uZ.
have inv_rd (d d' : 'rV[R]_2) : (forall j, d 0%R j * d' 0%R j = 1)%coqR ->
    invmx (rdiag d) = rdiag d'.
  move=> h; have E : rdiag d *m rdiag d' = 1%:M.
    by rewrite rdiagM -rdiag1; congr rdiag; apply/rowP => i; rewrite !mxE -RmulE h.
  by have [u _] := mulmx1_unit E; rewrite -[RHS](mulKmx u) E mulmx1.
set G := invmx W *m E_mn 0 1 in eE AZ ZBZ.
have G1 : G = 1%:M by rewrite /G /W invmx1 mul1mx E_mn01.
have il : (l0 * / l0 = 1)%coqR by rewrite Rinv_r; lra.
have U0i : invmx (U 0) = rdiag (\row_j if j == 0 then 1%coqR else l0).
  by apply: inv_rd => j; rewrite !mxE /=; case: ifP => _; lra.
have U1i : invmx (U 1) = rdiag (\row_j if j == 0 then (/ l0)%coqR else 1%coqR).
  by apply: inv_rd => j; rewrite !mxE /=; case: ifP => _; lra.
have AB : invmx (U 0) = c l0 *: invmx (U 1).
  rewrite U0i U1i; apply/matrixP => i j; rewrite !mxE.
  case: (ord2P i) => ->; case: (ord2P j) => -> /=; rewrite ?mulr0n ?mulr0 ?mulr1n // -cRM.
    by rewrite il.
  by rewrite Rmult_1_r.
have BB : G^H *m invmx (U 1) *m G = invmx (U 1) by rewrite G1 ctr1 mul1mx mulmx1.
have AA : G^H *m invmx (U 0) *m G = c l0 *: invmx (U 1) by rewrite G1 ctr1 mul1mx mulmx1.
have l1E : l 0 1 = l0.
  have h := ZAZ AZ ZBZ; rewrite AA -scalemxAr -scalemxAl -{1}BB ZBZ in h.
  by have := congr1 (fun M : 'M[Cx]_2 => M 1 1) h; rewrite !mxE eqxx mulr1n mulr1 => /c_inj.
have dZ : (2 * ln (cabs (\det Z)) = ln l0)%coqR.
  have := congr1 (@determinant _ _) ZBZ; rewrite BB !det_mulmx det_ctr det1 U1i det_diag.
  rewrite big_ord_recl big_ord_recl big_ord0 !mxE /= mulr1 cR1 mulr1 => h.
  have h2 : (cabs (\det Z) ^ 2 * / l0 = 1)%coqR.
    apply: c_inj; rewrite cRM RpowE cabs_sqr cR1 -h; move: (\det Z) => z.
    by rewrite -mulrA mulrC.
  have z0 : (0 < cabs (\det Z))%coqR by apply: cabs_gt0; rewrite -unitfE -unitmxE.
  have -> : l0 = (cabs (\det Z) ^ 2)%coqR by rewrite -[LHS]Rmult_1_r -h2; Rfield; lra.
  by rewrite ln_sqr.
have sq : R_sqrt.sqrt l0 = (eps / 2)%coqR.
  rewrite (_ : l0 = ((eps / 2) * (eps / 2))%coqR); last by rewrite /l0; Rfield.
  by apply: sqrt_square; lra.
have fm : max_flooring eps (R_sqrt.sqrt (l 0 1)) = eps.
  by rewrite l1E sq /max_flooring Rmax_right //; lra.
have fn : max_flooring eps 1 = 1%coqR by rewrite /max_flooring Rmax_left.
exists U, W; eexists; split=> //.
  rewrite /ip2 /= (ip2_stepE uW mn (pU 0) (pU 1) AZ ZBZ uZ eE) ?fm ?fn; first reflexivity.
  - by apply/eqP; toR; lra.
  - by apply/eqP; toR; lra.
rewrite (new2_cost uW mn (pU 0) (pU 1) AZ ZBZ uZ); [|lra|lra].
rewrite -{1}(put_id W 0 1) (put_cost _ uW mn); last by rewrite D2_id // oner_eq0.
rewrite D2_id // cabs1 -R1E !ln_1 dZ l1E.
have q (k : 'I_2) : quad (U k) (row k W) = 1%coqR.
  have h : row k W = delta_mx 0 k by apply/rowP => j; rewrite !mxE !eqxx eq_sym.
  rewrite /quad h -rowE ctr_delta -colE !mxE eqxx mulr1n rec.
  by case: (ord2P k) => ->.
rewrite !q.
have -> : (l0 / eps ^ 2 = 1 / 4)%coqR by rewrite /l0; Rfield; lra.
have lnl : (ln l0 = 2 * ln eps - ln 4)%coqR.
  rewrite /l0 /Rdiv ln_mult; [|nra|lra]; rewrite ln_Rinv; last lra.
  by rewrite ln_sqr; lra.
rewrite lnl.
have l4 : (1 < ln 4)%coqR.
  by rewrite -{1}(ln_exp 1); apply: ln_increasing; [exact: exp_pos|have := exp_le_3; lra].
have -> : (1 / 1 ^ 2 = 1)%coqR by Rfield.
lra.
Qed.
End Contracts.

Example C41_instance : exists eig chol, exists2 W', eigh_contract eig /\ chol_contract chol &
  ip2 eig chol identity_fl exU [:: (0, 1)] exW = Some W' /\ (aux_cost exU W' <= aux_cost exU exW)%coqR.
Proof.
have [eig He] := eigh_contract_sat; have [chol Hc] := chol_contract_sat.
have [W' [e _ h]] := C41_sweep_monotone He Hc (ps := [:: (0, 1)]) exU_pd exW_unit isT.
by exists eig, chol, W'.
Qed.

Example C41_flooring_instance : let x := invmx exW *m (E_mn (0 : 'I_2) 1 *m const_mx 1) in
  ((1 / 2) ^ 2 * re (form (invmx (exU 0%R)) x x) <= re (form (invmx (exU 0%R)) x x))%coqR.
Proof.
move=> x; have [_ /(_ x)/ge0_cre[_]] := pd_psd (pd_inv (exU_pd 0)).
by set a := re _ => a0; nra.
Qed.

Print Assumptions C41_normal_equations.
Print Assumptions C41_pair_global_minimum.
Print Assumptions C41_sweep_monotone.
Print Assumptions C41_sweep_invertible.
Print Assumptions C41_flooring_inactive.
Print Assumptions C41_max_flooring_refuted.
