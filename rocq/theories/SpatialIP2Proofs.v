From Coq Require Import Reals Lra.
From mathcomp Require Import all_ssreflect all_algebra.
From mathcomp.algebra_tactics Require Import ring.
From Verif Require Import RStruct MxC CxR NpLin RealLemmas Eigh EighProofs.
From Verif Require Import SpatialIPProofs SpatialIP2.
Import Order.TTheory GRing.Theory Num.Theory.
Set Implicit Arguments.
Unset Strict Implicit.
Unset Printing Implicit Defensive.
Local Open Scope ring_scope.

(** lower bound of a quadratic form given its coordinates [r K] *)
Lemma proj_lower N p (U : 'M[Cx]_N) (K : 'M[Cx]_(N, p)) (D : 'M[Cx]_p) (r : 'rV[Cx]_N) :
  pd U -> K^H *m invmx U *m K = D -> D \in unitmx ->
  (re (((r *m K) *m invmx D *m (r *m K)^H) 0%R 0%R) <= quad U r)%coqR.
Proof.
move=> pU KD uD; have uU := pd_unit pU; have hU := proj1 pU.
have hD : D^H = D by rewrite -KD !ctrM ctrK ctr_inv hU mulmxA.
pose y := invmx U *m K *m invmx D *m (r *m K)^H.
have e1 : form U r^H y = ((r *m K) *m invmx D *m (r *m K)^H) 0 0.
  by rewrite /form /y ctrK -!mulmxA mulKVmx // !mulmxA.
have e2 : form U y y = ((r *m K) *m invmx D *m (r *m K)^H) 0 0.
  rewrite /form /y -!mulmxA mulKVmx // !ctrM !ctr_inv hU hD !ctrK.
  congr (_ 0 0); transitivity (r *m K *m invmx D *m (K^H *m invmx U *m K) *m invmx D *m (K^H *m r^H)).
    by rewrite !mulmxA.
  by rewrite KD mulmxKV // !mulmxA.
have e3 : form U y r^H = ((r *m K) *m invmx D *m (r *m K)^H) 0 0.
  have := form_conj U r^H y; rewrite hU e1 => <-.
  rewrite -e2; apply: CrealP; exact: psd_real (pd_psd pU).
have [_ /(_ (r^H - y))] := pd_psd pU.
rewrite !(formDl, formDr, formNl, formNr) e1 e2 e3 opprK addrA subrK.
set t := (r *m K *m _ *m _) 0 0; rewrite quad_form => /ge0_cre[_].
by rewrite reB; toR; set a := re _; set b := re _; lra.
Qed.

Lemma E_mnE N (m n : 'I_N) (r : 'rV[Cx]_N) j :
  (r *m E_mn m n) 0 j = r 0 (if j == 0 then m else n).
Proof.
rewrite mxE (bigD1 (if j == 0 then m else n)) //= mxE eqxx mulr1.
by rewrite big1 ?addr0 // => i iN; rewrite mxE (negbTE iN) mulr0.
Qed.

Lemma row_rdiag (a : 'rV[Cx]_2) (d : 'rV[R]_2) :
  re ((a *m rdiag d *m a^H) 0 0) =
  (d 0%R 0%R * cabs (a 0%R 0%R) ^ 2 + d 0%R 1%R * cabs (a 0%R 1%R) ^ 2)%coqR.
Proof.
have := form_rdiag d a^H; rewrite /form ctrK => ->.
by rewrite rec sum2 !ctrE !cabs_conj !RpowE.
Qed.

(** two-row determinants *)
Definition D2 (a b : 'rV[Cx]_2) : Cx := a 0 0 * b 0 1 - a 0 1 * b 0 0.
Lemma D2_poly (a0 a1 b0 b1 z00 z01 z10 z11 : Cx) :
  (a0 * z00 + a1 * z10) * (b0 * z01 + b1 * z11)
  - (a0 * z01 + a1 * z11) * (b0 * z00 + b1 * z10) = (a0 * b1 - a1 * b0) * (z00 * z11 - z01 * z10).
Proof. by ring. Qed.
Lemma D2_delta (a b : Cx) : D2 (a *: delta_mx 0 1) (b *: delta_mx 0 0) = - (a * b).
Proof. by rewrite /D2 !mxE !eqxx /= !mulr1 !mulr0 sub0r. Qed.
Lemma delta2_col (a : Cx) m (r : 'cV[Cx]_m) i : (a *: r) i 0 = a * r i 0.
Proof. by rewrite mxE. Qed.
Lemma D2M a b Z : D2 (a *m Z) (b *m Z) = D2 a b * \det Z.
Proof. by rewrite /D2 det2 !mxE !sum2; apply: D2_poly. Qed.

Section Pair.
Variables (N : nat) (U : 'I_N -> 'M[Cx]_N) (W : 'M[Cx]_N) (m n : 'I_N).
Hypotheses (uW : W \in unitmx) (mn : m != n).
Let G : 'M[Cx]_(N, 2) := invmx W *m E_mn m n.

Definition put (r s : 'rV[Cx]_N) := setrow n s (setrow m r W).
Definition rest : R := (\sum_(k | (k != m) && (k != n)) quad (U k) (row k W))%coqR.

Lemma det_put r s : \det (put r s) = D2 (r *m G) (s *m G) * \det W.
Proof.
rewrite /put setrowC ?det_setrow2 // 1?eq_sym // /D2 /G !mulmxA !E_mnE /=.
by congr (_ * _); ring.
Qed.

Lemma put_cost r s : D2 (r *m G) (s *m G) != 0 ->
  aux_cost U (put r s) =
  (rest - 2 * ln (cabs (\det W)) + (quad (U m) r + quad (U n) s)
   - 2 * ln (cabs (D2 (r *m G) (s *m G))))%coqR.
Proof.
move=> d0; have nm : n != m by rewrite eq_sym.
rewrite /aux_cost (bigD1 m) //= (bigD1 n) //=.
rewrite {1 2}/put row_setrow_neq // !row_setrow.
have -> : \sum_(i | (i != m) && (i != n)) quad (U i) (row i (put r s)) = rest.
  by apply: eq_bigr => i /andP[im iN]; rewrite /put !row_setrow_neq.
rewrite det_put cabsM ln_mult.
- by toR; set x := rest; set a := cabs (D2 _ _); lra.
- exact: cabs_gt0.
- by apply: cabs_gt0; rewrite -unitfE -unitmxE.
Qed.

Lemma put_id : put (row m W) (row n W) = W.
Proof.
apply/matrixP => i j; rewrite /put !mxE; case: eqP => [->//|_].
by case: eqP => [->|].
Qed.

Lemma D2_id : D2 (row m W *m G) (row n W *m G) = 1.
Proof.
rewrite /D2 /G !mulmxA !E_mnE /= -!row_mul mulmxV // !mxE !eqxx.
by rewrite (negbTE mn) [n == m]eq_sym (negbTE mn) mulr0 mulr1 subr0.
Qed.

Lemma G_inj (x : 'cV[Cx]_2) : G *m x = 0 -> x = 0.
Proof.
rewrite /G -mulmxA => H; have {H} H : E_mn m n *m x = 0.
  by apply: (unit_inj _ H); rewrite unitmx_inv.
have Ex i : (E_mn m n *m x) i 0 = (i == m)%:R * x 0 0 + (i == n)%:R * x 1 0.
  by rewrite mxE sum2 !mxE.
apply/colP => i; rewrite mxE; case: (ord2P i) => ->.
  have := Ex m; rewrite H mxE eqxx (negbTE mn) mul0r addr0 mul1r; exact: esym.
have := Ex n; rewrite H mxE eqxx [n == m]eq_sym (negbTE mn) mul0r add0r mul1r; exact: esym.
Qed.

Hypotheses (pm : pd (U m)) (pn : pd (U n)).
Let A := G^H *m invmx (U m) *m G.
Let B := G^H *m invmx (U n) *m G.
Lemma pdA : pd A. Proof. by apply: pd_congr; [exact: pd_inv|exact: G_inj]. Qed.
Lemma pdB : pd B. Proof. by apply: pd_congr; [exact: pd_inv|exact: G_inj]. Qed.

Variables (l : 'rV[R]_2) (Z : 'M[Cx]_2).
Hypotheses (AZ : A *m Z = B *m Z *m rdiag l) (ZBZ : Z^H *m B *m Z = 1%:M).
Hypotheses (uZ : Z \in unitmx) (sl : (l 0%R 0%R <= l 0%R 1%R)%coqR).

Lemma ZAZ : Z^H *m A *m Z = rdiag l.
Proof. by rewrite -mulmxA AZ mulmxA [Z^H *m (B *m Z)]mulmxA ZBZ mul1mx. Qed.

Lemma l_gt0 i : (0 < l 0%R i)%coqR.
Proof.
have [_ /(_ (delta_mx i 0))] := pd_congr_unit pdA uZ; rewrite ZAZ form_rdiag.
have -> : (delta_mx i 0 : 'cV[Cx]_2) != 0.
  apply/eqP => /matrixP/(_ i 0); rewrite !mxE !eqxx => /eqP; by rewrite oner_eq0.
move=> /(_ isT); rewrite -c0 clt => /RltP; rewrite (bigD1 i) //= big1 => [|j ji].
  by rewrite mxE !eqxx cabs1 expr1n mulr1 addr0.
by rewrite mxE (negbTE ji) cabs0 expr0n mulr0.
Qed.

Lemma rdiag_inv : invmx (rdiag l) = rdiag (map_mx Rinv l).
Proof.
have E : rdiag l *m rdiag (map_mx Rinv l) = 1%:M.
  rewrite rdiagM -rdiag1; congr rdiag; apply/rowP => i; rewrite !mxE -RmulE -R1E.
  by apply: Rinv_r; have := l_gt0 i; lra.
have [u _] := mulmx1_unit E.
by rewrite -[RHS](mulKmx u) E mulmx1.
Qed.

(** lower bounds in the coordinates [r G Z] *)
Lemma low_m r : let a := r *m G *m Z in
  (cabs (a 0%R 0%R) ^ 2 / l 0%R 0%R + cabs (a 0%R 1%R) ^ 2 / l 0%R 1%R <= quad (U m) r)%coqR.
Proof.
move=> a; have := @proj_lower _ _ (U m) (G *m Z) (rdiag l) r pm.
have -> : (G *m Z)^H *m invmx (U m) *m (G *m Z) = rdiag l.
  by rewrite -ZAZ /A ctrM !mulmxA.
move=> /(_ erefl); rewrite mulmxA -/a.
have ul : rdiag l \in unitmx by apply: pd_unit; apply: pd_rdiag; exact: l_gt0.
move=> /(_ ul); rewrite rdiag_inv row_rdiag ![map_mx _ _ _ _]mxE.
by rewrite /Rdiv ![(/ _ * _)%coqR]Rmult_comm.
Qed.

Lemma low_n r : let b := r *m G *m Z in
  (cabs (b 0%R 0%R) ^ 2 + cabs (b 0%R 1%R) ^ 2 <= quad (U n) r)%coqR.
Proof.
move=> b; have := @proj_lower _ _ (U n) (G *m Z) 1%:M r pn.
have -> : (G *m Z)^H *m invmx (U n) *m (G *m Z) = 1%:M.
  by rewrite -ZBZ /B ctrM !mulmxA.
move=> /(_ erefl (unitmx1 _ _)); rewrite mulmxA -/b invmx1.
rewrite -rdiag1 row_rdiag !mxE -R1E; lra.
Qed.

Lemma pair_lower r s : D2 (r *m G) (s *m G) != 0 ->
  (rest - 2 * ln (cabs (\det W)) + (2 - ln (l 0%R 1%R)) + 2 * ln (cabs (\det Z))
   <= aux_cost U (put r s))%coqR.
Proof.
move=> d0; rewrite put_cost //.
have z0 : (0 < cabs (\det Z))%coqR by apply: cabs_gt0; rewrite -unitfE -unitmxE.
have d1 := cabs_gt0 d0.
have e : cabs (D2 (r *m G *m Z) (s *m G *m Z)) = (cabs (D2 (r *m G) (s *m G)) * cabs (\det Z))%coqR.
  by rewrite D2M cabsM.
have := low_m r; have := low_n s; cbv zeta.
set a := r *m G *m Z in e *; set b := s *m G *m Z in e *.
move=> hn hm.
have dle : (cabs (D2 a b) <= cabs (a 0%R 0%R) * cabs (b 0%R 1%R) + cabs (a 0%R 1%R) * cabs (b 0%R 0%R))%coqR.
  have := cabs_triang (a 0 0 * b 0 1) (- (a 0 1 * b 0 0)).
  by rewrite cabsN !cabsM.
have dpos : (0 < cabs (D2 a b))%coqR by rewrite e; apply: Rmult_lt_0_compat.
have := pair_real_opt _ _ _ _ _ _ _ (cabs_ge0 (a 0 0)) (cabs_ge0 (a 0 1))
  (cabs_ge0 (b 0 0)) (cabs_ge0 (b 0 1)) dpos dle (l_gt0 0) sl.
rewrite e ln_mult //; lra.
Qed.

(** what the code computes *)
Let hm : 'cV[Cx]_2 := col 1 Z.
Let hn : 'cV[Cx]_2 := col 0 Z.
Definition rm (d : R) := (c d)^-1 *: (invmx (U m) *m G *m hm)^H.
Definition rn (d : R) := (c d)^-1 *: (invmx (U n) *m G *m hn)^H.

Lemma colZ (k : 'I_2) : col k Z = Z *m delta_mx k 0. Proof. exact: colE. Qed.

Lemma hAh : hm^H *m A *m hm = (c (l 0 1))%:M.
Proof.
rewrite /hm colZ ctrM ctr_delta -mulmxA [A *m _]mulmxA -[_ *m (A *m _ *m _)]mulmxA [Z^H *m _]mulmxA.
rewrite [Z^H *m _]mulmxA ZAZ [X in X = _]mx11E; congr _%:M.
by rewrite -rowE -[_ *m delta_mx _ _]colE !mxE eqxx mulr1n.
Qed.
Lemma hBh : hn^H *m B *m hn = 1%:M.
Proof.
rewrite /hn colZ ctrM ctr_delta -mulmxA [B *m _]mulmxA -[_ *m (B *m _ *m _)]mulmxA [Z^H *m _]mulmxA.
rewrite [Z^H *m _]mulmxA ZBZ mul1mx mul_delta_mx [X in X = _]mx11E; congr _%:M.
by rewrite mxE !eqxx.
Qed.

Lemma wmE : (invmx (U m) *m G *m hm)^H = hm^H *m G^H *m invmx (U m).
Proof. by rewrite [LHS]ctrM [(invmx _ *m _)^H]ctrM ctr_inv (proj1 pm) mulmxA. Qed.
Lemma wnE : (invmx (U n) *m G *m hn)^H = hn^H *m G^H *m invmx (U n).
Proof. by rewrite [LHS]ctrM [(invmx _ *m _)^H]ctrM ctr_inv (proj1 pn) mulmxA. Qed.

Lemma rm_quad d : (0 < d)%coqR -> quad (U m) (rm d) = (l 0%R 1%R / d ^ 2)%coqR.
Proof.
move=> d0; have uU := pd_unit pm; have hU := proj1 pm.
rewrite quad_form /rm ctrZ ctrK formZl formZr -!cV !c_conj.
have -> : form (U m) (invmx (U m) *m G *m hm) (invmx (U m) *m G *m hm) = c (l 0 1).
  rewrite /form wmE -!mulmxA mulKVmx //.
  have := hAh; rewrite /A -!mulmxA => ->; by rewrite mxE eqxx mulr1n.
rewrite -!cM rec RdivE; last by apply: pow_nonzero; lra.
by rewrite RpowE expr2 invfM [RHS]mulrC mulrA.
Qed.
Lemma rn_quad d : (0 < d)%coqR -> quad (U n) (rn d) = (1 / d ^ 2)%coqR.
Proof.
move=> d0; have uU := pd_unit pn; have hU := proj1 pn.
rewrite quad_form /rn ctrZ ctrK formZl formZr -!cV !c_conj.
have -> : form (U n) (invmx (U n) *m G *m hn) (invmx (U n) *m G *m hn) = c 1.
  rewrite /form wnE -!mulmxA mulKVmx //.
  have := hBh; rewrite /B -!mulmxA => ->; by rewrite mxE eqxx mulr1n c1.
rewrite -!cM rec RdivE; last by apply: pow_nonzero; lra.
by rewrite RpowE expr2 invfM [RHS]mulrC mulrA.
Qed.

Lemma rmGZ d : rm d *m G *m Z = ((c d)^-1 * c (l 0 1)) *: delta_mx 0 1.
Proof.
have hU := proj1 pm.
rewrite /rm -!scalemxAl -scalerA; congr (_ *: _).
have -> : (invmx (U m) *m G *m hm)^H *m G = hm^H *m A by rewrite wmE /A !mulmxA.
rewrite /hm colZ ctrM ctr_delta.
have -> : (delta_mx 0 1 : 'rV[Cx]_2) *m Z^H *m A *m Z = delta_mx 0 1 *m (Z^H *m A *m Z) by rewrite !mulmxA.
rewrite ZAZ -rowE.
apply/rowP => j; rewrite !mxE eqxx /=.
by case: (ord2P j) => ->; rewrite /= ?mulr0n ?mulr0 ?mulr1n ?mulr1.
Qed.
Lemma rnGZ d : rn d *m G *m Z = (c d)^-1 *: delta_mx 0 0.
Proof.
have hU := proj1 pn.
rewrite /rn -!scalemxAl; congr (_ *: _).
have -> : (invmx (U n) *m G *m hn)^H *m G = hn^H *m B by rewrite wnE /B !mulmxA.
rewrite /hn colZ ctrM ctr_delta.
have -> : (delta_mx 0 0 : 'rV[Cx]_2) *m Z^H *m B *m Z = delta_mx 0 0 *m (Z^H *m B *m Z) by rewrite !mulmxA.
by rewrite ZBZ mulmx1.
Qed.

Lemma UrmH d : U m *m (rm d)^H = (c d)^-1 *: (G *m hm).
Proof.
rewrite /rm ctrZ ctrK -cV c_conj -scalemxAr; congr (_ *: _).
by rewrite -[invmx _ *m _ *m _]mulmxA mulKVmx // pd_unit.
Qed.
Lemma UrnH d : U n *m (rn d)^H = (c d)^-1 *: (G *m hn).
Proof.
rewrite /rn ctrZ ctrK -cV c_conj -scalemxAr; congr (_ *: _).
by rewrite -[invmx _ *m _ *m _]mulmxA mulKVmx // pd_unit.
Qed.
Lemma D2_gen (r s : 'rV[Cx]_N) x y :
  r *m G *m Z = x *: delta_mx 0 1 -> s *m G *m Z = y *: delta_mx 0 0 ->
  (cabs (D2 (r *m G) (s *m G)) * cabs (\det Z))%coqR = cabs (x * y).
Proof.
move=> er es.
have -> : (cabs (D2 (r *m G) (s *m G)) * cabs (\det Z))%coqR =
          cabs (D2 (r *m G *m Z) (s *m G *m Z)) by rewrite D2M cabsM.
by rewrite er es D2_delta cabsN.
Qed.

Opaque rm rn.

Lemma new_D2 dm dn : (0 < dm)%coqR -> (0 < dn)%coqR ->
  cabs (D2 (rm dm *m G) (rn dn *m G)) = (l 0%R 1%R / dm / dn / cabs (\det Z))%coqR.
Proof.
move=> hdm hdn; have l1 := l_gt0 1.
have z0 : (0 < cabs (\det Z))%coqR by apply: cabs_gt0; rewrite -unitfE -unitmxE.
apply: (Rmult_eq_reg_r (cabs (\det Z))); last lra.
have -> := D2_gen (rmGZ dm) (rnGZ dn); rewrite -!cV -!cM cabs_c Rabs_pos_eq.
  rewrite -!RmulE -!RinvE; try lra.
  by Rfield; lra.
by rewrite -!RmulE -!RinvE; try lra; repeat apply: Rmult_le_pos; try lra; apply: Rlt_le; apply: Rinv_0_lt_compat.
Qed.

Lemma new_D2_neq0 dm dn : (0 < dm)%coqR -> (0 < dn)%coqR ->
  D2 (rm dm *m G) (rn dn *m G) != 0.
Proof.
move=> hdm hdn; have l1 := l_gt0 1.
have z0 : (0 < cabs (\det Z))%coqR by apply: cabs_gt0; rewrite -unitfE -unitmxE.
rewrite -cabs_eq0 new_D2 //; apply/eqP => e.
have : (0 < l 0%R 1%R / dm / dn / cabs (\det Z))%coqR by do !apply: Rdiv_lt_0_compat.
by rewrite e => /Rlt_irrefl.
Qed.

Lemma new2_unit dm dn : (0 < dm)%coqR -> (0 < dn)%coqR -> put (rm dm) (rn dn) \in unitmx.
Proof.
move=> hdm hdn; rewrite unitmxE det_put unitrM -unitmxE uW andbT unitfE.
exact: new_D2_neq0.
Qed.

Lemma new2_cost dm dn : (0 < dm)%coqR -> (0 < dn)%coqR ->
  aux_cost U (put (rm dm) (rn dn)) =
  (rest - 2 * ln (cabs (\det W)) + (l 0%R 1%R / dm ^ 2 + 1 / dn ^ 2)
   - 2 * (ln (l 0%R 1%R) - ln dm - ln dn) + 2 * ln (cabs (\det Z)))%coqR.
Proof.
move=> hdm hdn; have l1 := l_gt0 1.
have z0 : (0 < cabs (\det Z))%coqR by apply: cabs_gt0; rewrite -unitfE -unitmxE.
rewrite put_cost; last exact: new_D2_neq0.
rewrite rm_quad // rn_quad // new_D2 // /Rdiv !ln_mult ?ln_Rinv //;
  try (by apply: Rinv_0_lt_compat); try lra.
- by apply: Rmult_lt_0_compat => //; apply: Rinv_0_lt_compat.
- by do !apply: Rmult_lt_0_compat => //; apply: Rinv_0_lt_compat.
Qed.

(** the IP normal equations of both rows *)
Lemma rmGh d k : (rm d *m (G *m col k Z)) 0 0 = (c d)^-1 * c (l 0 1) *+ (k == 1).
Proof.
rewrite colZ [G *m _]mulmxA mulmxA [rm d *m _]mulmxA rmGZ -scalemxAl mxE.
rewrite mxE sum2 !mxE /=.
by case: (ord2P k) => ->; rewrite /= ?mulr0n ?mulr1n; ring.
Qed.
Lemma rnGh d k : (rn d *m (G *m col k Z)) 0 0 = (c d)^-1 *+ (k == 0).
Proof.
rewrite colZ [G *m _]mulmxA mulmxA [rn d *m _]mulmxA rnGZ -scalemxAl mxE.
rewrite mxE sum2 !mxE /=.
by case: (ord2P k) => ->; rewrite /= ?mulr0n ?mulr1n; ring.
Qed.
Lemma WG i (x : 'cV[Cx]_2) : i != m -> i != n -> (W *m (G *m x)) i 0 = 0.
Proof.
move=> im iN; rewrite /G -[invmx W *m _ *m x]mulmxA mulKVmx // mxE sum2 !mxE /=.
by rewrite (negbTE im) (negbTE iN) !mul0r addr0.
Qed.
Lemma put_col dm dn (x : 'cV[Cx]_2) i :
  (put (rm dm) (rn dn) *m (G *m x)) i 0 =
  if i == n then (rn dn *m (G *m x)) 0 0 else
  if i == m then (rm dm *m (G *m x)) 0 0 else 0.
Proof.
rewrite /put !setrowM [LHS]mxE; case: eqP => [//|/eqP iN].
by rewrite [LHS]mxE; case: eqP => [//|/eqP im]; exact: WG.
Qed.

Lemma stationary_m dm dn : (0 < dm)%coqR ->
  put (rm dm) (rn dn) *m U m *m (rm dm)^H = c (l 0%R 1%R / dm ^ 2)%coqR *: delta_mx m 0.
Proof.
move=> hdm; rewrite -mulmxA UrmH -scalemxAr; apply/colP => i.
have := put_col dm dn hm i; have := rmGh dm 1; have := rnGh dn 1; rewrite -/hm.
rewrite (delta2_col _ (put _ _ *m _)) (delta2_col _ (delta_mx _ _)).
move: (put _ _ *m _) (rm dm *m _) (rn dn *m _) => X Y T -> -> ->.
rewrite eqxx mulr0n mulr1n [delta_mx _ _ _ _]mxE eqxx andbT.
have -> : c (l 0%R 1%R / dm ^ 2)%coqR = (c dm)^-1 * ((c dm)^-1 * c (l 0 1)).
  rewrite cRdiv; last by apply: pow_nonzero; lra.
  by rewrite cRX expr2 invfM mulrC mulrA.
case: (eqVneq i n) => [->|iN]; first by rewrite eq_sym (negbTE mn) !mulr0.
by case: eqP => _; rewrite ?mulr1 ?mulr0.
Qed.
Lemma stationary_n dm dn : (0 < dn)%coqR ->
  put (rm dm) (rn dn) *m U n *m (rn dn)^H = c (1 / dn ^ 2)%coqR *: delta_mx n 0.
Proof.
move=> hdn; rewrite -mulmxA UrnH -scalemxAr; apply/colP => i.
have := put_col dm dn hn i; have := rmGh dm 0; have := rnGh dn 0; rewrite -/hn.
rewrite (delta2_col _ (put _ _ *m _)) (delta2_col _ (delta_mx _ _)).
move: (put _ _ *m _) (rm dm *m _) (rn dn *m _) => X Y T -> -> ->.
rewrite eqxx mulr0n mulr1n [delta_mx _ _ _ _]mxE eqxx andbT.
have -> : c (1 / dn ^ 2)%coqR = (c dn)^-1 * (c dn)^-1.
  rewrite cRdiv; last by apply: pow_nonzero; lra.
  by rewrite cRX expr2 invfM cR1 mul1r.
case: (eqVneq i n) => [_|iN]; first by rewrite mulr1.
by case: ifP => _; rewrite ?mulr0.
Qed.

Transparent rm rn.
(** the model computes exactly these rows *)
Lemma scale_hE fl (M : 'M[Cx]_2) (h : 'cV[Cx]_2) q :
  (0 <= q)%coqR -> h^H *m M *m h = (c q)%:M -> fl (R_sqrt.sqrt q) != 0 ->
  scale_h fl M h = Some ((c (fl (R_sqrt.sqrt q)))^-1 *: h).
Proof.
move=> q0 e f0; rewrite /scale_h e.
have -> : re (((c q)%:M : 'M[Cx]_1) 0%R 0%R) = q by rewrite mxE eqxx mulr1n rec.
by rewrite Rmax_left // /divs (negbTE f0).
Qed.

Lemma PUP k : pd (U k) -> let P := invmx (W *m U k) *m E_mn m n in
  P = invmx (U k) *m G /\ P^H *m U k *m P = G^H *m invmx (U k) *m G.
Proof.
move=> pk P; have e : P = invmx (U k) *m G.
  by rewrite /P invmx_mul // ?pd_unit // /G -mulmxA.
split; first exact: e.
rewrite e.
have -> : (invmx (U k) *m G)^H *m U k *m (invmx (U k) *m G) =
          (invmx (U k) *m G)^H *m (U k *m (invmx (U k) *m G)) by rewrite mulmxA.
rewrite mulKVmx ?pd_unit //.
by rewrite [(invmx _ *m _)^H]ctrM ctr_inv (proj1 pk).
Qed.

Lemma row_pair (a b : 'cV[Cx]_N) :
  row 0 (row_mx a b)^H = a^H /\ row 1 (row_mx a b)^H = b^H.
Proof.
split; apply/rowP => j; rewrite mxE [LHS]ctrE [RHS]ctrE; congr (_^* ).
  have -> : 0 = lshift 1 (0 : 'I_1) :> 'I_(1 + 1) by apply: val_inj.
  exact: row_mxEl.
have -> : 1 = rshift 1 (0 : 'I_1) :> 'I_(1 + 1) by apply: val_inj.
exact: row_mxEr.
Qed.

Lemma ip2_stepE eig chol (fl : R -> R) :
  eigh2 eig chol A B 1 = Ok (l, Z) ->
  fl (R_sqrt.sqrt (l 0%R 1%R)) != 0 -> fl 1%coqR != 0 ->
  ip2_step eig chol fl U W (m, n) =
  Some (put (rm (fl (R_sqrt.sqrt (l 0%R 1%R)))) (rn (fl 1%coqR))).
Proof.
move=> eE f1 f2; rewrite /ip2_step /ip2_one_pair /solve !unitmx_mul uW !pd_unit //=.
have [] := PUP pm; have [] := PUP pn; cbv zeta.
set Pm := invmx (W *m U m) *m E_mn m n; set Pn := invmx (W *m U n) *m E_mn m n => ePn eBn ePm eAm.
rewrite eAm eBn -/A -/B eE.
rewrite (scale_hE (Rlt_le _ _ (l_gt0 1)) hAh f1).
have f2' : fl (R_sqrt.sqrt 1%coqR) != 0 by rewrite sqrt_1.
have hB : hn^H *m B *m hn = (c 1%coqR)%:M by rewrite hBh cR1.
rewrite (scale_hE Rle_0_1 hB f2') sqrt_1.
set hm' := _ *: hm; set hn' := _ *: hn.
have [e0 e1] := row_pair (Pm *m hm') (Pn *m hn').
have -> : rm (fl (R_sqrt.sqrt (l 0 1))) = (Pm *m hm')^H.
  by rewrite /rm /hm' -scalemxAr [RHS]ctrZ -!cV !c_conj ePm.
have -> : rn (fl 1%coqR) = (Pn *m hn')^H.
  by rewrite /rn /hn' -scalemxAr [RHS]ctrZ -!cV !c_conj ePn.
by rewrite -e0 -e1.
Qed.
End Pair.
