(** C78: calls of AuxLaplaceIVA and AuxGaussIVA follow the gain of the input and do not see
    an invertible mixing that the initial filters undo. *)
From Coq Require Import Reals Lra FunctionalExtensionality.
From mathcomp Require Import all_ssreflect all_algebra.
From mathcomp Require Import ring.
From Verif Require Import RStruct MxC CxR NpLin RealLemmas Eigh EighProofs SpatialIP SpatialISS Scale AuxIVA AuxIVAProofs AuxFDICA AuxIVACall ScaleProofs.
Import Order.TTheory GRing.Theory Num.Theory.
Set Implicit Arguments.
Unset Strict Implicit.
Unset Printing Implicit Defensive.
Local Open Scope ring_scope.

(** * IP1 in one bin *)
Section IP1.
Variables (N : nat).
Implicit Types (U : 'I_N -> 'M[Cx]_N) (A W : 'M[Cx]_N) (d : 'rV[Cx]_N).
(** rows scaled by [d], mixing undone *)
Definition seen A d W : 'M[Cx]_N := diag_mx d *m W *m invmx A.
Definition setd d (n : 'I_N) (z : Cx) : 'rV[Cx]_N := \row_j (if j == n then z else d 0 j).
Lemma diag_unit d : (forall j, d 0 j != 0) -> diag_mx d \in unitmx.
Proof. by move=> H; rewrite unitmxE det_diag unitfE; apply/prodf_neq0. Qed.
Lemma diag_delta d n : (forall j, d 0 j != 0) -> invmx (diag_mx d) *m (delta_mx n 0 : 'cV[Cx]_N) = (d 0 n)^-1 *: delta_mx n 0.
Proof.
move=> H; apply: (can_inj (mulKmx (diag_unit H))).
rewrite mulKVmx ?diag_unit // -scalemxAr.
apply/matrixP=> i j; rewrite !mxE (bigD1 i) //= big1 ?addr0; last first.
  by move=> k ne; rewrite !mxE eq_sym (negbTE ne) mul0r.
rewrite !mxE eqxx; case: eqP => [->|]; last by rewrite !mulr0.
by rewrite mulr1n mulrA mulVf // mul1r.
Qed.
Lemma row_seen A d W i : row i (seen A d W) = d 0 i *: (row i W *m invmx A).
Proof.
by rewrite /seen -mulmxA row_mul row_diag_mx -scalemxAl mulmxA -rowE.
Qed.
Lemma ip1_step_seen U A W d n (b : R) : A \in unitmx -> (forall j, d 0 j != 0) -> (0 < b)%coqR ->
  ip1_step id (fun m => c b *: (A *m U m *m A^H)) (seen A d W) n =
  omap (seen A (setd d n (d 0 n / c (cabs (d 0 n) * R_sqrt.sqrt b)))) (ip1_step id U W n).
Proof.
move=> uA d0 b0; have cb : c b != 0 by apply: c_neq0; lra.
have uD := diag_unit d0.
rewrite /ip1_step /solve.
have -> : seen A d W *m (c b *: (A *m U n *m A^H)) = c b *: (diag_mx d *m (W *m U n) *m A^H).
  by rewrite /seen -scalemxAr !mulmxA mulmxKV.
have uAH : A^H \in unitmx by rewrite ctr_unit.
have -> : (c b *: (diag_mx d *m (W *m U n) *m A^H) \in unitmx) = (W *m U n \in unitmx).
  by rewrite unitmxZ ?unitfE // !(unitmx_mul (diag_mx d *m (W *m U n))) uAH andbT (unitmx_mul (diag_mx d)) uD.
case: ifP => // uWU.
set w := invmx (W *m U n) *m delta_mx n 0.
have uM : diag_mx d *m (W *m U n) *m A^H \in unitmx by rewrite unitmx_mul uAH andbT unitmx_mul uD.
have -> : invmx (c b *: (diag_mx d *m (W *m U n) *m A^H)) *m delta_mx n 0 = ((c b)^-1 * (d 0 n)^-1) *: (invmx A^H *m w).
  have uDW : diag_mx d *m (W *m U n) \in unitmx by rewrite unitmx_mul uD.
  rewrite invmxZ ?unitmxZ ?unitfE // (invmx_mul uDW uAH) (invmx_mul uD uWU) -scalemxAl -!mulmxA.
  by rewrite diag_delta // -!scalemxAr scalerA.
set z := (c b)^-1 * (d 0 n)^-1.
have dn := d0 n; have dc : (d 0 n)^* != 0 by rewrite conjC_eq0.
have zE : z^* = (c b)^-1 / (d 0 n)^* by rewrite /z rmorphM !fmorphV c_conj.
have cd := cabs_gt0 dn; set a := cabs (d 0 n) in cd *.
have -> : (z *: (invmx A^H *m w))^H *m (c b *: (A *m U n *m A^H)) *m (z *: (invmx A^H *m w)) =
  c (/ (b * a ^ 2))%coqR *: (w^H *m U n *m w).
  rewrite ctrZ ctrM -ctr_inv ctrK -!(scalemxAl, scalemxAr) !scalerA; congr (_ *: _); last first.
    by rewrite ctr_inv !mulmxA mulmxKV // mulmxK.
  rewrite cRV; last by apply: Rgt_not_eq; apply: Rmult_gt_0_compat => //; apply: pow_lt.
  rewrite cRM RpowE /a cabs_sqr zE /z; move: (d 0 n) (d 0 n)^* (c b) dn dc cb => x y u x0 y0 u0.
  by field; rewrite x0 y0 u0.
set q := (w^H *m U n *m w).
have qE : re ((c (/ (b * a ^ 2))%coqR *: q) 0 0) = (/ (b * a ^ 2) * re (q 0%R 0%R))%coqR.
  by rewrite mxE reMc.
rewrite qE.
set k := (/ (b * a ^ 2))%coqR.
have k0 : (0 < k)%coqR by apply: Rinv_0_lt_compat; apply: Rmult_lt_0_compat => //; apply: pow_lt.
have -> : Rmax (k * re (q 0%R 0%R)) 0 = (k * Rmax (re (q 0%R 0%R)) 0)%coqR.
  by rewrite -[X in Rmax _ X = _](Rmult_0_r k) RmaxRmult //; lra.
rewrite sqrt_mult_alt; last by lra.
set m := R_sqrt.sqrt (Rmax (re (q 0 0)) 0).
have sk0 := sqrt_lt_R0 _ k0.
rewrite /divs /=.
have -> : ((R_sqrt.sqrt k * m)%coqR == 0) = (m == 0).
  by rewrite RmulE mulf_eq0; case: eqP => // e; exfalso; move: e; toR; lra.
case: eqP => //= m0; congr Some.
have sk : R_sqrt.sqrt k = (/ (R_sqrt.sqrt b * a))%coqR.
  have sb := sqrt_lt_R0 _ b0.
  rewrite /k -[in LHS](sqrt_sqrt b); last by lra.
  have -> : (/ (R_sqrt.sqrt b * R_sqrt.sqrt b * a ^ 2) =
             Rsqr (/ (R_sqrt.sqrt b * a)))%coqR.
    by rewrite /Rsqr; Rfield; lra.
  by rewrite sqrt_Rsqr //; left; apply: Rinv_0_lt_compat; apply: Rmult_lt_0_compat.
apply/row_matrixP => i; rewrite row_seen.
case: (eqVneq i n) => [->|ne]; last by rewrite !row_setrow_neq // row_seen mxE (negbTE ne).
rewrite !row_setrow mxE eqxx ctrZ ctrM -ctr_inv ctrK -scalemxAl !scalerA; congr (_ *: _).
have m0' : c m != 0 by apply: c_neq0.
have sb := sqrt_lt_R0 _ b0.
have cs : c (R_sqrt.sqrt b) != 0 by apply: c_neq0; lra.
have ca : c a != 0 by apply: c_neq0; lra.
rewrite sk cRM cRV; last by apply: Rgt_not_eq; apply: Rmult_gt_0_compat.
rewrite cRM zE cM.
have bE : c b = c (R_sqrt.sqrt b) * c (R_sqrt.sqrt b) by rewrite -cRM sqrt_sqrt //; lra.
have aE : d 0 n = c a * c a / (d 0 n)^* by rewrite -expr2 -cX /a cabs_sqr mulfK // conjC_eq0.
rewrite [in RHS]aE bE; move: (d 0 n)^* (c (R_sqrt.sqrt b)) (c a) (c m) dc cs ca m0' => y u v x y0 u0 v0 x0.
by field; rewrite x0 y0 u0 v0.
Qed.
Lemma ip1_loop_cons U n s W : ip1_loop id U (n :: s) W = if ip1_step id U W n is Some V then ip1_loop id U s V else None.
Proof. by rewrite /ip1_loop /=; case: ip1_step => //; elim: s. Qed.
Definition normd (b : R) (z : Cx) : Cx := z / c (cabs z * R_sqrt.sqrt b).
Lemma normd_neq0 b z : (0 < b)%coqR -> z != 0 -> normd b z != 0.
Proof.
move=> b0 z0; rewrite /normd mulf_neq0 // invr_eq0; apply: c_neq0.
by apply: Rgt_not_eq; apply: Rmult_gt_0_compat; [exact: cabs_gt0|exact: sqrt_lt_R0].
Qed.
Definition updd b d (s : seq 'I_N) : 'rV[Cx]_N := \row_j (if j \in s then normd b (d 0 j) else d 0 j).
Lemma ip1_loop_seen U A (b : R) s : A \in unitmx -> (0 < b)%coqR -> uniq s -> forall d W, (forall j, d 0 j != 0) ->
  ip1_loop id (fun m => c b *: (A *m U m *m A^H)) s (seen A d W) = omap (seen A (updd b d s)) (ip1_loop id U s W).
Proof.
move=> uA b0; elim: s => [|n s IH] /=.
  move=> _ d W _; congr (Some (seen A _ W)); by apply/matrixP=> i j; rewrite mxE (ord1 i).
move=> /andP[ns us] d W d0; rewrite !ip1_loop_cons ip1_step_seen //.
case: ip1_step => //= V; rewrite IH //.
  congr omap; congr (seen A _); apply/matrixP=> i j; rewrite !mxE in_cons.
  by case: (eqVneq j n) => [->|//]; rewrite (negbTE ns).
by move=> j; rewrite mxE; case: (j == n) => //; exact: (normd_neq0 b0 (d0 n)).
Qed.
(** all rows carry the same factor *)
Lemma ip1_seen U A W (b : R) z : A \in unitmx -> (0 < b)%coqR -> z != 0 ->
  ip1 id (fun m => c b *: (A *m U m *m A^H)) (z *: (W *m invmx A)) =
  omap (fun V => normd b z *: (V *m invmx A)) (ip1 id U W).
Proof.
move=> uA b0 z0.
have E y V : y *: (V *m invmx A) = seen A (const_mx y) V.
  by apply/row_matrixP => i; rewrite row_seen mxE linearZ /= row_mul.
rewrite E /ip1 ip1_loop_seen ?enum_uniq //; last by move=> j; rewrite mxE.
congr omap; apply: functional_extensionality => V; rewrite E; congr (seen A _ V).
by apply/matrixP=> i j; rewrite !mxE mem_enum.
Qed.
End IP1.

(** * ISS1 in one bin *)
Section ISS1.
Variables (N T : nat).
Implicit Types (phi : 'M[R]_(N, T)) (Y : 'M[Cx]_(N, T)) (d : 'rV[Cx]_N).
Definition scaled d Y : 'M[Cx]_(N, T) := \matrix_(k, t) (d 0 k * Y k t).
Lemma iss_den_scaled phi Y d n k (b : R) : iss_den (b *: phi) (scaled d Y) n k = ((b * cabs (d 0%R n) ^ 2) * iss_den phi Y n k)%coqR.
Proof.
rewrite /iss_den /meanR RmulE mulrCA; congr (_ * _); rewrite mulr_sumr; apply: eq_bigr => t _.
by rewrite !mxE cabsM RmulE RpowE exprMn mulrACA.
Qed.
Lemma iss_num_scaled phi Y d n k (b : R) : iss_num (b *: phi) (scaled d Y) n k = c b * (d 0 k * (d 0 n)^*) * iss_num phi Y n k.
Proof.
rewrite /iss_num /meanC mulrCA; congr (_ * _); rewrite mulr_sumr; apply: eq_bigr => t _.
rewrite !mxE cM rmorphM; move: (d 0 n)^* (d 0 k) (c b) (c (phi k t)) (Y k t) (Y n t)^* => u v w x y z; ring.
Qed.
Lemma iss1_step_scaled phi Y d n (b : R) : (forall j, d 0 j != 0) -> (0 < b)%coqR ->
  iss1_step id (b *: phi) (scaled d Y) n = omap (scaled (setd d n (normd b (d 0 n)))) (iss1_step id phi Y n).
Proof.
move=> d0 b0; have dn := d0 n; have a0 := cabs_gt0 dn.
have p0 : (0 < b * cabs (d 0%R n) ^ 2)%coqR by apply: Rmult_lt_0_compat => //; exact: pow_lt.
have ok : iss_ok id (b *: phi) (scaled d Y) n = iss_ok id phi Y n.
  rewrite /iss_ok; congr [&& _, _ & _].
    apply: eq_forallb => k; rewrite /= iss_den_scaled RmulE mulf_eq0; case: eqP => // e.
    by exfalso; move: e p0 => ->; toR; lra.
  rewrite /= iss_den_scaled; apply/RltbP/RltbP => h; last exact: Rmult_lt_0_compat.
  by apply: (Rmult_lt_reg_l (b * cabs (d 0%R n) ^ 2)%coqR) => //; rewrite Rmult_0_r.
rewrite /iss1_step ok; case: ifP => // /and3P[_ /forallP den0 /RltbP den]; congr Some.
apply/matrixP=> k t; rewrite !mxE /iss_v /=; case: eqP => [->|ne].
  rewrite iss_den_scaled sqrt_mult_alt; last by lra.
  have sq0 := sqrt_lt_R0 _ den; set q := R_sqrt.sqrt (iss_den phi Y n n) in sq0 *.
  rewrite sqrt_mult_alt ?sqrt_pow2; [|exact: Rlt_le|exact: Rlt_le].
  have sb0 := sqrt_lt_R0 _ b0; set p := R_sqrt.sqrt b in sb0 *; rewrite /normd -/p.
  set a := cabs (d 0 n) in a0 *.
  rewrite !cRV; try by repeat apply: Rmult_integral_contrapositive_currified; lra.
  have := c_neq0 (Rgt_not_eq _ _ sb0); have := c_neq0 (Rgt_not_eq _ _ sq0); have := c_neq0 (Rgt_not_eq _ _ a0).
  rewrite !cRM; move: (c a) (c p) (c q) (d 0 n) (Y n t) => x y z u v x0 z0 y0.
  by field; rewrite x0 y0 z0.
rewrite iss_num_scaled iss_den_scaled cRM cRM RpowE cabs_sqr.
have := den0 k => /= /eqP dk; have := c_neq0 dk; have := c_neq0 (Rgt_not_eq _ _ b0).
have : (d 0 n)^* != 0 by rewrite conjC_eq0.
move: dn; move: (c (iss_den _ _ _ _)) (c b) (iss_num _ _ _ _) (d 0 n) (d 0 n)^* (d 0 k) (Y k t) (Y n t) => x y z u v w p q u0 v0 y0 x0.
by field; rewrite u0 v0 x0 y0.
Qed.
Lemma iss1_loop_cons phi n s Y : iss1_loop id phi (n :: s) Y = if iss1_step id phi Y n is Some V then iss1_loop id phi s V else None.
Proof. by rewrite /iss1_loop /=; case: iss1_step => //; elim: s. Qed.
Lemma iss1_loop_scaled phi (b : R) s : (0 < b)%coqR -> uniq s -> forall d Y, (forall j, d 0 j != 0) ->
  iss1_loop id (b *: phi) s (scaled d Y) = omap (scaled (updd b d s)) (iss1_loop id phi s Y).
Proof.
move=> b0; elim: s => [|n s IH] /=.
  move=> _ d Y _; congr (Some (scaled _ Y)); by apply/matrixP=> i j; rewrite mxE (ord1 i).
move=> /andP[ns us] d Y d0; rewrite !iss1_loop_cons iss1_step_scaled //.
case: iss1_step => //= V; rewrite IH //.
  congr omap; congr scaled; apply/matrixP=> i j; rewrite !mxE in_cons.
  by case: (eqVneq j n) => [->|//]; rewrite (negbTE ns).
by move=> j; rewrite mxE; case: (j == n) => //; exact: (normd_neq0 b0 (d0 n)).
Qed.
Lemma iss1_scaled phi Y z (b : R) : (0 < b)%coqR -> z != 0 ->
  iss1 id (b *: phi) (z *: Y) = omap (fun V => normd b z *: V) (iss1 id phi Y).
Proof.
move=> b0 z0.
have E y V : y *: V = scaled (const_mx y) V by apply/matrixP => i j; rewrite !mxE.
rewrite E /iss1 iss1_loop_scaled ?enum_uniq //; last by move=> j; rewrite mxE.
congr omap; apply: functional_extensionality => V; rewrite E; congr (scaled _ V).
by apply/matrixP=> i j; rewrite !mxE mem_enum.
Qed.
End ISS1.

(** * One iteration over all bins *)
Section Once.
Variables (F N T : nat).
Notation spec := ('I_F -> 'M[Cx]_(N, T)).
Notation filt := ('I_F -> 'M[Cx]_N).
Notation fn := ('I_N -> 'I_T -> R -> R).
Implicit Types (X Y : spec) (A W : filt) (z : 'I_F -> Cx).

Definition mixed A X : spec := fun i => A i *m X i.
Definition undone A z W : filt := fun i => z i *: (W i *m invmx (A i)).
Definition gained z Y : spec := fun i => z i *: Y i.
Lemma separate_undone A z X W : (forall i, A i \in unitmx) ->
  separate_all (mixed A X) (undone A z W) = gained z (separate_all X W).
Proof.
move=> uA; apply: functional_extensionality => i.
by rewrite /separate_all /separate /mixed /undone /gained -scalemxAl -mulmxA mulKmx.
Qed.
Lemma norms_gained z Y (a : R) : (0 <= a)%coqR -> (forall i, cabs (z i) = a) -> norms (gained z Y) = a *: norms Y.
Proof.
move=> a0 za; apply/matrixP=> n t; rewrite !mxE -RmulE.
have -> : \sum_i cabs (gained z Y i n t) ^+ 2 = (Rsqr a * (\sum_i cabs (Y i n t) ^+ 2)%R)%coqR.
  rewrite RmulE mulr_sumr; apply: eq_bigr => i _; rewrite /gained mxE cabsM za exprMn.
  by rewrite -(RpowE a) Rsqr_pow2.
rewrite sqrt_mult_alt ?sqrt_Rsqr //; exact: Rle_0_sqr.
Qed.
Lemma wcov_mixed (phi : 'M[R]_(N, T)) (B : 'M[Cx]_N) (X : 'M[Cx]_(N, T)) n (k : R) :
  wcov (k *: phi) (B *m X) n = c k *: (B *m wcov phi X n *m B^H).
Proof.
have E (p : 'M[R]_(N, T)) (Z : 'M[Cx]_(N, T)) : wcov p Z n = c (T%:R)^-1 *: (Z *m diag_mx (\row_t c (p n t)) *m Z^H).
  apply/matrixP=> a b; rewrite !mxE /meanC; congr (_ * _); apply: eq_bigr => t _.
  by rewrite mul_mx_diag !mxE mulrCA mulrA.
rewrite !E -!(scalemxAl, scalemxAr) scalerA mulrC -scalerA; congr (_ *: _).
have -> : diag_mx (\row_t c ((k *: phi) n t)) = c k *: diag_mx (\row_t c (phi n t)).
  by apply/matrixP=> a b; rewrite !mxE cM mulrnAr.
by rewrite ctrM -!(scalemxAl, scalemxAr) !mulmxA.
Qed.
Lemma all_bins_map S S' (d : 'I_F -> S) (d' : 'I_F -> S') (f : 'I_F -> option S) (f' : 'I_F -> option S') (g : 'I_F -> S -> S') :
  (forall i, f' i = omap (g i) (f i)) -> all_bins d' f' = omap (fun h i => g i (h i)) (all_bins d f).
Proof.
move=> E; rewrite /all_bins.
have -> : [forall i, isSome (f' i)] = [forall i, isSome (f i)].
  by apply: eq_forallb => i; rewrite E; case: (f i).
case: ifP => // /forallP H; congr Some; apply: functional_extensionality => i.
by rewrite E; have := H i; case: (f i).
Qed.
(** the weights under a change of gain *)
Definition homogeneous (dG dG' : fn) (r : 'M[R]_(N, T)) (a k : R) :=
  weight id dG' (a *: r) = k *: weight id dG r.
Lemma finite_gain (r : 'M[R]_(N, T)) (a : R) n : (0 < a)%coqR -> finite_weight id (a *: r) n = finite_weight id r n.
Proof.
move=> a0; apply: eq_forallb => t; rewrite !mxE /=; congr (~~ _).
have -> : (2 * (a * r n t)%R)%coqR = (a * (2 * r n t)%coqR)%R by toR; lra.
by rewrite mulf_eq0; case: eqP => // e; exfalso; move: e; toR; lra.
Qed.
Lemma ip1_once_undone dG dG' A z X W (a k : R) : (forall i, A i \in unitmx) -> (0 < a)%coqR -> (0 < k)%coqR ->
  (forall i, cabs (z i) = a) -> homogeneous dG dG' (norms (separate_all X W)) a k ->
  update_once_ip1 id dG' (mixed A X) (undone A z W) =
  omap (undone A (fun i => normd k (z i))) (update_once_ip1 id dG X W).
Proof.
move=> uA a0 k0 za H; rewrite /update_once_ip1 separate_undone // (norms_gained _ _ za); last by lra.
have -> : [forall n, finite_weight id (a *: norms (separate_all X W)) n] = [forall n, finite_weight id (norms (separate_all X W)) n].
  by apply: eq_forallb => n; exact: finite_gain.
case: ((T != 0%N) && _); last by [].
move: H; rewrite /homogeneous => ->.
apply: (@all_bins_map _ _ W (undone A z W) _ _ (fun i V => normd k (z i) *: (V *m invmx (A i)))) => i.
have zi : z i != 0 by apply/eqP => e; move: (za i); rewrite e cabs0; toR; lra.
have E := ip1_seen (wcov (weight id dG (norms (separate_all X W))) (X i)) (W i) (uA i) k0 zi.
rewrite -[LHS]/(ip1 id (wcov (k *: weight id dG (norms (separate_all X W))) (A i *m X i)) (z i *: (W i *m invmx (A i)))).
rewrite -[RHS]E.
have <- : wcov (k *: weight id dG (norms (separate_all X W))) (A i *m X i) =
  (fun m => c k *: (A i *m wcov (weight id dG (norms (separate_all X W))) (X i) m *m (A i)^H)); last by [].
by apply: functional_extensionality => n; exact: wcov_mixed.
Qed.
(** AuxLaplaceIVA and AuxGaussIVA *)
Lemma laplace_hom (r : 'M[R]_(N, T)) (a : R) : homogeneous (@d_laplace N T) (@d_laplace N T) r a (/ a)%coqR.
Proof.
apply/matrixP=> n t; rewrite !mxE /d_laplace /=; toR.
by rewrite /Rdiv !Rinv_mult; Rring.
Qed.
Lemma gauss_hom (v r : 'M[R]_(N, T)) (a : R) : (0 < a)%coqR ->
  homogeneous (d_gauss v) (d_gauss ((a ^ 2)%coqR *: v)) r a (/ a ^ 2)%coqR.
Proof.
move=> a0; apply/matrixP=> n t; rewrite !mxE /d_gauss !mxE /=; toR.
rewrite /Rdiv !Rinv_mult; move: (/ v n t)%coqR (/ r n t)%coqR => v' r'.
by Rfield; lra.
Qed.
Lemma variance_gained z Y (a : R) : (forall i, cabs (z i) = a) -> source_variance (gained z Y) = (a ^ 2)%coqR *: source_variance Y.
Proof.
move=> za; apply/matrixP=> n t; rewrite !mxE /meanR mulrCA; congr (_ * _); rewrite mulr_sumr.
by apply: eq_bigr => i _; rewrite /gained mxE cabsM za exprMn RpowE.
Qed.
Lemma nonzero_gained (v : 'M[R]_(N, T)) (a : R) : (0 < a)%coqR ->
  [forall n, [forall t, ((a ^ 2)%coqR *: v) n t != 0]] = [forall n, [forall t, v n t != 0]].
Proof.
move=> a0; apply: eq_forallb => n; apply: eq_forallb => t; rewrite mxE mulf_eq0 RpowE expf_eq0 /=.
by case: eqP => // e; exfalso; move: e; toR; lra.
Qed.
Lemma cabs_normd (k a : R) y : (0 < a)%coqR -> (0 < k)%coqR -> cabs y = a -> cabs (normd k y) = (/ R_sqrt.sqrt k)%coqR.
Proof.
move=> a0 k0 ya; have s0 := sqrt_lt_R0 _ k0; have m0 := Rmult_lt_0_compat _ _ a0 s0.
rewrite /normd ya -cRV; last by apply: Rgt_not_eq.
rewrite cabsM ya cabs_c Rabs_right; last by apply: Rle_ge; apply: Rlt_le; exact: Rinv_0_lt_compat.
by toR; Rfield; lra.
Qed.
Lemma laplace_ip1_undone A z X W (a : R) : (forall i, A i \in unitmx) -> (0 < a)%coqR -> (forall i, cabs (z i) = a) ->
  laplace_ip1 id (mixed A X) (undone A z W) = omap (undone A (fun i => normd (/ a)%coqR (z i))) (laplace_ip1 id X W).
Proof.
by move=> uA a0 za; apply: (ip1_once_undone uA a0 _ za (laplace_hom _ _)); exact: Rinv_0_lt_compat.
Qed.
Lemma gauss_ip1_undone A z X W (a : R) : (forall i, A i \in unitmx) -> (0 < a)%coqR -> (forall i, cabs (z i) = a) ->
  gauss_ip1 id (mixed A X) (undone A z W) = omap (undone A (fun i => normd (/ a ^ 2)%coqR (z i))) (gauss_ip1 id X W).
Proof.
move=> uA a0 za; rewrite /gauss_ip1 /gauss_update_ip1 separate_undone // (variance_gained _ za) nonzero_gained //.
set v := source_variance _; case: [forall n, _]; last by [].
have k0 : (0 < / a ^ 2)%coqR by apply: Rinv_0_lt_compat; exact: pow_lt.
rewrite (ip1_once_undone uA a0 k0 za (gauss_hom v _ a0)).
by case: update_once_ip1.
Qed.
Lemma iss1_once_gained dG dG' z Y (a k : R) : (0 < a)%coqR -> (0 < k)%coqR ->
  (forall i, cabs (z i) = a) -> homogeneous dG dG' (norms Y) a k ->
  update_once_iss1 id dG' (gained z Y) = omap (gained (fun i => normd k (z i))) (update_once_iss1 id dG Y).
Proof.
move=> a0 k0 za H; rewrite /update_once_iss1 (norms_gained _ _ za); last by lra.
have -> : [forall n, finite_weight id (a *: norms Y) n] = [forall n, finite_weight id (norms Y) n].
  by apply: eq_forallb => n; exact: finite_gain.
case: [forall n, _]; last by [].
move: H; rewrite /homogeneous => ->.
apply: (@all_bins_map _ _ Y (gained z Y) _ _ (fun i V => normd k (z i) *: V)) => i.
have zi : z i != 0 by apply/eqP => e; move: (za i); rewrite e cabs0; toR; lra.
exact: iss1_scaled.
Qed.
Lemma laplace_iss1_gained z Y (a : R) : (0 < a)%coqR -> (forall i, cabs (z i) = a) ->
  laplace_iss1 id (gained z Y) = omap (gained (fun i => normd (/ a)%coqR (z i))) (laplace_iss1 id Y).
Proof.
by move=> a0 za; apply: (iss1_once_gained a0 _ za (laplace_hom _ _)); exact: Rinv_0_lt_compat.
Qed.
Lemma gauss_iss1_gained z Y (a : R) : (0 < a)%coqR -> (forall i, cabs (z i) = a) ->
  gauss_iss1 id (gained z Y) = omap (gained (fun i => normd (/ a ^ 2)%coqR (z i))) (gauss_iss1 id Y).
Proof.
move=> a0 za; rewrite /gauss_iss1 /gauss_update_iss1 (variance_gained _ za) nonzero_gained //.
set v := source_variance _; case: [forall n, _]; last by [].
have k0 : (0 < / a ^ 2)%coqR by apply: Rinv_0_lt_compat; exact: pow_lt.
rewrite (iss1_once_gained a0 k0 za (gauss_hom v _ a0)).
by case: update_once_iss1.
Qed.
(** ** Runs *)
Definition level z := exists2 a : R, (0 < a)%coqR & forall i, cabs (z i) = a.
Lemma level_normd z (a k : R) : (0 < a)%coqR -> (0 < k)%coqR -> (forall i, cabs (z i) = a) -> level (fun i => normd k (z i)).
Proof.
move=> a0 k0 za; exists (/ R_sqrt.sqrt k)%coqR; first by apply: Rinv_0_lt_compat; exact: sqrt_lt_R0.
by move=> i; exact: (cabs_normd a0 k0 (za i)).
Qed.
Lemma level_neq0 z i : level z -> z i != 0.
Proof. by case=> a a0 za; apply/eqP => e; move: (za i); rewrite e cabs0; toR; lra. Qed.
Lemma iterate_map S S' (o : S -> option S) (o' : S' -> option S') (P : (S -> S') -> Prop) :
  (forall g s, P g -> exists2 g', P g' & o' (g s) = omap g' (o s)) ->
  forall k g s, P g -> exists2 g', P g' & iterate o' k (g s) = omap g' (iterate o k s).
Proof.
move=> H; elim=> [|k IH] g s Pg /=; first by exists g.
have [g' Pg' ->] := H g s Pg; case: (o s) => [s'|] /=; first exact: IH.
by exists g'.
Qed.
Definition diagonal z : filt := fun i => (z i)%:M.
Lemma diagonal_unit z i : z i != 0 -> diagonal z i \in unitmx.
Proof. by move=> z0; rewrite -[diagonal z i]scalemx1 unitmxZ ?unitmx1 // unitfE. Qed.
Lemma mixed_diagonal z X : mixed (diagonal z) X = gained z X.
Proof. by apply: functional_extensionality => i; rewrite /mixed /diagonal mul_scalar_mx. Qed.
Lemma undone_diagonal z y W i : undone (diagonal z) y W i = (y i / z i) *: W i.
Proof.
by rewrite /undone /diagonal invmx_scalar mul_mx_scalar scalerA.
Qed.
Lemma restore_f_undone X r z y W : (forall i, z i != 0) -> (forall i, y i != 0) ->
  restore_f (mixed (diagonal z) X) r (undone (diagonal z) y W) = omap (gained z) (restore_f X r W).
Proof.
move=> z0 y0; rewrite mixed_diagonal /restore_f.
apply: (@all_bins_map _ _ X (gained z X) _ _ (fun i V => z i *: V)) => i.
rewrite undone_diagonal /apply_pb.
have -> : (y i / z i) *: W i = diag_mx (const_mx (y i / z i)) *m W i.
  by rewrite diag_const_mx mul_scalar_mx.
rewrite pb_filter_scale; last by move=> j; rewrite mxE mulf_neq0 ?invr_eq0.
by case: pb_filter => //= V; rewrite /separate /gained -scalemxAr.
Qed.
Lemma restore_o_gained X r z y Y : (forall i, z i != 0) -> (forall i, y i != 0) ->
  restore_o (gained z X) r (gained y Y) = omap (gained z) (restore_o X r Y).
Proof.
move=> z0' y0'; rewrite /restore_o.
apply: (@all_bins_map _ _ X (gained z X) _ _ (fun i V => z i *: V)) => i.
rewrite /gained /pb_data.
have y0 := y0' i.
have -> : (y i *: Y i) *m (y i *: Y i)^H = (y i * (y i)^*) *: (Y i *m (Y i)^H).
  by rewrite ctrZ -scalemxAl -scalemxAr scalerA.
have yy : y i * (y i)^* != 0 by rewrite mulf_neq0 // conjC_eq0.
rewrite /np_inv unitmxZ ?unitfE //; case: ifP => // u /=; congr Some.
rewrite invmxZ ?unitmxZ ?unitfE // ctrZ -!(scalemxAl, scalemxAr) !scalerA.
apply/matrixP=> k t; rewrite !mxE.
have : (y i)^* != 0 by rewrite conjC_eq0.
move: y0; move: (y i) (y i)^* (z i) (Y i k t) (\sum_j _ * _) => a b d e f a0 b0.
by field; rewrite a0 b0.
Qed.

(** * Calls *)
Section Calls.
Variables (k : nat) (r : 'I_N).
Lemma gain_f (once : spec -> filt -> option filt) X z W : level z ->
  (forall s y (a : R), (0 < a)%coqR -> (forall i, cabs (y i) = a) -> exists2 b : R, (0 < b)%coqR &
    once (mixed (diagonal z) X) (undone (diagonal z) y s) = omap (undone (diagonal z) (fun i => normd b (y i))) (once X s)) ->
  call_f once k r W (gained z X) = omap (gained z) (call_f once k r W X).
Proof.
move=> lz H.
have W0 : undone (diagonal z) z W = W.
  by apply: functional_extensionality => i; rewrite undone_diagonal divff ?scale1r ?level_neq0.
have [|g [y ly ->]] := @iterate_map _ _ (once X) (once (mixed (diagonal z) X))
  (fun g => exists2 y, level y & g = undone (diagonal z) y) _ k (undone (diagonal z) z) W (ex_intro2 _ _ z lz erefl).
  move=> g s [y [a a0 ya] ->]; have [b b0 E] := H s y a a0 ya.
  exists (undone (diagonal z) (fun i => normd b (y i))); last exact: E.
  by exists (fun i => normd b (y i)) => //; apply: (level_normd a0 b0 ya).
rewrite W0 /call_f -mixed_diagonal => ->; case: iterate => [V|//] /=.
by apply: restore_f_undone => i; exact: level_neq0.
Qed.
(** the gain of the input: [gained z X] multiplies bin [i] by [z i], all of the same modulus *)
Theorem C78_gain_ip1 X W z : level z ->
  call_f (laplace_ip1 id) k r W (gained z X) = omap (gained z) (call_f (laplace_ip1 id) k r W X).
Proof.
move=> lz; have uD i := diagonal_unit (level_neq0 i lz).
apply: gain_f => // s y a a0 ya; exists (/ a)%coqR; first exact: Rinv_0_lt_compat.
exact: (laplace_ip1_undone X s uD a0 ya).
Qed.
Theorem C78_gain_gauss_ip1 X W z : level z ->
  call_f (gauss_ip1 id) k r W (gained z X) = omap (gained z) (call_f (gauss_ip1 id) k r W X).
Proof.
move=> lz; have uD i := diagonal_unit (level_neq0 i lz).
apply: gain_f => // s y a a0 ya; exists (/ a ^ 2)%coqR; first by apply: Rinv_0_lt_compat; exact: pow_lt.
exact: (gauss_ip1_undone X s uD a0 ya).
Qed.
Lemma separate_eyes X : separate_all X (@eyes F N) = X.
Proof. by apply: functional_extensionality => i; rewrite /separate_all /separate mul1mx. Qed.
Lemma gain_o (once : spec -> option spec) X z : level z ->
  (forall s y (a : R), (0 < a)%coqR -> (forall i, cabs (y i) = a) -> exists2 b : R, (0 < b)%coqR &
    once (gained y s) = omap (gained (fun i => normd b (y i))) (once s)) ->
  call_o once k r (gained z X) = omap (gained z) (call_o once k r X).
Proof.
move=> lz H.
have [|g [y ly ->]] := @iterate_map _ _ once once
  (fun g => exists2 y, level y & g = gained y) _ k (gained z) X (ex_intro2 _ _ z lz erefl).
  move=> g s [y [a a0 ya] ->]; have [b b0 E] := H s y a a0 ya.
  exists (gained (fun i => normd b (y i))); last exact: E.
  by exists (fun i => normd b (y i)) => //; apply: (level_normd a0 b0 ya).
rewrite /call_o !separate_eyes => ->; case: iterate => [V|//] /=.
by apply: restore_o_gained => i; exact: level_neq0.
Qed.
Theorem C78_gain_iss1 X z : level z ->
  call_o (laplace_iss1 id) k r (gained z X) = omap (gained z) (call_o (laplace_iss1 id) k r X).
Proof.
move=> lz; apply: gain_o => // s y a a0 ya; exists (/ a)%coqR; first exact: Rinv_0_lt_compat.
exact: (laplace_iss1_gained s a0 ya).
Qed.
Theorem C78_gain_gauss_iss1 X z : level z ->
  call_o (gauss_iss1 id) k r (gained z X) = omap (gained z) (call_o (gauss_iss1 id) k r X).
Proof.
move=> lz; apply: gain_o => // s y a a0 ya; exists (/ a ^ 2)%coqR; first by apply: Rinv_0_lt_compat; exact: pow_lt.
exact: (gauss_iss1_gained s a0 ya).
Qed.
(** an invertible mixing in every bin undone by the initial filters does not change the
    separated signals *)
Lemma undone1 (A : filt) W i : undone A (fun _ => 1) W i = W i *m invmx (A i).
Proof. by rewrite /undone scale1r. Qed.
Lemma normd1 : normd (/ 1)%coqR 1 = 1.
Proof. by rewrite /normd Rinv_1 sqrt_1 cabs1 mulr1 c1 divr1. Qed.
Lemma mixing_f (once : spec -> filt -> option filt) A X W : (forall i, A i \in unitmx) ->
  (forall s, once (mixed A X) (undone A (fun _ => 1) s) = omap (undone A (fun _ => 1)) (once X s)) ->
  call_raw once k (undone A (fun _ => 1) W) (mixed A X) = call_raw once k W X.
Proof.
move=> uA H.
have [|g -> E] := @iterate_map _ _ (once X) (once (mixed A X))
  (fun g => g = undone A (fun _ => 1)) _ k (undone A (fun _ => 1)) W erefl.
  by move=> g s ->; exists (undone A (fun _ => 1)).
rewrite /call_raw E; case: iterate => [V|//] /=; congr Some; rewrite separate_undone //.
by apply: functional_extensionality => i; rewrite /gained scale1r.
Qed.
Lemma undone1E (A : filt) W : undone A (fun _ => 1) W = (fun i => W i *m invmx (A i)).
Proof. by apply: functional_extensionality => i; exact: undone1. Qed.
Lemma modulus1 (i : 'I_F) : cabs ((fun _ : 'I_F => 1) i) = 1%coqR.
Proof. exact: cabs1. Qed.
Theorem C78_mixing (A : filt) X W : (forall i, A i \in unitmx) ->
  call_raw (laplace_ip1 id) k (fun i => W i *m invmx (A i)) (fun i => A i *m X i) =
  call_raw (laplace_ip1 id) k W X.
Proof.
move=> uA; rewrite -undone1E; apply: (mixing_f _ uA) => s.
have E := laplace_ip1_undone X s uA Rlt_0_1 modulus1.
by rewrite normd1 in E; exact: E.
Qed.
Theorem C78_mixing_gauss (A : filt) X W : (forall i, A i \in unitmx) ->
  call_raw (gauss_ip1 id) k (fun i => W i *m invmx (A i)) (fun i => A i *m X i) =
  call_raw (gauss_ip1 id) k W X.
Proof.
move=> uA; rewrite -undone1E; apply: (mixing_f _ uA) => s.
have E := gauss_ip1_undone X s uA Rlt_0_1 modulus1.
by rewrite pow1 normd1 in E; exact: E.
Qed.
(** AuxFDICA treats the bins separately: the factors need not have the same modulus *)
Lemma fdica_ip1_undone z y X W : (forall i, z i != 0) -> (forall i, y i != 0) ->
  laplace_fdica_ip1 id (mixed (diagonal z) X) (undone (diagonal z) y W) =
  omap (undone (diagonal z) (fun i => normd (/ cabs (y i))%coqR (y i))) (laplace_fdica_ip1 id X W).
Proof.
move=> z0 y0; rewrite /laplace_fdica_ip1 /fdica_ip1.
apply: (@all_bins_map _ _ W (undone (diagonal z) y W) _ _
  (fun i V => normd (/ cabs (y i))%coqR (y i) *: (V *m invmx (diagonal z i)))) => i.
have uD := diagonal_unit (z0 i); have a0 := cabs_gt0 (y0 i).
have -> : separate (mixed (diagonal z) X i) (undone (diagonal z) y W i) = y i *: separate (X i) (W i).
  by rewrite /separate /mixed /undone -scalemxAl -mulmxA mulKmx.
set Y := separate _ _; set a := cabs (y i) in a0 *.
have -> : [forall n, fdiv_ok id (y i *: Y) n] = [forall n, fdiv_ok id Y n].
  apply: eq_forallb => n; apply: eq_forallb => t; rewrite /= mxE cabsM -/a.
  have -> : (2 * (a * cabs (Y n t))%R)%coqR = (a * (2 * cabs (Y n t))%coqR)%R by toR; lra.
  by rewrite mulf_eq0; case: eqP => // e; exfalso; move: e; toR; lra.
case: ((T != 0%N) && _); last by [].
have -> : fweight id fdica_d_laplace (y i *: Y) = (/ a)%coqR *: fweight id fdica_d_laplace Y.
  apply/matrixP=> n t; rewrite !mxE cabsM -/a /fdica_d_laplace /=; toR.
  by rewrite /Rdiv !Rinv_mult; Rring.
have k0 := Rinv_0_lt_compat _ a0.
have E := ip1_seen (wcov (fweight id fdica_d_laplace Y) (X i)) (W i) uD k0 (y0 i).
rewrite -[RHS]E -[LHS]/(ip1 id (wcov ((/ a)%coqR *: fweight id fdica_d_laplace Y) (diagonal z i *m X i)) (y i *: (W i *m invmx (diagonal z i)))).
have <- : wcov ((/ a)%coqR *: fweight id fdica_d_laplace Y) (diagonal z i *m X i) =
  (fun m => c (/ a)%coqR *: (diagonal z i *m wcov (fweight id fdica_d_laplace Y) (X i) m *m (diagonal z i)^H)); last by [].
by apply: functional_extensionality => n; exact: wcov_mixed.
Qed.
Lemma gain_bins (once : spec -> filt -> option filt) X z W : (forall i, z i != 0) ->
  (forall s y, (forall i, y i != 0) -> exists2 y', (forall i, y' i != 0) &
    once (mixed (diagonal z) X) (undone (diagonal z) y s) = omap (undone (diagonal z) y') (once X s)) ->
  call_f once k r W (gained z X) = omap (gained z) (call_f once k r W X).
Proof.
move=> z0 H.
have W0 : undone (diagonal z) z W = W.
  by apply: functional_extensionality => i; rewrite undone_diagonal divff ?scale1r.
have [|g [y ly ->]] := @iterate_map _ _ (once X) (once (mixed (diagonal z) X))
  (fun g => exists2 y, (forall i, y i != 0) & g = undone (diagonal z) y) _ k (undone (diagonal z) z) W (ex_intro2 _ _ z z0 erefl).
  move=> g s [y y0 ->]; have [y' y0' E] := H s y y0.
  by exists (undone (diagonal z) y'); first by exists y'.
rewrite W0 /call_f -mixed_diagonal => ->; case: iterate => [V|//] /=.
exact: restore_f_undone.
Qed.
Theorem C78_gain_fdica X W z : (forall i, z i != 0) ->
  call_f (laplace_fdica_ip1 id) k r W (gained z X) = omap (gained z) (call_f (laplace_fdica_ip1 id) k r W X).
Proof.
move=> z0; apply: (gain_bins W z0) => s y y0.
exists (fun i => normd (/ cabs (y i))%coqR (y i)); last exact: (fdica_ip1_undone X s z0 y0).
by move=> i; apply: normd_neq0 => //; apply: Rinv_0_lt_compat; exact: cabs_gt0.
Qed.
End Calls.
End Once.

(** * A run that succeeds *)
Section Instance.
Lemma ip1_step_one N (n : 'I_N) : ip1_step id (fun _ : 'I_N => 1%:M) 1%:M n = Some 1%:M.
Proof.
rewrite /ip1_step /solve mul1mx unitmx1 invmx1 mul1mx mulmx1.
have q : ((delta_mx n 0 : 'cV[Cx]_N)^H *m (delta_mx n 0 : 'cV[Cx]_N)) 0 0 = 1.
  rewrite mxE (bigD1 n) //= big1; last by move=> j ne; rewrite !mxE (negbTE ne) mulr0.
  by rewrite !mxE eqxx /= conjC1 mulr1 addr0.
rewrite q; have -> : Rmax (re 1) 0 = 1%coqR by rewrite -cR1 rec Rmax_left //; lra.
rewrite sqrt_1 /divs /=.
case: eqP => [e|_]; first by exfalso; move: e; toR; lra.
congr Some; apply/row_matrixP => i; case: (eqVneq i n) => [->|ne].
  by rewrite row_setrow; apply/matrixP=> a b; rewrite !mxE cR1 invr1 mul1r (ord1 a) eqxx andbT eq_sym; case: eqP; rewrite /= ?conjC1 ?conjC0.
by rewrite row_setrow_neq.
Qed.
Lemma ip1_one N : ip1 id (fun _ : 'I_N => 1%:M) 1%:M = Some 1%:M.
Proof. by rewrite /ip1; elim: (enum 'I_N) => [|n s IH] //; rewrite ip1_loop_cons ip1_step_one. Qed.
Definition hada : 'M[Cx]_2 := \matrix_(n, t) (if (n == 1) && (t == 1) then - 1 else 1).
Definition Xe : 'I_2 -> 'M[Cx]_(2, 2) := fun _ => hada.
Definition Ze (i : 'I_2) : Cx := if i == 0 then c 2%coqR else - c 2%coqR.
Lemma Ze_level : level Ze.
Proof.
exists 2%coqR; first by lra.
by move=> i; rewrite /Ze; case: (i == 0); rewrite ?cabsN cabs_c Rabs_right //; lra.
Qed.
Lemma hada_cov : hada *m hada^H = c 2%coqR *: 1%:M.
Proof.
apply/matrixP=> i j; rewrite !mxE sum2 !mxE cR2.
by case: (ord2P i) => ->; case: (ord2P j) => ->; rewrite /= ?(rmorphN, conjC1, rmorph1, mulrNN, mulr1, mulN1r, mul1r, mulr0, addrN) //; ring.
Qed.
Lemma wcov_hada n : wcov (const_mx 1%R) hada n = 1%:M.
Proof.
rewrite -[RHS](scale1r 1%:M) -[X in X *: _](@mulVf _ (c 2%coqR)); last by rewrite c_neq0 //; lra.
rewrite -scalerA -hada_cov; apply/matrixP=> a b; rewrite !mxE /meanC; congr (_ * _).
  have two : (2%:R : R) = 2%coqR by rewrite -RnatE /=; lra.
  by rewrite -cRV ?two; [rewrite RinvE //; lra|lra].
by apply: eq_bigr => t _; rewrite !mxE c1 mul1r.
Qed.
Lemma norms_hada n t : norms (separate_all Xe (@eyes 2 2)) n t = R_sqrt.sqrt 2.
Proof.
rewrite separate_eyes mxE sum2 /Xe /hada mxE.
have -> : cabs (if (n == 1) && (t == 1) then -1 else 1) = 1%coqR by case: ifP; rewrite ?cabsN cabs1.
by congr R_sqrt.sqrt; rewrite -!RpowE; toR; rewrite /=; lra.
Qed.
Lemma first_step : exists2 g : R, (0 < g)%coqR & laplace_ip1 id Xe (@eyes 2 2) = Some (undone (@eyes 2 2) (fun _ => c g) (@eyes 2 2)).
Proof.
have s2 : (0 < R_sqrt.sqrt 2)%coqR by apply: sqrt_lt_R0; lra.
set q := R_sqrt.sqrt (/ R_sqrt.sqrt 2)%coqR.
have q0 : (0 < q)%coqR by apply: sqrt_lt_R0; exact: Rinv_0_lt_compat.
exists (/ q)%coqR; first exact: Rinv_0_lt_compat.
rewrite /laplace_ip1 /update_once_ip1.
have -> : [forall n, finite_weight id (norms (separate_all Xe (@eyes 2 2))) n].
  apply/forallP => n; apply/forallP => t; rewrite norms_hada /=; apply/eqP; toR; lra.
rewrite /=; have -> : weight id (@d_laplace 2 2) (norms (separate_all Xe (@eyes 2 2))) = (/ R_sqrt.sqrt 2)%coqR *: const_mx 1.
  apply/matrixP=> n t; rewrite mxE norms_hada !mxE /d_laplace mulr1 /=; Rfield; lra.
have E i : ip1 id (wcov ((/ R_sqrt.sqrt 2)%coqR *: const_mx 1) (Xe i)) (@eyes 2 2 i) = Some (c (/ q)%coqR *: 1%:M).
  have k0 := Rinv_0_lt_compat _ s2.
  have := ip1_seen (fun _ : 'I_2 => 1%:M) 1%:M (unitmx1 _ 2) k0 (oner_neq0 _).
  rewrite invmx1 !mulmx1 scale1r ip1_one /= mulmx1 /normd cabs1 -/q mul1r mul1r -cRV; last by lra.
  move=> <-; congr (ip1 id _ _); apply: functional_extensionality => n.
  by rewrite -[Xe i]mul1mx wcov_mixed wcov_hada mulmx1.
rewrite /all_bins; case: ifP => [_|/negP[]]; last by apply/forallP => i; rewrite E.
congr Some; apply: functional_extensionality => i; rewrite E /= /undone.
by rewrite /eyes invmx1 mulmx1.
Qed.
Lemma level_const (g : R) : (0 < g)%coqR -> level (fun _ : 'I_2 => c g).
Proof. by move=> g0; exists g => // i; rewrite cabs_c Rabs_right //; lra. Qed.
(** the observation is twice the identity in both bins; the initial filters are [hada / 2] *)
Definition Ae : 'I_2 -> 'M[Cx]_2 := fun _ => hada.
Definition Xi : 'I_2 -> 'M[Cx]_(2, 2) := fun _ => (c 2%coqR)%:M.
Definition Wi : 'I_2 -> 'M[Cx]_2 := fun _ => (c 2%coqR)^-1 *: hada.
Lemma hada_sq : hada *m hada = (c 2%coqR)%:M.
Proof.
rewrite -scalemx1 -hada_cov; congr (_ *m _); apply/matrixP=> i j; rewrite !mxE andbC.
by case: ifP; rewrite /= ?rmorphN conjC1.
Qed.
Lemma two_neq0 : c 2%coqR != 0.
Proof. by rewrite c_neq0 //; lra. Qed.
Lemma hada_unit : hada \in unitmx.
Proof.
have : (c 2%coqR)%:M \in @unitmx _ 2 by rewrite -scalemx1 unitmxZ ?unitmx1 // unitfE two_neq0.
by rewrite -hada_sq unitmx_mul andbb.
Qed.
Lemma hada_inv : invmx hada = (c 2%coqR)^-1 *: hada.
Proof.
apply: (can_inj (mulKmx hada_unit)); rewrite mulmxV ?hada_unit // -scalemxAr hada_sq.
by rewrite -[X in _ *: X]scalemx1 scalerA mulVf ?two_neq0 // scale1r.
Qed.
Lemma run_hada k y : level y -> exists2 y', level y' &
  iterate (laplace_ip1 id (mixed Ae Xe)) k (undone Ae y (@eyes 2 2)) = Some (undone Ae y' (@eyes 2 2)).
Proof.
elim: k y => [|k IH] y ly; first by exists y.
have [g g0 E] := first_step; have [a a0 ya] := ly.
have uE i : Ae i \in unitmx by exact: hada_unit.
rewrite /= (laplace_ip1_undone Xe (@eyes 2 2) uE a0 ya) E /=.
have E2 z : undone Ae z (undone (@eyes 2 2) (fun _ => c g) (@eyes 2 2)) =
            undone Ae (fun i => z i * c g) (@eyes 2 2).
  by apply: functional_extensionality => i; rewrite /undone /eyes invmx1 mulmx1 -scalemxAl scalerA.
rewrite E2; apply: IH; have k0 := Rinv_0_lt_compat _ a0.
have [b b0 zb] := level_normd a0 k0 ya; exists (b * g)%coqR; first exact: Rmult_lt_0_compat.
by move=> i; rewrite cabsM zb cabs_c Rabs_right; toR; lra.
Qed.
Lemma call_hada k : call_f (laplace_ip1 id) k 0 Wi Xi = Some Xe.
Proof.
have one : (0 < 1)%coqR by lra.
have [y ly E] := run_hada k (level_const one).
have e1 : undone Ae (fun _ => c 1%coqR) (@eyes 2 2) = Wi.
  by apply: functional_extensionality => i; rewrite /undone /eyes mul1mx /Ae hada_inv cR1 scale1r.
have e2 : mixed Ae Xe = Xi.
  by apply: functional_extensionality => i; rewrite /mixed /Ae /Xe hada_sq.
rewrite e1 e2 in E; rewrite /call_f E /restore_f.
have P i : omap fst (apply_pb (Xi i) (undone Ae y (@eyes 2 2) i) 0) = Some (Xe i).
  have y0 := level_neq0 i ly.
  have -> : undone Ae y (@eyes 2 2) i = diag_mx (const_mx (y i)) *m invmx hada.
    by rewrite diag_const_mx mul_scalar_mx /undone /eyes mul1mx.
  rewrite /apply_pb pb_filter_scale; last by move=> j; rewrite mxE.
  rewrite pb_filterE ?unitmx_inv ?hada_unit //= /separate invmxK; congr Some.
  have -> : row 0 hada = const_mx 1 by apply/matrixP=> a b; rewrite !mxE.
  rewrite diag_const_mx mul1mx hada_inv /Xi -scalemxAl mul_mx_scalar scalerA mulVf ?two_neq0 // scale1r.
  by [].
rewrite /all_bins; case: ifP => [_|/negP[]]; last by apply/forallP => i; rewrite P.
by congr Some; apply: functional_extensionality => i; rewrite P.
Qed.
(** the call succeeds for every number of iterations, also on the amplified input *)
Example C78_instance : exists (X Y : 'I_2 -> 'M[Cx]_(2, 2)) (W : 'I_2 -> 'M[Cx]_2) z, level z /\ forall k,
  [/\ call_f (laplace_ip1 id) k 0 W X = Some Y, call_f (laplace_ip1 id) k 0 W (gained z X) = Some (gained z Y) & gained z Y <> Y].
Proof.
exists Xi, Xe, Wi, Ze; split; first exact: Ze_level.
move=> k; split; first exact: call_hada.
  by rewrite (C78_gain_ip1 k 0 Xi Wi Ze_level) call_hada.
move=> /(congr1 (fun f : 'I_2 -> 'M[Cx]_2 => f 0 0 0)); rewrite /gained /Xe /Ze !mxE /= mulr1 -cR1 => /c_inj; lra.
Qed.
End Instance.
