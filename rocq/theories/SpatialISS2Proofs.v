From Coq Require Import Reals Lra.
From mathcomp Require Import all_ssreflect all_algebra.
From mathcomp Require Import zify.
From mathcomp.algebra_tactics Require Import ring.
From Verif Require Import RStruct MxC CxR NpLin RealLemmas Eigh EighProofs.
From Verif Require Import SpatialISS SpatialISSProofs SpatialIPProofs SpatialIP2 SpatialIP2Proofs SpatialISS2.
Import Order.TTheory GRing.Theory Num.Theory.
Set Implicit Arguments.
Unset Strict Implicit.
Unset Printing Implicit Defensive.
Local Open Scope ring_scope.

(** ** The list manipulation of the code *)
Section Lists.
Variables (eig : eigh_t) (chol : chol_t) (T : nat) (fl : R -> R).
Notation crow := 'rV[Cx]_T.
Notation rrow := 'rV[R]_T.

Lemma split5E A (f : nat -> A) N m n : (m < n)%N -> (n < N)%N ->
  split5 (mkseq f N) m n =
  (map f (iota 0 m), [:: f m], map f (iota m.+1 (n - m.+1)), [:: f n], map f (iota n.+1 (N - n.+1))).
Proof.
move=> mn nN; have mN := ltn_trans mn nN.
rewrite /split5 /mkseq -!map_take -!map_drop !take_iota !drop_iota !add0n.
have -> : minn m N = m by apply/minn_idPl/ltnW.
have -> : minn m.+1 N = m.+1 by apply/minn_idPl.
have -> : minn n N = n by apply/minn_idPl/ltnW.
have -> : minn n.+1 N = n.+1 by apply/minn_idPl.
by rewrite !subSnn.
Qed.

Lemma iss2_subsE M (y : nat -> crow) (p : nat -> rrow) (s : nat -> crow) l :
  (forall k, k \in l -> iss2_sub M (y k, p k) = Some (s k)) ->
  iss2_subs M (zip (map y l) (map p l)) = Some (map s l).
Proof.
elim: l => [|k l IH] //= H; rewrite H ?mem_head // IH // => i il.
by apply: H; rewrite inE il orbT.
Qed.

Lemma iss2_stepE_lt (y : nat -> crow) (p : nat -> rrow) (s : nat -> crow) N m n ym yn b :
  (0 < T)%N -> (m < n)%N -> (n < N)%N ->
  let M := pair_mx (if b then [:: y m; y n] else [:: y n; y m]) in
  (forall k, (k < N)%N -> k != m -> k != n -> iss2_sub M (y k, p k) = Some (s k)) ->
  iss2_main eig chol fl M (if b then [:: p m; p n] else [:: p n; p m]) = Some (ym, yn) ->
  iss2_step eig chol fl (mkseq p N) (mkseq y N) (if b then (m, n) else (n, m)) =
  Some (mkseq (fun k => if k == m then (if b then ym else yn)
                        else if k == n then (if b then yn else ym) else s k) N).
Proof.
move=> T0 mn nN M hs hm.
have mN := ltn_trans mn nN.
rewrite /iss2_step; set b' := ~~ (_ < _)%N.
have e' : b' = b by rewrite /b'; case: (b) => /=; rewrite ?mn // -leqNgt ltnW.
have -> : (T == 0%N) = false by rewrite eqn0Ngt T0.
rewrite e' {b' e'}.
have -> : (if b then (if b then (m, n) else (n, m)).1 else (if b then (m, n) else (n, m)).2) = m by case: (b).
have -> : (if b then (if b then (m, n) else (n, m)).2 else (if b then (m, n) else (n, m)).1) = n by case: (b).
rewrite !split5E // /=.
rewrite -/M hm -!map_cat (@iss2_subsE _ _ _ s); last first.
  move=> k; rewrite !mem_cat !mem_iota !add0n.
  by move=> h; apply: hs; lia.
congr Some.
have sz1 : size (map s (iota 0 m)) = m by rewrite size_map size_iota.
have sz2 : size (map s (iota m.+1 (n - m.+1))) = (n - m.+1)%N by rewrite size_map size_iota.
have n1 : n.-1 = (m + (n - m.+1))%N.
  by lia.
rewrite !map_cat.
have -> : take m (map s (iota 0 m) ++ map s (iota m.+1 (n - m.+1)) ++ map s (iota n.+1 (N - n.+1))) = map s (iota 0 m).
  by rewrite take_size_cat.
rewrite catA.
have sz12 : size (map s (iota 0 m) ++ map s (iota m.+1 (n - m.+1))) = n.-1.
  by rewrite size_cat sz1 sz2 n1.
rewrite (take_size_cat _ sz12) (drop_size_cat _ sz12) (drop_size_cat _ sz1).
have eN : iota 0 N = iota 0 m ++ m :: iota m.+1 (n - m.+1) ++ n :: iota n.+1 (N - n.+1).
  have -> : m :: iota m.+1 (n - m.+1) ++ n :: iota n.+1 (N - n.+1) = iota m (N - m).
    have -> : n :: iota n.+1 (N - n.+1) = iota n (N - n) by have -> : (N - n)%N = (N - n.+1).+1 by lia.
    have -> : iota n (N - n) = iota (m.+1 + (n - m.+1)) (N - n) by congr iota; lia.
    by rewrite -iotaD; have -> : (N - m)%N = (n - m.+1 + (N - n)).+1 by lia.
  by rewrite -[X in _ ++ iota X _]add0n -iotaD; congr iota; lia.
have out l : (forall k, k \in l -> (k != m) && (k != n)) -> map s l =
  map (fun k => if k == m then if b then ym else yn else if k == n then if b then yn else ym else s k) l.
  by move=> h; apply/eq_in_map => k /h /andP[/negbTE -> /negbTE ->].
rewrite /mkseq eN map_cat map_cons map_cat map_cons !eqxx -!out.
- have -> : (n == m) = false by lia.
  by case: (b).
- by move=> k; rewrite mem_iota; lia.
- by move=> k; rewrite mem_iota; lia.
- by move=> k; rewrite mem_iota; lia.
Qed.

Lemma iss2_stepE (y : nat -> crow) (p : nat -> rrow) (s : nat -> crow) N m n ym yn :
  (0 < T)%N -> m != n -> (m < N)%N -> (n < N)%N ->
  let M := pair_mx [:: y m; y n] in
  (forall k, (k < N)%N -> k != m -> k != n -> iss2_sub M (y k, p k) = Some (s k)) ->
  iss2_main eig chol fl M [:: p m; p n] = Some (ym, yn) ->
  iss2_step eig chol fl (mkseq p N) (mkseq y N) (m, n) =
  Some (mkseq (fun k => if k == m then ym else if k == n then yn else s k) N).
Proof.
move=> T0 + mN nN M hs hm; rewrite neq_ltn => /orP[mn|nm].
  exact: (@iss2_stepE_lt y p s N m n ym yn true).
rewrite (@iss2_stepE_lt y p s N n m ym yn false) //=.
  congr Some; apply: eq_map => k; case: (eqVneq k m) => [->|//].
  by have -> : (m == n) = false by lia.
by move=> k kN kn km; apply: hs.
Qed.
End Lists.

(** ** Weighted powers as quadratic forms *)
Section Quad.
Variable T : nat.
Definition Dw (p : 'rV[R]_T) : 'M[Cx]_T := rdiag ((T%:R)^-1 *: p).

Lemma wpower1_quad (p : 'rV[R]_T) (y : 'rV[Cx]_T) : wpower1 (p 0) (y 0) = quad (Dw p) y.
Proof.
rewrite quad_form form_rdiag rec /wpower1 mulr_sumr; apply: eq_bigr => t _.
by rewrite mxE ctrE cabs_conj mulrA.
Qed.

Lemma mulD (p : 'rV[R]_T) m n (A : 'M[Cx]_(m, T)) (B : 'M[Cx]_(n, T)) i j :
  (A *m Dw p *m B^H) i j = meanC (fun t => c (p 0 t) * (A i t * (B j t)^*)).
Proof.
rewrite mxE /meanC mulr_sumr; apply: eq_bigr => t _.
rewrite ctrE mxE (bigD1 t) //= big1 ?addr0; last first.
  by move=> k kt; rewrite !mxE (negbTE kt) mulr0n mulr0.
rewrite !mxE eqxx mulr1n cM.
by rewrite [A i t * _]mulrC -!mulrA.
Qed.
Lemma iss2_GE (p : 'rV[R]_T) M : iss2_G p M = M *m Dw p *m M^H.
Proof. by apply/matrixP => i j; rewrite mulD mxE. Qed.
Lemma iss2_FE (p : 'rV[R]_T) M y : iss2_F p M y = M *m Dw p *m y^H.
Proof. by apply/colP => i; rewrite mulD mxE. Qed.

Lemma Dw_pd (p : 'rV[R]_T) : (forall t, (0 < p 0%R t)%coqR) -> pd (Dw p).
Proof.
move=> p0; apply: pd_rdiag => t; rewrite mxE; apply/RltP; rewrite mulr_gt0 //; last exact/RltP.
by rewrite invr_gt0 ltr0n; case: (T) t => [[]|].
Qed.

Lemma G_pd (p : 'rV[R]_T) (M : 'M[Cx]_(2, T)) : (forall t, (0 < p 0%R t)%coqR) ->
  row_free M -> pd (iss2_G p M).
Proof.
move=> p0 rM; rewrite iss2_GE -{1}[M]ctrK; apply: pd_congr; first exact: Dw_pd.
move=> x e; apply: ctr_inj; rewrite ctr0; apply/eqP.
have := congr1 (@ctr _ _ _) e; rewrite ctr0 ctrM ctrK => /eqP.
by rewrite mulmx_free_eq0.
Qed.

Lemma quad_sub (D : 'M[Cx]_T) (y : 'rV[Cx]_T) (M : 'M[Cx]_(2, T)) (a : 'rV[Cx]_2) :
  D^H = D -> M *m D *m M^H \in unitmx ->
  let q := - invmx (M *m D *m M^H) *m (M *m D *m y^H) in
  quad D (y + a *m M) = (quad D (y + q^H *m M) + quad (M *m D *m M^H) (a - q^H)%R)%coqR.
Proof.
move=> hD uG q; set u := y + q^H *m M; set b := a - q^H.
have e : y + a *m M = u + b *m M by rewrite /u /b mulmxBl -addrA [q^H *m M + _]addrC subrK.
have Mu : M *m D *m u^H = 0.
  rewrite /u ctrD ctrM ctrK mulmxDr [_ *m (_ *m q)]mulmxA /q mulNmx.
  by rewrite mulmxN mulKVmx // subrr.
have uM : u *m D *m M^H = 0.
  by apply: ctr_inj; rewrite !ctrM ctrK hD ctr0 mulmxA.
rewrite e; move: u b Mu uM {e} => u b Mu uM.
rewrite /quad ctrD !mulmxDl !mulmxDr ctrM -[b *m M *m D]mulmxA -[b *m (M *m D) *m u^H]mulmxA Mu mulmx0.
rewrite [u *m D *m (_ *m _)]mulmxA uM mul0mx addr0 add0r.
by rewrite [in LHS]mxE reD !mulmxA.
Qed.
End Quad.

(** ** The two-dimensional problem *)
Section Main2.
Variables (Gm Gn Z : 'M[Cx]_2) (l : 'rV[R]_2).
Hypotheses (pm : pd Gm) (AZ : Gm *m Z = Gn *m Z *m rdiag l) (ZBZ : Z^H *m Gn *m Z = 1%:M).
Hypotheses (uZ : Z \in unitmx) (sl : (l 0%R 0%R <= l 0%R 1%R)%coqR).

Lemma m2_ZAZ : Z^H *m Gm *m Z = rdiag l.
Proof. by rewrite -mulmxA AZ mulmxA [Z^H *m (Gn *m Z)]mulmxA ZBZ mul1mx. Qed.

Lemma m2_l_gt0 i : (0 < l 0%R i)%coqR.
Proof.
have [_ /(_ (delta_mx i 0))] := pd_congr_unit pm uZ; rewrite m2_ZAZ form_rdiag.
have -> : (delta_mx i 0 : 'cV[Cx]_2) != 0.
  apply/eqP => /matrixP/(_ i 0); rewrite !mxE !eqxx => /eqP; by rewrite oner_eq0.
move=> /(_ isT); rewrite -c0 clt => /RltP; rewrite (bigD1 i) //= big1 => [|j ji].
  by rewrite mxE !eqxx cabs1 expr1n mulr1 addr0.
by rewrite mxE (negbTE ji) cabs0 expr0n mulr0.
Qed.

Lemma m2_z0 : (0 < cabs (\det Z^H))%coqR.
Proof. by apply: cabs_gt0; rewrite -unitfE -unitmxE ctr_unit. Qed.

Lemma m2_quadm (a : 'rV[Cx]_2) : quad Gm (a *m Z^H) =
  (l 0%R 0%R * cabs (a 0%R 0%R) ^ 2 + l 0%R 1%R * cabs (a 0%R 1%R) ^ 2)%coqR.
Proof.
rewrite -row_rdiag -m2_ZAZ /quad ctrM ctrK; congr (re (_ 0 0)).
by rewrite !mulmxA.
Qed.
Lemma m2_quadn (a : 'rV[Cx]_2) : quad Gn (a *m Z^H) =
  (cabs (a 0%R 0%R) ^ 2 + cabs (a 0%R 1%R) ^ 2)%coqR.
Proof.
have := row_rdiag a (const_mx 1); rewrite rdiag1 -ZBZ /quad ctrM ctrK !mulmxA => ->.
by rewrite !mxE -R1E; lra.
Qed.

Definition pair_cost (a b : 'rV[Cx]_2) : R :=
  (quad Gm a + quad Gn b - 2 * ln (cabs (D2 a b)))%coqR.

Lemma m2_lower a b : D2 a b != 0 ->
  (2 + ln (l 0%R 0%R) - 2 * ln (cabs (\det Z^H)) <= pair_cost a b)%coqR.
Proof.
have uZH : Z^H \in unitmx by rewrite ctr_unit.
rewrite -(mulmxKV uZH a) -(mulmxKV uZH b); set a' := a *m _; set b' := b *m _.
rewrite /pair_cost D2M mulf_eq0 negb_or => /andP[d0 _].
have z0 := m2_z0; have d1 := cabs_gt0 d0.
rewrite cabsM ln_mult // m2_quadm m2_quadn.
have dle : (cabs (D2 a' b') <= cabs (a' 0%R 1%R) * cabs (b' 0%R 0%R) + cabs (a' 0%R 0%R) * cabs (b' 0%R 1%R))%coqR.
  have := cabs_triang (a' 0 0 * b' 0 1) (- (a' 0 1 * b' 0 0)).
  by rewrite cabsN !cabsM Rplus_comm.
have [l0 l1] := (m2_l_gt0 0, m2_l_gt0 1).
have := pair_real_opt _ _ _ _ _ (/ l 0%R 1%R) (/ l 0%R 0%R) (cabs_ge0 (a' 0 1)) (cabs_ge0 (a' 0 0))
  (cabs_ge0 (b' 0 1)) (cabs_ge0 (b' 0 0)) d1 dle (Rinv_0_lt_compat _ l1) (Rinv_le_contravar _ _ l0 sl).
rewrite ln_Rinv // /Rdiv !Rinv_inv.
set x0 := cabs (a' 0 0); set x1 := cabs (a' 0 1); set y0 := cabs (b' 0 0); set y1 := cabs (b' 0 1).
set d := ln (cabs (D2 _ _)); set z := ln (cabs _); set s := ln _.
by move: (l 0 0) (l 0 1) => r0 r1; lra.
Qed.

Definition p_m (d : R) : 'rV[Cx]_2 := ((c d)^-1 *: col 0 Z)^H.
Definition p_n (d : R) : 'rV[Cx]_2 := ((c d)^-1 *: col 1 Z)^H.

Lemma p_mE d : p_m d = ((c d)^-1 *: delta_mx 0 0) *m Z^H.
Proof. by rewrite /p_m colE scalemxAr ctrM ctrZ -cV c_conj ctr_delta. Qed.
Lemma p_nE d : p_n d = ((c d)^-1 *: delta_mx 0 1) *m Z^H.
Proof. by rewrite /p_n colE scalemxAr ctrM ctrZ -cV c_conj ctr_delta. Qed.

Lemma cabs_cV d : (0 < d)%coqR -> cabs (c d)^-1 = (/ d)%coqR.
Proof.
move=> d0; rewrite -cV cabs_c -RinvE; last lra.
by rewrite Rabs_pos_eq //; apply: Rlt_le; apply: Rinv_0_lt_compat.
Qed.

Lemma p_D2 dm dn : D2 (p_m dm) (p_n dn) = (c dm)^-1 * (c dn)^-1 * \det Z^H.
Proof.
rewrite p_mE p_nE D2M; congr (_ * _); rewrite /D2 !mxE !eqxx /= !mulr1 !mulr0 subr0.
by [].
Qed.

Lemma p_cost dm dn : (0 < dm)%coqR -> (0 < dn)%coqR ->
  pair_cost (p_m dm) (p_n dn) =
  (l 0%R 0%R / dm ^ 2 + 1 / dn ^ 2 + 2 * (ln dm + ln dn) - 2 * ln (cabs (\det Z^H)))%coqR.
Proof.
move=> m0 n0; rewrite /pair_cost p_D2 !cabsM !cabs_cV // p_mE p_nE m2_quadm m2_quadn.
have z0 := m2_z0; have im := Rinv_0_lt_compat _ m0; have in_ := Rinv_0_lt_compat _ n0.
rewrite !ln_mult ?ln_Rinv //; last exact: Rmult_lt_0_compat.
rewrite !mxE !eqxx /= !mulr1 !mulr0 cabs0 !cabs_cV //.
rewrite -R0E; Rfield; lra.
Qed.

Lemma p_unit dm dn : (0 < dm)%coqR -> (0 < dn)%coqR -> D2 (p_m dm) (p_n dn) != 0.
Proof.
move=> m0 n0; rewrite p_D2 !mulf_neq0 ?invr_eq0 ?c_eq0 //.
- by apply/eqP; toR; lra.
- by apply/eqP; toR; lra.
- by rewrite -unitfE -unitmxE ctr_unit.
Qed.

Lemma m2_hGhm : (col 0 Z)^H *m Gm *m col 0 Z = (c (l 0 0))%:M.
Proof.
rewrite colE ctrM ctr_delta.
have -> : (delta_mx 0 0 : 'rV[Cx]_2) *m Z^H *m Gm *m (Z *m delta_mx 0 0) =
  delta_mx 0 0 *m (Z^H *m Gm *m Z) *m delta_mx 0 0 by move=> *; rewrite !mulmxA.
rewrite m2_ZAZ [X in X = _]mx11E; congr _%:M.
by rewrite -rowE -[_ *m delta_mx _ _]colE !mxE eqxx mulr1n.
Qed.
Lemma m2_hGhn : (col 1 Z)^H *m Gn *m col 1 Z = (c 1%coqR)%:M.
Proof.
rewrite colE ctrM ctr_delta.
have -> : (delta_mx 0 1 : 'rV[Cx]_2) *m Z^H *m Gn *m (Z *m delta_mx 1 0) =
  delta_mx 0 1 *m (Z^H *m Gn *m Z) *m delta_mx 1 0 by move=> *; rewrite !mulmxA.
rewrite ZBZ mulmx1 mul_delta_mx [X in X = _]mx11E; congr _%:M.
by rewrite mxE !eqxx cR1.
Qed.
End Main2.

(** ** Pairwise steering matrices *)
Section Steer2.
Variables (N T : nat) (m n : 'I_N).
Hypothesis mn : m != n.
Implicit Types (Y : 'M[Cx]_(N, T)) (phi : 'M[R]_(N, T)) (a : 'I_N -> 'rV[Cx]_2).

(** the identity except for columns [m] and [n] *)
Definition steer2 a : 'M[Cx]_N :=
  \matrix_(k, j) if j == m then a k 0 0 else if j == n then a k 0 1 else (k == j)%:R.
(** rows [m] and [n] of Y *)
Definition pairY Y : 'M[Cx]_(2, T) := \matrix_(i, t) Y (if i == 0 then m else n) t.

Lemma det_steer2 a : \det (steer2 a) = D2 (a m) (a n).
Proof.
have -> : steer2 a = (setrow m (\row_k a k 0 0) (setrow n (\row_k a k 0 1) 1%:M))^T.
  apply/matrixP => k j; rewrite !mxE; case: eqP => // _; case: eqP => // _.
  by rewrite eq_sym.
by rewrite det_tr det_setrow2_1 // !mxE /D2 [a n 0 0 * _]mulrC.
Qed.

Lemma row_steer2 a Y k :
  row k (steer2 a *m Y) = (if (k != m) && (k != n) then row k Y else 0) + a k *m pairY Y.
Proof.
apply/rowP => t; rewrite mxE [LHS]mxE [RHS]mxE [X in _ = _ + X]mxE sum2 !mxE /=.
have nm : n != m by rewrite eq_sym.
rewrite (bigD1 m) //= (bigD1 n) //= !mxE !eqxx (negbTE nm) addrA [RHS]addrC.
congr (_ + _); case: ifPn => [/andP[km kn]|].
  rewrite mxE (bigD1 k) /=; last by rewrite km kn.
  rewrite mxE (negbTE km) (negbTE kn) eqxx mul1r big1 ?addr0 //.
  move=> i /andP[/andP[im iN] ik]; rewrite mxE (negbTE im) (negbTE iN) eq_sym (negbTE ik).
  by rewrite mul0r.
rewrite negb_and !negbK mxE => kmn; apply: big1 => i /andP[im iN].
rewrite mxE (negbTE im) (negbTE iN).
by case/orP: kmn => /eqP ->; rewrite eq_sym ?(negbTE im) ?(negbTE iN) mul0r.
Qed.

Lemma pairY_free Y : row_free Y -> row_free (pairY Y).
Proof.
move=> fY; rewrite /row_free.
have e : pairY Y = (E_mn m n)^T *m Y.
  apply/matrixP => i t; rewrite !mxE (bigD1 (if i == 0 then m else n)) //= !mxE eqxx mul1r.
  by rewrite big1 ?addr0 // => j ji; rewrite !mxE (negbTE ji) mul0r.
rewrite e mxrankMfree //; apply/row_freeP; exists (E_mn m n).
apply/matrixP => i j; rewrite !mxE (bigD1 (if i == 0 then m else n)) //= !mxE eqxx mul1r.
rewrite big1 ?addr0; last by move=> k kE; rewrite !mxE (negbTE kE) mul0r.
case: (ord2P i) => ->; case: (ord2P j) => -> /=; rewrite ?eqxx ?(negbTE mn) //.
by rewrite eq_sym (negbTE mn).
Qed.

Lemma wpower_steer2 phi a Y :
  wpower phi (steer2 a *m Y) =
  (\sum_(k | (k != m) && (k != n)) quad (Dw (row k phi)) (row k Y + a k *m pairY Y)%R
   + quad (iss2_G (row m phi) (pairY Y)) (a m) + quad (iss2_G (row n phi) (pairY Y)) (a n))%coqR.
Proof.
have e k : wpower1 (phi k) ((steer2 a *m Y) k) = quad (Dw (row k phi)) (row k (steer2 a *m Y)).
  rewrite -wpower1_quad /wpower1; congr (_ * _); apply: eq_bigr => t _.
  by rewrite [row k phi _ _]mxE [row k _ _ _]mxE.
rewrite /wpower; under eq_bigr => k _ do rewrite e row_steer2.
have nm : n != m by rewrite eq_sym.
rewrite (bigD1 m) //= (bigD1 n) //= !eqxx andbF /= !add0r.
have q k : quad (Dw (row k phi)) (a k *m pairY Y) = quad (iss2_G (row k phi) (pairY Y)) (a k).
  by rewrite /quad iss2_GE ctrM !mulmxA.
rewrite !q.
have -> : \sum_(i | (i != m) && (i != n)) quad (Dw (row i phi))
   ((if (i != m) && (i != n) then row i Y else 0) + a i *m pairY Y) =
  \sum_(k | (k != m) && (k != n)) quad (Dw (row k phi)) (row k Y + a k *m pairY Y).
  by apply: eq_bigr => k ->.
by rewrite addrA addrC !RaddE addrA.
Qed.
End Steer2.

(** ** One step of the model *)
Definition rowsof A N T (Y : 'M[A]_(N, T)) : seq 'rV[A]_T := [seq row i Y | i <- enum 'I_N].
Lemma size_rowsof A N T (Y : 'M[A]_(N, T)) : size (rowsof Y) = N.
Proof. by rewrite size_map size_enum_ord. Qed.
Lemma nth_rowsof (A : ringType) N T (Y : 'M[A]_(N, T)) (i : 'I_N) : nth 0 (rowsof Y) i = row i Y.
Proof. by rewrite (nth_map i) ?size_enum_ord // nth_ord_enum. Qed.
Lemma rowsof_mkseq (A : ringType) N T (Y : 'M[A]_(N, T)) : rowsof Y = mkseq (nth 0 (rowsof Y)) N.
Proof. by rewrite -{3}(size_rowsof Y) mkseq_nth. Qed.
Lemma mkseq_rowsof (A : ringType) N T (Y : 'M[A]_(N, T)) (f : nat -> 'rV[A]_T) :
  (forall i : 'I_N, f i = row i Y) -> mkseq f N = rowsof Y.
Proof.
move=> h; rewrite rowsof_mkseq; apply/eq_in_map => k; rewrite mem_iota add0n => /andP[_ kN].
by rewrite -[k]/(val (Ordinal kN)) h nth_rowsof.
Qed.

Section Step.
Variables (eig : eigh_t) (chol : chol_t).
Hypotheses (He : eigh_contract eig) (Hc : chol_contract chol).
Variables (N T : nat) (fl : R -> R) (phi : 'M[R]_(N, T)) (Y : 'M[Cx]_(N, T)) (m n : 'I_N).
Hypotheses (T0 : (0 < T)%N) (mn : m != n).
Hypothesis fl0 : forall x, (0 < x)%coqR -> (0 < fl x)%coqR.
Hypothesis pG : forall k, pd (iss2_G (row k phi) (pairY m n Y)).
Let M := pairY m n Y.

Definition iss2_q k : 'cV[Cx]_2 :=
  - invmx (iss2_G (row k phi) M) *m iss2_F (row k phi) M (row k Y).

Lemma pair_mxE : pair_mx [:: row m Y; row n Y] = M.
Proof. by apply/matrixP => i t; case: (ord2P i) => ->; rewrite !mxE. Qed.

Lemma iss2_subE k : iss2_sub M (row k Y, row k phi) = Some (row k Y + (iss2_q k)^H *m M).
Proof.
rewrite /iss2_sub inv2_spec /= -[\det _ == 0]negbK -unitfE -unitmxE.
by rewrite (pd_unit (pG k)).
Qed.

Lemma iss2_step_mx : exists l (Z : 'M[Cx]_2), [/\
  iss2_G (row m phi) M *m Z = iss2_G (row n phi) M *m Z *m rdiag l,
  Z^H *m iss2_G (row n phi) M *m Z = 1%:M, Z \in unitmx, (l 0%R 0%R <= l 0%R 1%R)%coqR &
  iss2_step eig chol fl (rowsof phi) (rowsof Y) (val m, val n) =
  Some (rowsof (steer2 m n (fun k =>
    if k == m then p_m Z (fl (R_sqrt.sqrt (l 0 0)))
    else if k == n then p_n Z (fl 1%coqR) else (iss2_q k)^H) *m Y))].
Proof.
have inv2E (A : 'M[Cx]_2) : A \in unitmx -> inv2 A = Some (invmx A).
  by move=> uA; rewrite inv2_spec -[_ == 0]negbK -unitfE -unitmxE uA.
have [l [Z [e1 e2 e3 e4 e5]]] := geigh1 He Hc inv2E (proj1 (pG m)) (pG n).
exists l, Z; split=> //; first exact: e5.
have l0 := m2_l_gt0 (pG m) e2 e3 e4 0.
have s0 := fl0 (sqrt_lt_R0 _ l0); have f1 := fl0 Rlt_0_1.
have main : iss2_main eig chol fl M [:: row m phi; row n phi] =
  Some (p_m Z (fl (R_sqrt.sqrt (l 0 0))) *m M, p_n Z (fl 1%coqR) *m M).
  rewrite /iss2_main /= /eigh2 e1.
  rewrite (scale_hE (Rlt_le _ _ l0) (m2_hGhm e2 e3)); last by apply/eqP; toR; lra.
  rewrite (scale_hE Rle_0_1 (m2_hGhn e3)) sqrt_1 //; by apply/eqP; toR; lra.
rewrite (rowsof_mkseq phi) (rowsof_mkseq Y).
rewrite (@iss2_stepE eig chol T fl _ _ (fun k => if insub k is Some i then row i Y + (iss2_q i)^H *m M else 0)
  N m n (p_m Z (fl (R_sqrt.sqrt (l 0 0))) *m M) (p_n Z (fl 1%coqR) *m M)) //.
- congr Some; apply: mkseq_rowsof => i; rewrite row_steer2 // -!(inj_eq val_inj) /= valK.
  case: ifPn => [/eqP im|im] /=; first by rewrite add0r.
  by case: ifPn => [/eqP iN|iN] /=; first by rewrite add0r.
- move=> k kN km kn; rewrite !nth_rowsof pair_mxE -[k]/(val (Ordinal kN)) !nth_rowsof valK.
  exact: iss2_subE.
- by rewrite !nth_rowsof pair_mxE.
Qed.

(** cost of the step and lower bound for every pairwise steering *)
Lemma iss2_cost_lower a : D2 (a m) (a n) != 0 ->
  let opt k := if (k != m) && (k != n) then (iss2_q k)^H else a k in
  (wpower phi (steer2 m n opt *m Y) - 2 * ln (cabs (\det (steer2 m n opt))) <=
   wpower phi (steer2 m n a *m Y) - 2 * ln (cabs (\det (steer2 m n a))))%coqR.
Proof.
move=> d0 opt; rewrite !det_steer2 // !wpower_steer2 //.
have -> : opt m = a m by rewrite /opt eqxx.
have -> : opt n = a n by rewrite /opt eqxx andbF.
suff : (\sum_(k | (k != m) && (k != n)) quad (Dw (row k phi)) (row k Y + opt k *m M)%R <=
        \sum_(k | (k != m) && (k != n)) quad (Dw (row k phi)) (row k Y + a k *m M)%R)%coqR.
  by rewrite /M; set x := \sum_(_ | _) _; set y := \sum_(_ | _) _; lra.
apply: sumR_le => k kk; rewrite /opt kk /iss2_q iss2_GE iss2_FE.
have hD : (Dw (row k phi))^H = Dw (row k phi) by exact: rdiag_ctr.
have pk := pG k; rewrite iss2_GE -/M in pk.
rewrite [X in (_ <= X)%coqR](quad_sub (row k Y) (a k) hD (pd_unit pk)).
have [_ /(_ (a k - (- invmx (M *m Dw (row k phi) *m M^H) *m (M *m Dw (row k phi) *m (row k Y)^H))^H)^H)] := pd_psd pk.
move=> /ge0_cre[_]; rewrite -quad_form; lra.
Qed.
End Step.
