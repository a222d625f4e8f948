(** Property C74, continued: whole sweeps of [update_by_ipa] for two sources, and what
    happens for three and more. *)
From Coq Require Import Reals Lra Classical FunctionalExtensionality.
From mathcomp Require Import all_ssreflect all_algebra.
From mathcomp.algebra_tactics Require Import ring.
From Verif Require Import RStruct MxC CxR NpLin RealLemmas Eigh EighProofs.
From Verif Require Import SpatialIPProofs SpatialISS SpatialISSProofs Cubic Lqpqm LqpqmProofs Lqpqm2 Lqpqm2Proofs.
From Verif Require Import Prop_Lqpqm Prop_Lqpqm2 Prop_Linalg Ipa IpaProofs IpaProofs2 IpaProofs3 IpaProofs4 Prop_Ipa.
Import Order.TTheory GRing.Theory Num.Theory.
Set Implicit Arguments.
Unset Strict Implicit.
Unset Printing Implicit Defensive.
Local Open Scope ring_scope.

Lemma admissible_T m T (phi : 'M[R]_(m.+2, T)) (Y : 'M[Cx]_(m.+2, T)) : admissible phi Y -> (0 < T)%N.
Proof.
move=> [_]; rewrite /row_free => /eqP e; have := rank_leq_col Y; rewrite e; exact: leq_trans.
Qed.
Lemma admissible_good m T fl (phi : 'M[R]_(m.+2, T)) (Y : 'M[Cx]_(m.+2, T)) :
  admissible phi Y -> unfloored fl phi Y -> IpaProofs3.good fl (phi, Y).
Proof.
move=> ad uf; have T0 := admissible_T ad; have [p0 fY] := ad; split; last exact: unflooredE.
by move=> k; apply: cov_pd.
Qed.

(** ** three and more sources *)
(** C74: with at least three sources and the default trace normalisation a converged step is
    never the optimal change, unless the linear term is orthogonal to a top eigenvector *)
Theorem C74_never eig m T mi n bins Ys i (phi : 'M[R]_(m.+3, T)) (Y : 'M[Cx]_(m.+3, T)) k0 V :
  eigh_contract eig -> ipa_step eig identity_fl true mi n bins = Some (Ys, false) -> (i < size bins)%N ->
  nth (0, 0) bins i = (phi, Y) -> admissible phi Y ->
  top_eig (quad_term phi Y n) k0 -> generic (quad_term phi Y n) (lin_term phi Y n) k0 ->
  nth 0 Ys i = V *m Y -> ~ optimal_change n phi Y V.
Proof.
move=> He es hi eb ad [[x0 nx0 ex0] tx] ge eV opt.
have uf : unfloored identity_fl phi Y by left.
have [lqs [qs [H [v [z [q [V' [K [h1 [pH zH vE trH [s s0 HE]] [h3 h4 h5] h6 h7]]]]]]]]] := step_core He es hi eb ad uf.
have VE : V = V'.
  have [_ fY] := ad; apply: (row_free_inj fY); by rewrite -eV h4.
rewrite {V}VE in eV opt.
have mn : minimises H v z q.
  split; first by have [] := h6 q.
  move=> q' _; have [_ [V1 cV1 eV1]] := h6 q'; have [_ /(_ _ cV1)] := opt; rewrite h5 eV1.
  by move: (objective H v z q) (objective H v z q') => a b; lra.
have [e1 e2 e3 e4] := h1.
have HsE x : H *m x = c (/ s)%coqR *: (quad_term phi Y n *m x) by rewrite HE -scalemxAl cRV //; lra.
have is0 : (0 < / s)%coqR by apply: Rinv_0_lt_compat.
have tk : top_eig H (k0 / s)%coqR.
  split.
    by exists x0; rewrite // HsE ex0 scalerA -cM /Rdiv; congr (c _ *: _); rewrite mulrC.
  move=> x; rewrite -mulmxA HsE -scalemxAr [((_ *: _) : 'M__) 0%R 0%R]mxE reMc mulmxA.
  have := tx x; move: (re _) (re _) => a b ab; toR.
  by have := Rmult_le_compat_l _ _ _ (Rlt_le _ _ is0) ab; rewrite /Rdiv; lra.
have gk : generic H v (k0 / s)%coqR.
  move=> x nx; rewrite HsE => ex; rewrite vE; apply: ge => //.
  have : c s *: (c (/ s)%coqR *: (quad_term phi Y n *m x)) = c s *: (c (k0 / s)%coqR *: x) by rewrite ex.
  rewrite !scalerA -!cM; have -> : s * (/ s)%coqR = 1 by toR; rewrite Rinv_r //; lra.
  have es' : (s * (k0 / s) = k0)%coqR by Rfield; lra.
  rewrite -[s * (k0 / s)%coqR]/(s * (k0 / s))%coqR es'.
  by rewrite c1 scale1r.
have sp := He _ _ pH.1; case er: (eig _ _) sp => [ph P] sp.
have [hk [j ej]] := top_phi sp tk.
have ph0 l : (0 < ph 0%R l)%coqR := eigh_val_gt0 l pH sp.
have k1 : (k0 / s < 1)%coqR.
  have := eigh_trace sp; rewrite trH //= -cR1 => /c_inj e; rewrite -ej.
  have [j' nj] : exists j', j' != j.
    by have [->|n0] := eqVneq j 0; [exists 1|exists 0; rewrite eq_sym].
  rewrite e (bigD1 j) //= (bigD1 j') //=.
  have : (0 <= (\sum_(l | (l != j) && (l != j')) ph 0%R l)%R)%coqR.
    by apply: sumR_ge0 => l _; exact: Rlt_le.
  by have := ph0 j'; move: (\sum_(_ | _) _) => S; toR; lra.
have v0 : v != 0.
  apply/eqP => vz; have := top_vt sp gk ej; by rewrite vz mulmx0 mxE eqxx.
have sg : sing_floor identity_fl (vnorm v) = false.
  by apply/RltbP; rewrite /identity_fl => h; move: h; rewrite /vnorm; have := R_sqrt.sqrt_pos (\sum_i cabs (v i 0) ^+ 2); move: (R_sqrt.sqrt _) => y; toR; lra.
have := @C63_never eig _ (sing_floor identity_fl) mi _ He qs i (k0 / s)%coqR e1 e2; rewrite e3.
move=> /(_ sg (pd_psd pH) (Rlt_le _ _ zH) tk); rewrite e4; apply=> //; last lra.
by rewrite -ej.
Qed.

(** ** two sources: totality and whole sweeps *)
Section Two.
Variables (eig : eigh_t) (He : eigh_contract eig) (T : nat) (fl : R -> R).
Implicit Types (phi : 'M[R]_(2, T)) (Y : 'M[Cx]_(2, T)) (n : 'I_2).

Lemma two_start phi Y n : admissible phi Y -> unfloored fl phi Y -> resolved fl (gap phi Y n) ->
  starts eig fl (sing_floor fl) (ip_lq (prep_of true n (phi, Y))).
Proof.
move=> ad uf [rs1 rs2]; have T0 := admissible_T ad; have [pG hf] := admissible_good ad uf.
set G := ipa_cov (phi, Y) in pG hf.
have H1 : (c (ipa_s true n G))^-1 *: ipa_H0 (ipa_a G n) (ipa_C (invmx (G n)) n) = 1%:M.
  apply: tr1; rewrite mxtraceZ /ipa_s; set H0 := ipa_H0 _ _.
  have -> : \tr H0 = c (re (\tr H0)).
    apply: real_cre; rewrite /mxtrace; apply: rpred_sum => j _; apply/CrealP.
    by have [] := pH0 n pG; rewrite -/H0 => hH _; rewrite -[in LHS]hH ctrE conjCK.
  by rewrite rec mulVf // c_eq0; apply/eqP; have := tr_gt0 n pG; rewrite -/H0; toR; lra.
rewrite /prep_of /= -/G H1 -[X in (1%:M, X, _)]/(lin_term phi Y n); set v := lin_term phi Y n.
set z := (_ / _)%coqR.
have z0 : (0 < z)%coqR by apply: Rdiv_lt_0_compat; [exact: z0_gt0|exact: (ipa_s_gt0 true n pG)].
have vg : (cabs (v 0%R 0%R) ^ 2 = gap phi Y n)%coqR by rewrite /v lin_gap.
have vn : vnorm v = cabs (v 0 0) by rewrite /vnorm big_ord1 -RpowE sqrt_pow2 //; exact: cabs_ge0.
have v0E : v = 0 <-> cabs (v 0 0) = 0.
  split=> [->|/eqP]; first by rewrite mxE cabs0.
  by rewrite cabs_eq0 => /eqP h; apply/matrixP => a b; rewrite (ord1 a) (ord1 b) h mxE.
apply: starts_one => //; first exact: Rlt_le.
case: uf => [fe|[eps [ep0 ep1] [fe _]]].
  have g0 := rs1 fe; rewrite fe => _; split=> //.
  - by apply/eqP => /v0E h; apply: g0; rewrite -vg h; toR; lra.
  - exact: Rle_refl.
  - exact: pow2_ge_0.
have s0 : max_flooring eps 0%coqR = eps by apply: Rmax_right; lra.
rewrite fe => /RltbP; rewrite vn s0 => nl; have ev : (eps <= cabs (v 0%R 0%R))%coqR by lra.
case: (rs2 _ fe) => g.
  have vz : v = 0 by apply/v0E; apply: Rsqr_eq_0; rewrite Rsqr_pow2 vg.
  by move: ev; rewrite vz mxE cabs0; toR; lra.
split; rewrite ?s0 ?vg //.
- by apply/eqP => /v0E h; move: ev; rewrite h; toR; lra.
- by apply: Rmax_left.
- exact: Rlt_le.
Qed.

(** C74: for two sources the step is defined and issues no warning, for every positive
    iteration limit *)
Theorem C74_two_defined mi n (bins : seq ('M[R]_(2, T) * 'M[Cx]_(2, T))) : (0 < T)%N ->
  (forall i, (i < size bins)%N -> let: (phi, Y) := nth (0, 0) bins i in
     [/\ admissible phi Y, unfloored fl phi Y & resolved fl (gap phi Y n)]) ->
  exists2 Ys, ipa_step eig fl true mi.+1 n bins = Some (Ys, false) & size Ys = size bins.
Proof.
move=> T0 h; have gd i : (i < size bins)%N -> IpaProofs3.good fl (nth (0, 0) bins i).
  by move=> hi; have := h i hi; case: (nth _ _ _) => phi Y [ad uf _]; exact: admissible_good.
have [ys e] : exists ys, lqpqm2 eig fl (sing_floor fl) mi.+1 [seq ip_lq (prep_of true n b) | b <- bins] = Some (ys, false).
  apply: lqpqm2_starts => i; rewrite size_map => hi; rewrite (nth_map (0, 0)) //.
  by have := h i hi; case: (nth _ _ _) => phi Y [ad uf rv]; exact: two_start.
have [sq _] := lqpqm2_nth e; rewrite size_map in sq.
eexists; first by rewrite (stepE He true mi.+1 n T0 gd) e.
by rewrite size_map size_zip sq minnn.
Qed.

(** the conditions of both steps: the second one concerns the states that an optimal
    first step can reach *)
Definition steady phi Y : Prop :=
  [/\ admissible phi Y, unfloored fl phi Y, resolved fl (gap phi Y 0) &
      forall V, optimal_change 0 phi Y V ->
        unfloored fl phi (V *m Y) /\ resolved fl (gap phi (V *m Y) 1)].

Lemma surrogate_comp phi Y (V W : 'M[Cx]_2) : V \in unitmx -> W \in unitmx ->
  surrogate phi Y (W *m V) = (surrogate phi (V *m Y) W - 2 * ln (cabs (\det V)))%coqR.
Proof.
move=> uV uW; rewrite /surrogate mulmxA det_mulmx cabsM ln_mult; first last.
- by apply: cabs_gt0; move: uV; rewrite unitmxE unitfE.
- by apply: cabs_gt0; move: uW; rewrite unitmxE unitfE.
by move: (\sum_k _) (ln _) (ln _) => x y u; lra.
Qed.

(** C74: for two sources one call of [update_by_ipa] is defined, issues no warning, and
    lowers the auxiliary function of every bin or leaves it unchanged *)
Theorem C74_two_call mi (phis : seq 'M[R]_(2, T)) (Ys : seq 'M[Cx]_(2, T)) : (0 < T)%N -> size phis = size Ys ->
  (forall i, (i < size Ys)%N -> steady (nth 0 phis i) (nth 0 Ys i)) ->
  exists Ys', update_by_ipa eig fl true mi.+1 phis Ys = Some (Ys', false) /\ size Ys' = size Ys /\
  forall i phi Y, (i < size Ys)%N -> nth 0 phis i = phi -> nth 0 Ys i = Y ->
    exists2 V, V \in unitmx & nth 0 Ys' i = V *m Y /\ (surrogate phi Y V <= surrogate phi Y 1%:M)%coqR.
Proof.
move=> T0 sz h; rewrite /update_by_ipa /ipa_loop.
have -> : enum 'I_2 = [:: 0; 1].
  by apply: (inj_map val_inj); rewrite val_enum_ord.
have sb (A : seq 'M[Cx]_(2, T)) : size A = size Ys -> size (zip phis A) = size Ys.
  by move=> e; rewrite size_zip sz e minnn.
have nz (A : seq 'M[Cx]_(2, T)) i : size A = size Ys -> nth (0, 0) (zip phis A) i = (nth 0 phis i, nth 0 A i).
  by move=> e; rewrite nth_zip // sz e.
have [|Ys1 e1 s1] := @C74_two_defined mi 0 (zip phis Ys) T0.
  by move=> i; rewrite sb // => hi; rewrite nz //; have [] := h i hi.
rewrite sb // in s1.
have st1 i : (i < size Ys)%N -> exists2 V, nth 0 Ys1 i = V *m nth 0 Ys i & optimal_change 0 (nth 0 phis i) (nth 0 Ys i) V.
  move=> hi; have [ad uf rv _] := h i hi.
  by apply: (C74_two_sources He e1) => //; rewrite ?sb // nz.
have ad1 i : (i < size Ys)%N -> [/\ admissible (nth 0 phis i) (nth 0 Ys1 i), unfloored fl (nth 0 phis i) (nth 0 Ys1 i)
    & resolved fl (gap (nth 0 phis i) (nth 0 Ys1 i) 1)].
  move=> hi; have [ad uf rv nx] := h i hi; have [V eV oV] := st1 i hi.
  have [uf1 rv1] := nx _ oV; rewrite eV; split=> //; have [p0 fY] := ad; split=> //.
  rewrite /row_free mxrankMfree //; have [[uV _] _] := oV.
  by move: uV; rewrite -row_free_unit => /eqP ->.
have [|Ys2 e2 s2] := @C74_two_defined mi 1 (zip phis Ys1) T0.
  by move=> i; rewrite sb // => hi; rewrite nz //; exact: ad1.
rewrite sb // in s2.
exists Ys2; rewrite /= e1 e2; split=> //; split=> // i phi Y hi ephi eY.
have [V eV oV] := st1 i hi; have [ad2 uf2 rv2] := ad1 i hi.
have [||W eW oW] := C74_two_sources He e2 (i := i) _ _ ad2 uf2 rv2; rewrite ?sb ?nz //.
have [[uV _] /(_ _ (changes1 0)) le1] := oV; have [[uW _] /(_ _ (changes1 1)) le2] := oW.
rewrite {}ephi {}eY in eV eW le1 le2 *.
exists (W *m V); first by rewrite unitmx_mul uV uW.
split; first by rewrite eW eV mulmxA.
rewrite surrogate_comp //; rewrite eV in le2.
apply: Rle_trans le1; have := surrogate_comp phi Y uV (unitmx1 _ 2).
rewrite mul1mx => ->; move: le2; move: (surrogate phi (V *m Y) W) (surrogate phi (V *m Y) 1%:M) (ln _) => x y u; lra.
Qed.
End Two.

(** ** the convergence warning of a call *)
Section Warning.
Variables (eig : eigh_t) (m T : nat) (fl : R -> R) (nrm : bool) (mi : nat).
Lemma loop_chain (phis : seq 'M[R]_(m.+2, T)) s Ys Ys' w : ipa_loop eig fl nrm mi phis s Ys = Some (Ys', w) ->
  exists (st : nat -> seq 'M[Cx]_(m.+2, T)) (ws : nat -> bool), [/\ st 0%N = Ys, st (size s) = Ys',
    forall j, (j < size s)%N -> ipa_step eig fl nrm mi (nth ord0 s j) (zip phis (st j)) = Some (st j.+1, ws j) &
    w = has ws (iota 0 (size s))].
Proof.
elim/last_ind: s Ys' w => [|s n IH] Ys' w; first by case=> <- <-; exists (fun=> Ys), (fun=> false).
rewrite /ipa_loop foldl_rcons -/(ipa_loop _ _ _ _ phis s Ys).
case e: (ipa_loop _ _ _ _ _ _ _) => [[Zs v]|] //.
have [st [ws [s0 s1 s2 s3]]] := IH _ _ e.
case e' : (ipa_step _ _ _ _ _ _) => [[Zs' w']|] // [<- <-].
exists (fun j => if (j <= size s)%N then st j else Zs'), (fun j => if (j < size s)%N then ws j else w').
rewrite size_rcons ltnn; split=> //.
  move=> j; rewrite ltnS => hj; rewrite hj nth_rcons; move: hj; rewrite leq_eqVlt => /orP[/eqP ->|hj].
    by rewrite ltnn eqxx s1.
  by rewrite hj; exact: s2.
rewrite -[(size s).+1]addn1 iotaD has_cat /= add0n ltnn orbF s3; congr orb.
by apply: eq_in_has => j; rewrite mem_iota add0n => /andP[_ ->].
Qed.
(** C74: a call warns if and only if the solver of one of its steps, one per source in their
    order and each on the result of the previous one, did not converge *)
Theorem C74_warning (phis : seq 'M[R]_(m.+2, T)) Ys Ys' w : update_by_ipa eig fl nrm mi phis Ys = Some (Ys', w) ->
  exists (st : nat -> seq 'M[Cx]_(m.+2, T)) (lqs : 'I_m.+2 -> seq (lqin m)) qs (ws : 'I_m.+2 -> bool),
  [/\ st 0%N = Ys, st m.+2 = Ys',
      forall n, ipa_step eig fl nrm mi n (zip phis (st n)) = Some (st n.+1, ws n),
      forall n, lqpqm2 eig fl (sing_floor fl) mi (lqs n) = Some (qs n, ws n) &
      w = [exists n, ws n]].
Proof.
move=> /loop_chain[st [ws [s0 s1 s2 s3]]]; rewrite size_enum_ord in s1 s2 s3.
have st2 (n : 'I_m.+2) : ipa_step eig fl nrm mi n (zip phis (st n)) = Some (st n.+1, ws n).
  by have := s2 n (ltn_ord n); rewrite nth_ord_enum.
have lq (n : 'I_m.+2) : exists p : seq (lqin m) * _, lqpqm2 eig fl (sing_floor fl) mi p.1 = Some (p.2, ws n).
  move: (st2 n); rewrite /ipa_step; case: ifP => // _; case: oseq => // rs.
  case e : lqpqm2 => [[q w']|] //; case: oseq => // _ [_ <-].
  by exists ([seq ip_lq r | r <- rs], q).
have [f hf] := fin_all_exists lq.
exists st, (fun n => (f n).1), (fun n => (f n).2), (fun n => ws n); split=> //.
rewrite s3; apply/hasP/existsP => [[j]|[n wn]]; last by exists (val n); rewrite // mem_iota add0n ltn_ord.
by rewrite mem_iota add0n => /andP[_ hj] wj; exists (Ordinal hj).
Qed.
End Warning.
