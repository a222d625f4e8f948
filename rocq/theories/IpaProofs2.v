(** From the lemmas of IpaProofs.v to the loop body of [update_by_ipa]. *)
From Coq Require Import Reals Lra.
From mathcomp Require Import all_ssreflect all_algebra.
From mathcomp.algebra_tactics Require Import ring.
From Verif Require Import RStruct MxC CxR NpLin RealLemmas Eigh EighProofs.
From Verif Require Import SpatialIPProofs SpatialISS SpatialISSProofs Cubic Lqpqm LqpqmProofs Lqpqm2 Lqpqm2Proofs.
From Verif Require Import Prop_Linalg Prop_PsdInv Ipa IpaProofs.
Import Order.TTheory GRing.Theory Num.Theory.
Set Implicit Arguments.
Unset Strict Implicit.
Unset Printing Implicit Defensive.
Local Open Scope ring_scope.

(** ** covariances *)
Section Cov.
Variables (m T : nat) (b : ipabin m T).
Hypothesis T0 : (0 < T)%N.
Lemma cov_E k : ipa_cov b k = b.2 *m rdiag (\row_t (b.1 k t / T%:R)%R) *m b.2^H.
Proof.
apply/matrixP => i j; rewrite [LHS]mxE [RHS]mxE /meanC mulr_sumr; apply: eq_bigr => t _.
rewrite mul_mx_diag [(\matrix_(_, _) _) i t]mxE [map_mx _ _ 0 t]mxE [(\row__ _) 0 t]mxE ctrE cM cV.
move: ((c T%:R)^-1) (c (b.1 k t)) (b.2 i t) ((b.2 j t)^*) => *; ring.
Qed.
Lemma cov_quad k (r : 'rV[Cx]_m.+2) : quad (ipa_cov b k) r = wpower1 (b.1 k) ((r *m b.2) 0).
Proof.
apply: c_inj; rewrite wpower1_cross /cross /meanC /quad cov_E.
have -> : r *m (b.2 *m rdiag (\row_t (b.1 k t / T%:R)%R) *m b.2^H) *m r^H =
  (r *m b.2) *m rdiag (\row_t (b.1 k t / T%:R)%R) *m (r *m b.2)^H by rewrite ctrM !mulmxA.
move: (r *m b.2) => y.
have e : (y *m rdiag (\row_t (b.1 k t / T%:R)%R) *m y^H) 0 0 = c (T%:R)^-1 * \sum_t c (b.1 k t) * (y 0 t * (y 0 t)^*).
  rewrite mxE mulr_sumr; apply: eq_bigr => t _.
  rewrite mul_mx_diag [(\matrix_(_, _) _) 0 t]mxE [map_mx _ _ 0 t]mxE [(\row__ _) 0 t]mxE ctrE cM cV.
  move: ((c T%:R)^-1) (c (b.1 k t)) (y 0 t) ((y 0 t)^*) => *; ring.
rewrite e -/(cross (b.1 k) (y 0) (y 0)) -[c _ * _]/(cross (b.1 k) (y 0) (y 0)) -wpower1_cross.
by rewrite rec.
Qed.
Lemma cov_cost (V : 'M[Cx]_m.+2) : aux_cost (ipa_cov b) V = iss_cost b.1 (V *m b.2) V.
Proof.
rewrite /aux_cost /iss_cost /wpower; toR; congr (_ - _)%coqR; apply: eq_bigr => k _.
rewrite cov_quad -row_mul; apply: eq_wpower1 => t; by rewrite mxE.
Qed.
Lemma cov_pd k : (forall t, (0 < b.1 k t)%coqR) -> row_free b.2 -> pd (ipa_cov b k).
Proof.
move=> p0 fY; rewrite cov_E -{1}[b.2]ctrK; apply: pd_congr.
  apply: pd_rdiag => t; rewrite mxE; apply/RltP; rewrite divr_gt0 ?ltr0n //; exact/RltP.
move=> x e; apply: ctr_inj; rewrite ctr0; apply/eqP.
have := congr1 (@ctr _ _ _) e; rewrite ctr0 ctrM ctrK => /eqP.
by rewrite mulmx_free_eq0.
Qed.
End Cov.

(** ** floors that do not act *)
(** no flooring, or a floor [eps <= 1] and covariances with eigenvalues between [eps]
    and [1/eps^2] *)
Definition inactive m (fl : R -> R) (G : 'I_m.+2 -> 'M[Cx]_m.+2) : Prop :=
  fl = identity_fl \/
  exists2 eps, (0 < eps <= 1)%coqR & fl = max_flooring eps /\
    forall k x, (eps * re (form 1%:M x x) <= re (form (G k) x x))%coqR /\
                (eps ^ 2 * re (form (G k) x x) <= re (form 1%:M x x))%coqR.

Section Inactive.
Variables (eig : eigh_t) (He : eigh_contract eig).
Variables (m : nat) (fl : R -> R) (G : 'I_m.+2 -> 'M[Cx]_m.+2).
Hypotheses (pG : forall k, pd (G k)) (hf : inactive fl G).
Lemma inactive_psd k : to_psd eig fl (G k) = G k.
Proof.
have [hG _] := pG k; case: hf => [->|[eps _ [-> h]]]; last first.
  by apply: C25_identity => // x; have [] := h k x.
rewrite /to_psd hpart_id //; have s := He hG; case er: (eig (G k)) s => [phi P] s.
have -> : map_mx identity_fl phi = phi by apply/rowP => j; rewrite mxE.
by rewrite -[recompose _ _](eigh_recompose s) hpart_id.
Qed.
Lemma inactive_inv k : psd_inv eig fl (G k) = Some (invmx (G k)).
Proof.
have [hG _] := pG k; case: hf => [->|[eps [e0 _] [-> h]]].
  by apply: C62_inverse => //; exact: pd_unit.
by have [|_] := @C62_default eig He _ eps (G k) e0 hG => // x; have [] := h k x.
Qed.
Lemma inactive_den n (x : 'cV[Cx]_m.+2) : x n 0 = 1 ->
  let s := R_sqrt.sqrt (re (form (invmx (G n)) x x)) in fl s = s.
Proof.
move=> xn s; case: hf => [->//|[eps [e0 e1] [-> h]]].
apply: Rmax_left; have [_ h2] := h n x.
have pI := pd_inv (pG n); have [_ posI] := pd_psd pI; have /ge0_cre[eI I0] := posI x.
have [_ pos] := pd_psd (pG n); have /ge0_cre[eG G0] := pos x.
have [_ pos1] := pd_psd (@pd1 Cx m.+2); have /ge0_cre[e1' n0] := pos1 x.
have cs : (re (form 1%:M x x) ^ 2 <= re (form (G n) x x) * re (form (invmx (G n)) x x))%coqR.
  have := cauchy_schwarz_inv x x (pG n); rewrite eG eI cabsE -cX -cM cle => /RleP.
  by rewrite -RpowE e1' cabs_c Rabs_pos_eq ?rec.
have n1 : (1 <= re (form 1%:M x x))%coqR.
  rewrite form1E rec (bigD1 n) //= xn cabs1 expr1n; toR.
  have : (0 <= \sum_(i < m.+2 | i != n) cabs (x i 0) ^+ 2)%coqR.
    by apply: sumR_ge0 => i _; rewrite -RpowE; apply: pow2_ge_0.
  by move: (\sum_(_ | _) _) => y; lra.
have e2 : (0 < eps ^ 2)%coqR by apply: pow_lt.
rewrite -[X in (X <= _)%coqR](sqrt_pow2 eps); last lra.
apply: sqrt_le_1_alt; move: n1 cs h2 G0 I0.
move: (re (form 1%:M x x)) (re (form (G n) x x)) (re (form (invmx (G n)) x x)) (eps ^ 2)%coqR e2 => u g i e e2 u1 cs h2 g0 i0.
(* u^2 <= g i and e g <= u give e u <= i *)
have : (e * (u * u) <= u * i)%coqR.
  apply: (Rle_trans _ (e * (g * i))); first by apply: Rmult_le_compat_l; [lra|move: cs; lra].
  by rewrite -Rmult_assoc; apply: Rmult_le_compat_r.
move=> h3; have : (e * u <= i)%coqR.
  apply: (Rmult_le_reg_l u); first lra.
  by move: h3; lra.
have : (e * 1 <= e * u)%coqR by apply: Rmult_le_compat_l; lra.
lra.
Qed.
End Inactive.

(** ** the step *)
Section Out.
Variables (eig : eigh_t) (He : eigh_contract eig).
Variables (m T : nat) (fl : R -> R) (nrm : bool) (n : 'I_m.+2) (G : 'I_m.+2 -> 'M[Cx]_m.+2).
Hypotheses (pG : forall k, pd (G k)) (hf : inactive fl G).
Let M := invmx (G n).
Let a := ipa_a G n.
Let b := ipa_b G n.
Let H0 := ipa_H0 a (ipa_C M n).
Let Cd : 'cV[Cx]_m.+1 := invmx (ipa_C M n) *m ipa_d M n.
Let v := ipa_v a b Cd.
Let z0 := ipa_z M n (ipa_d M n) Cd.
Definition ipa_s : R := if nrm then re (\tr H0) else 1%coqR.
Lemma ipa_s_gt0 : (0 < ipa_s)%coqR.
Proof. by rewrite /ipa_s; case: nrm; [exact: tr_gt0|exact: Rlt_0_1]. Qed.

Lemma ipa_preE : ipa_pre eig fl nrm G n = Some (IpaPrep a b ((c ipa_s)^-1 *: H0, v, (z0 / ipa_s)%coqR)).
Proof.
rewrite /ipa_pre (inactive_inv He pG hf) /solve (pd_unit (pC n pG)).
have -> : [forall i, Rltb 0 (ipa_a G n i)] by apply/forallP => i; apply/RltbP; exact: a_gt0.
have := ipa_s_gt0; rewrite /ipa_s; case: nrm => t0 /=.
  rewrite -/M -/a -/H0; case: eqP => [e|_]; first by move: t0; rewrite e; toR; lra.
  by rewrite -RdivE //; lra.
by rewrite cR1 invr1 scale1r /Rdiv Rinv_1 Rmult_1_r.
Qed.
Lemma lq_obj_scale qc :
  lq_obj ((c ipa_s)^-1 *: H0) v (z0 / ipa_s)%coqR qc = (lq_obj H0 v z0 qc + ln ipa_s)%coqR.
Proof.
have s0 := ipa_s_gt0; rewrite /lq_obj.
have -> : lq_arg ((c ipa_s)^-1 *: H0) v (z0 / ipa_s)%coqR qc = (lq_arg H0 v z0 qc / ipa_s)%coqR.
  rewrite /lq_arg /form -scalemxAr -scalemxAl [(_ *: _ : 'M__) _ _]mxE -cRV; last lra.
  rewrite reMc; toR; move: (re _) => f; Rfield; lra.
rewrite /Rdiv ln_mult ?ln_Rinv //; [lra|exact: arg_gt0|exact: Rinv_0_lt_compat].
Qed.
Lemma ipa_outE r qc Y : ip_a r = a -> ip_b r = b ->
  ipa_out (T := T) fl G n r qc Y = Some (ipa_V n G qc *m Y).
Proof.
move=> ra rb; rewrite /ipa_out ra rb; set Eq := ipa_Eq _ n; set qt : 'cV[Cx]_m.+2 := delta_mx n 0 - Eq.
rewrite /solve (pd_unit (pG n)).
have qE : re (\sum_j (qt j 0)^* * (invmx (G n) *m qt) j 0) = lq_arg H0 v z0 qc.
  rewrite -(ipa_arg n pG) /ipq ipa_tilde -/Eq -/qt /form -mulmxA [in RHS]mxE.
  by congr re; apply: eq_bigr => j _; rewrite ctrE.
have p0 := arg_gt0 n pG qc; have s0 := sqrt_lt_R0 _ p0.
rewrite qE Rmax_left; last exact: Rlt_le.
have -> : fl (R_sqrt.sqrt (lq_arg H0 v z0 qc)) = R_sqrt.sqrt (lq_arg H0 v z0 qc).
  have := @inactive_den _ _ _ pG hf n qt; rewrite -(ipa_arg n pG) /ipq ipa_tilde -/Eq -/qt; apply.
  by rewrite [qt n 0]mxE [(- Eq) n 0]mxE Eq_n oppr0 addr0 mxE !eqxx.
rewrite /divs; case: eqP => [e|_]; first by move: s0; rewrite e; toR; lra.
congr Some; apply/matrixP => k t; rewrite [LHS]mxE.
have cr (x : R) (w : 'cV[Cx]_m.+2) : (c x)^-1 *: w^H = ((c x)^-1 *: w)^H by rewrite ctrZ -cV c_conj.
rewrite /ipa_V setrowM [RHS]mxE cr; case: (eqVneq k n) => [->|kn].
  rewrite -/Eq Eq_n mul0r addr0 [delta_mx n 0 n 0]mxE !eqxx mul1r addrC subrK.
  by rewrite [RHS]mxE; apply: eq_bigr => j _; rewrite ctrE.
rewrite [delta_mx n 0 k 0]mxE (negbTE kn) mul0r addr0 /ipa_W -steerE [RHS]mxE mulNr opprK.
by rewrite -/Eq.
Qed.
End Out.

(** ** sequences *)
Lemma step_nth eig m T fl nrm mi n (bins : seq (ipabin m T)) Ys w :
  ipa_step eig fl nrm mi n bins = Some (Ys, w) ->
  [/\ (0 < T)%N, size Ys = size bins & exists rs qs,
   [/\ size rs = size bins, size qs = size bins,
      lqpqm2 eig fl (sing_floor fl) mi [seq ip_lq r | r <- rs] = Some (qs, w) &
      forall i b0 r0 q0 y0, (i < size bins)%N ->
        let b := nth b0 bins i in
        ipa_pre eig fl nrm (ipa_U eig fl b) n = Some (nth r0 rs i) /\
        ipa_out fl (ipa_U eig fl b) n (nth r0 rs i) (nth q0 qs i) b.2 = Some (nth y0 Ys i)]].
Proof.
rewrite /ipa_step; case: eqP => // /eqP; rewrite -lt0n => T0.
case er: oseq => [rs|] //; case eq: lqpqm2 => [[qs w']|] //; case ey: oseq => [Ys'|] // [<- <-].
move/oseqE in er; move/oseqE in ey.
have sr : size rs = size bins by have := congr1 size er; rewrite !size_map.
have [sq _] := lqpqm2_nth eq; rewrite size_map sr in sq.
have sz : size (zip rs qs) = size bins by rewrite size_zip sr sq minnn.
have sY : size Ys' = size bins.
  by have := congr1 size ey; rewrite !size_map size_zip sz minnn.
split=> //; exists rs, qs; split=> // i b0 r0 q0 y0 hi; cbv zeta; split.
  have := congr1 (fun s => nth None s i) er.
  by rewrite (nth_map b0) // (nth_map r0) // sr.
have := congr1 (fun s => nth None s i) ey.
rewrite (nth_map (b0, (r0, q0))); last by rewrite size_zip sz minnn.
rewrite (nth_map y0) ?sY // nth_zip ?sz // nth_zip ?sr //=.
Qed.
