(** Property C74: [update_by_ipa], /repo/ssspy/bss/_update_spatial_model.py:398-513.

    For a bin with weights phi and signals Y, the auxiliary function of a filter change V is
      sum_k mean_t phi_kt |(V Y)_kt|^2 - 2 log |det V|.
    IPA with index n minimises it over the changes V which differ from the identity in row
    n and column n only. *)
From Coq Require Import Reals Lra Classical FunctionalExtensionality.
From mathcomp Require Import all_ssreflect all_algebra.
From mathcomp.algebra_tactics Require Import ring.
From Verif Require Import RStruct MxC CxR NpLin RealLemmas Eigh EighProofs.
From Verif Require Import SpatialIPProofs SpatialISS SpatialISSProofs Cubic Lqpqm LqpqmProofs Lqpqm2 Lqpqm2Proofs.
From Verif Require Import Prop_Lqpqm Prop_Lqpqm2 Prop_Linalg Ipa IpaProofs IpaProofs2.
Import Order.TTheory GRing.Theory Num.Theory.
Set Implicit Arguments.
Unset Strict Implicit.
Unset Printing Implicit Defensive.
Local Open Scope ring_scope.

Lemma c_nat k : c k%:R = k%:R.
Proof. by elim: k => [|k IH]; rewrite ?c0 // !mulrSr cD c1 IH. Qed.

Section Spec.
Variables (m T : nat).
Notation N := m.+2.
Implicit Types (phi : 'M[R]_(N, T)) (Y : 'M[Cx]_(N, T)) (V : 'M[Cx]_N).

Definition surrogate phi Y V : R :=
  ((\sum_k (T%:R)^-1 * \sum_t phi k t * cabs ((V *m Y) k t) ^+ 2)%R - 2 * ln (cabs (\det V)))%coqR.
Definition changes (n : 'I_N) V : Prop :=
  V \in unitmx /\ forall i j, i != n -> j != n -> V i j = (i == j)%:R.
Definition optimal_change n phi Y V : Prop :=
  changes n V /\ forall V', changes n V' -> (surrogate phi Y V <= surrogate phi Y V')%coqR.

(** admissible data: positive weights and signals of full row rank *)
Definition admissible phi Y : Prop := (forall k t, (0 < phi k t)%coqR) /\ row_free Y.
(** weighted covariance of the signals *)
Definition wcov phi Y (k : 'I_N) : 'M[Cx]_N :=
  \matrix_(i, j) ((T%:R)^-1 * \sum_t c (phi k t) * (Y i t * (Y j t)^*)).
(** flooring is switched off or does not act: a floor eps <= 1, and eps <= eigenvalues of
    the weighted covariances <= 1/eps^2 *)
Definition unfloored (fl : R -> R) phi Y : Prop :=
  fl = identity_fl \/
  exists2 eps, (0 < eps <= 1)%coqR & fl = max_flooring eps /\
    forall k (x : 'cV[Cx]_N),
      (eps * re ((x^H *m x) 0%R 0%R) <= re ((x^H *m wcov phi Y k *m x) 0%R 0%R))%coqR /\
      (eps ^ 2 * re ((x^H *m wcov phi Y k *m x) 0%R 0%R) <= re ((x^H *m x) 0%R 0%R))%coqR.

Lemma surrogateE phi Y V : surrogate phi Y V = iss_cost phi (V *m Y) V.
Proof. by []. Qed.
Lemma wcovE phi Y k : wcov phi Y k = ipa_cov (phi, Y) k.
Proof. by apply/matrixP => i j; rewrite !mxE /meanC cV c_nat. Qed.
Lemma unflooredE fl phi Y : unfloored fl phi Y -> inactive fl (ipa_cov (phi, Y)).
Proof.
case=> [->|[eps he [-> h]]]; [by left|right; exists eps => //; split=> // k x].
by have := h k x; rewrite wcovE /form mulmx1.
Qed.
End Spec.

(** the linear term of the problem handed to [lqpqm2] *)
Definition lin_term m T (phi : 'M[R]_(m.+2, T)) (Y : 'M[Cx]_(m.+2, T)) (n : 'I_m.+2) : 'cV[Cx]_m.+1 :=
  let G := ipa_cov (phi, Y) in
  ipa_v (ipa_a G n) (ipa_b G n) (invmx (ipa_C (invmx (G n)) n) *m ipa_d (invmx (G n)) n).

(** the matrix of that problem, before the division by its trace *)
Definition quad_term m T (phi : 'M[R]_(m.+2, T)) (Y : 'M[Cx]_(m.+2, T)) (n : 'I_m.+2) : 'M[Cx]_m.+1 :=
  let G := ipa_cov (phi, Y) in ipa_H0 (ipa_a G n) (ipa_C (invmx (G n)) n).

(** the triples handed to [lqpqm2] in one step *)
Definition lq_call eig fl mi m (lqs : seq (lqin m)) qs w i H v z q : Prop :=
  [/\ lqpqm2 eig fl (sing_floor fl) mi lqs = Some (qs, w), (i < size lqs)%N,
      nth (0, 0, 0%R) lqs i = (H, v, z) & nth 0 qs i = q].

Section Step.
Variables (eig : eigh_t) (He : eigh_contract eig) (m T : nat) (fl : R -> R) (nrm : bool) (mi : nat) (n : 'I_m.+2).
Variables (bins : seq ('M[R]_(m.+2, T) * 'M[Cx]_(m.+2, T))) (Ys : seq 'M[Cx]_(m.+2, T)) (w : bool) (i : nat).
Variables (phi : 'M[R]_(m.+2, T)) (Y : 'M[Cx]_(m.+2, T)).
Hypothesis es : ipa_step eig fl nrm mi n bins = Some (Ys, w).
Hypotheses (hi : (i < size bins)%N) (eb : nth (0, 0) bins i = (phi, Y)).
Hypotheses (ad : admissible phi Y) (uf : unfloored fl phi Y).

(** the exact relation: [K] plus the objective of [lqpqm2] *)
Lemma step_core : exists (lqs : seq (lqin m)) qs H v z q V K,
  [/\ lq_call eig fl mi lqs qs w i H v z q,
      [/\ pd H, (0 < z)%coqR, v = lin_term phi Y n, nrm -> \tr H = 1 &
          exists2 s, (0 < s)%coqR & H = (c s)^-1 *: quad_term phi Y n],
      [/\ changes n V, nth 0 Ys i = V *m Y & surrogate phi Y V = (K + objective H v z q)%coqR],
      (forall q', (0 < penalty H v z q')%coqR /\ exists2 V', changes n V' & surrogate phi Y V' = (K + objective H v z q')%coqR) &
      forall V', changes n V' -> exists q', (K + objective H v z q' <= surrogate phi Y V')%coqR].
Proof.
have [T0 sY [rs [qs [sr sq el h]]]] := step_nth es.
have [p0 fY] := ad; have pG k : pd (ipa_cov (phi, Y) k) by apply: cov_pd.
have hf := unflooredE uf; set G := ipa_cov (phi, Y) in pG hf.
have r0 : ipa_prep m by exact: (IpaPrep (fun=> 0) (fun=> 0) (0, 0, 0)).
have [hp ho] := h i (0, 0) r0 0 0 hi; rewrite {}eb /= in hp ho.
have UE : ipa_U eig fl (phi, Y) = G.
  by apply: functional_extensionality => k; exact: (inactive_psd He pG hf).
move: hp ho; rewrite UE (ipa_preE (eig := eig) He nrm n pG hf) => -[er].
rewrite (ipa_outE pG hf) -?er // => -[eY].
set H0 := ipa_H0 _ _ in er; set v := ipa_v _ _ _ in er; set z0 := ipa_z _ _ _ _ in er.
set s := ipa_s _ _ _ in er; have s0 : (0 < s)%coqR := ipa_s_gt0 nrm n pG.
pose K := (ipa_K n G + 1 - ln s)%coqR.
pose H := (c s)^-1 *: H0; pose z := (z0 / s)%coqR.
have obj q : (ipa_K n G + 1 + lq_obj H0 v z0 q = K + objective H v z q)%coqR.
  rewrite objectiveE /H /z (lq_obj_scale nrm n pG) /K -/s -/H0 -/v -/z0.
  by move: (lq_obj H0 v z0 q) => x; lra.
have sur V : surrogate phi Y V = aux_cost G V by rewrite surrogateE cov_cost.
exists [seq ip_lq r | r <- rs], qs, H, v, z, (nth 0 qs i), (ipa_V n G (nth 0 qs i)), K; split.
- by split=> //; rewrite ?size_map ?sr // (nth_map r0) ?sr // -er.
- have h0 : 0 < (c s)^-1 by rewrite invr_gt0; exact: c_gt0.
  split; first by apply: pdZ => //; exact: pH0.
  - by apply: Rdiv_lt_0_compat => //; exact: z0_gt0.
  - by [].
  - move=> nt; rewrite /H mxtraceZ /s /ipa_s nt -/H0.
    have -> : \tr H0 = c (re (\tr H0)).
      apply: real_cre; rewrite /mxtrace; apply: rpred_sum => j _; apply/CrealP.
      by have [] := pH0 n pG; rewrite -/H0 => hH _; rewrite -[in LHS]hH ctrE conjCK.
    by rewrite rec mulVf // c_eq0; apply/eqP; have := tr_gt0 n pG; rewrite -/H0; toR; lra.
  - by exists s.
- split; first by split; [exact: ipa_V_unit|exact: ipa_V_family].
    by [].
  by rewrite sur ipa_cost // obj.
- move=> q'; split.
    have := arg_gt0 n pG q'; rewrite -/H0 -/v -/z0 => a0.
    have -> : penalty H v z q' = (lq_arg H0 v z0 q' / s)%coqR.
      rewrite penaltyE /H /z /lq_arg /form -scalemxAr -scalemxAl [(_ *: _ : 'M__) _ _]mxE -cRV; last lra.
      rewrite reMc; toR; move: (re _) => f; Rfield; lra.
    exact: Rdiv_lt_0_compat.
  exists (ipa_V n G q'); first by split; [exact: ipa_V_unit|exact: ipa_V_family].
  by rewrite sur ipa_cost // obj.
- move=> V' [uV fV]; exists (ipa_qc n G V'); rewrite sur -obj; exact: ipa_cost_ge.
Qed.

(** C74: the step is exactly the log-quadratically penalised minimisation handed to
    [lqpqm2]: it changes row and column n only, and it is the optimal change if and only if
    [lqpqm2] returned a minimiser. *)
Theorem C74_reduction : exists (lqs : seq (lqin m)) qs H v z q V,
  [/\ lq_call eig fl mi lqs qs w i H v z q, [/\ pd H, (0 < z)%coqR & nrm -> \tr H = 1],
      changes n V /\ nth 0 Ys i = V *m Y &
      optimal_change n phi Y V <-> minimises H v z q].
Proof.
have [lqs [qs [H [v [z [q [V [K [h1 [h2 h2' _ h2'' _] [h3 h4 h5] h6 h7]]]]]]]]] := step_core.
exists lqs, qs, H, v, z, q, V; split=> //; split=> [[_ ho]|[_ hm]].
  split; first by have [] := h6 q.
  move=> q' _; have [_ [V' cV' eV']] := h6 q'; have := ho _ cV'; rewrite h5 eV'.
  move: (objective H v z q) (objective H v z q') => x y; lra.
split=> // V' cV'; have [q' le] := h7 _ cV'; have [q0 _] := h6 q'.
by rewrite h5; apply: Rle_trans le; have := hm _ q0; lra.
Qed.
(** in particular the auxiliary function does not increase when [lqpqm2] succeeds *)
Lemma changes1 : changes n (1%:M : 'M[Cx]_m.+2).
Proof. by split; [exact: unitmx1|move=> j k _ _; rewrite mxE]. Qed.
End Step.

(** ** two sources *)
Section Two.
Variable T : nat.
Implicit Types (phi : 'M[R]_(2, T)) (Y : 'M[Cx]_(2, T)) (n : 'I_2).
Definition other n : 'I_2 := lift n 0.
(** with the weights of source k, regress the conjugate of the other signal on y_n; the gap
    compares the coefficients obtained with the weights of the two sources *)
Definition gap phi Y n : R :=
  let G := wcov phi Y in let k := other n in
  (re (G k n n) * cabs (G k n k / G k n n - G n n k / G n n n)%R ^ 2)%coqR.

Lemma sum_other2 (U : zmodType) (F : 'I_2 -> U) n : \sum_j F j = F n + F (other n).
Proof. by rewrite (bigD1_ord n) //= big_ord1. Qed.
Lemma lin_gap phi Y n : (0 < T)%N -> admissible phi Y ->
  (cabs (lin_term phi Y n 0%R 0%R) ^ 2 = gap phi Y n)%coqR.
Proof.
move=> T0 [p0 fY]; rewrite /gap; have -> : wcov phi Y = ipa_cov (phi, Y).
  by apply: functional_extensionality => k; exact: wcovE.
set G := ipa_cov (phi, Y); have pG k : pd (G k) by apply: cov_pd.
set k := other n; rewrite /lin_term -/G; set M := invmx (G n).
have a0 := a_gt0 n pG 0; have s0 := sa_gt0 n pG 0; have sn := sa_neq0 n pG 0.
have gE : G k n n = c (ipa_a G n 0) := G_n n pG 0.
have [hM pM'] := pd_inv (pG n); rewrite -/M in hM pM'.
have e1 : M k n * G n n n + M k k * G n k n = 0.
  have /matrixP/(_ k n) := mulVmx (pd_unit (pG n)).
  by rewrite [LHS]mxE (sum_other2 _ n) -/M -/k [RHS]mxE [k == n]eq_sym (negbTE (neq_lift n 0)).
have nz (A : 'M[Cx]_2) (j : 'I_2) : pd A -> A j j != 0.
  move=> [_ h]; have : (delta_mx j 0 : 'cV[Cx]_2) != 0.
    by apply/eqP => /(congr1 (fun x : 'cV_2 => x j 0)) /eqP; rewrite !mxE !eqxx oner_eq0.
  move/h; have -> : form A (delta_mx j 0) (delta_mx j 0) = A j j.
    by rewrite /form ctr_delta -rowE -colE !mxE.
  by move/lt0r_neq0.
have Mkk := nz _ k (pd_inv (pG n)); rewrite -/M in Mkk; have Gnn := nz _ n (pG n).
have Cu : ipa_C M n \in unitmx by exact: pd_unit (pC n pG).
have CdE : (invmx (ipa_C M n) *m ipa_d M n) 0 0 = - (G n n k / G n n n).
  have : ipa_C M n *m (invmx (ipa_C M n) *m ipa_d M n) = ipa_d M n by rewrite mulKVmx.
  move/(congr1 (fun x : 'cV_1 => x 0 0)); rewrite [LHS]mxE big_ord1.
  move: ((invmx _ *m _) 0 0) => x; rewrite [ipa_C M n _ _]mxE [ipa_d M n _ _]mxE -/k => ex.
  have ckk : (M k k)^* = M k k by rewrite -[in RHS]hM ctrE.
  have [hG _] := pG n; have cnn : (G n n n)^* = G n n n by rewrite -[in RHS]hG ctrE.
  have cnk : (G n k n)^* = G n n k by rewrite -[in RHS]hG ctrE.
  have := congr1 (fun u : Cx => u^*) e1; rewrite rmorphD !rmorphM /= -!/(_^*) -ex ckk cnn cnk conjC0.
  move=> e2; apply: (mulfI Mkk); apply: (mulIf Gnn); move: e2; rewrite -mulrA => /eqP; rewrite addr_eq0 => /eqP ->.
  by move: Gnn; move: (G n n n) (G n n k) (M k k) => u1 u2 u3 u0; field.
have -> : ipa_v (ipa_a G n) (ipa_b G n) (invmx (ipa_C M n) *m ipa_d M n) 0 0 =
  c (- R_sqrt.sqrt (ipa_a G n 0%R))%coqR * (G k n k / G k n n - G n n k / G n n n).
  rewrite [LHS]mxE CdE gE (a_sqrt n pG 0) cRN /ipa_b -/k.
  by move: sn Gnn; move: (c (R_sqrt.sqrt _)) (G n n n) (G n n k) (G k n k) => s g1 g2 g3 h1 h2; field; rewrite h1 h2.
rewrite cabsM cabs_c Rabs_Ropp Rabs_pos_eq; last by apply: Rlt_le.
by rewrite -RmulE Rpow_mult_distr pow2_sqrt ?gE ?rec //; apply: Rlt_le.
Qed.

Lemma tr1 (H : 'M[Cx]_1) : \tr H = 1 -> H = 1%:M.
Proof. by rewrite /mxtrace big_ord1 => e; rewrite [H]mx11E e. Qed.

(** the gap is resolved: without flooring it is not 0; with floor eps it is 0 or at least eps *)
Definition resolved (fl : R -> R) (g : R) : Prop :=
  (fl = identity_fl -> g <> 0%coqR) /\ (forall eps, fl = max_flooring eps -> g = 0%coqR \/ (eps <= g)%coqR).

(** C74: for two sources and the default trace normalisation every step is the optimal
    change, for every iteration limit, whatever the other bins *)
Theorem C74_two_sources eig fl mi n bins Ys w i phi Y : eigh_contract eig ->
  ipa_step (m := 0) (T := T) eig fl true mi n bins = Some (Ys, w) -> (i < size bins)%N ->
  nth (0, 0) bins i = (phi, Y) -> admissible phi Y -> unfloored fl phi Y -> resolved fl (gap phi Y n) ->
  exists2 V, nth 0 Ys i = V *m Y & optimal_change n phi Y V.
Proof.
move=> He es hi eb ad uf [rs1 rs2].
have [T0 _ _] := step_nth es.
have [lqs [qs [H [v [z [q [V [K [h1 [h2 h2' hv h2'' _] [h3 h4 h5] h6 h7]]]]]]]]] := step_core He es hi eb ad uf.
suff mn : minimises H v z q.
  exists V => //; split=> // V' cV'; have [q' le] := h7 _ cV'; have [q0 _] := h6 q'.
  by rewrite h5; apply: Rle_trans le; have [_ /(_ _ q0)] := mn; lra.
have H1 : H = 1%:M by apply: tr1; exact: h2''.
have vg : (cabs (v 0%R 0%R) ^ 2 = gap phi Y n)%coqR by rewrite hv lin_gap.
have [e1 e2 e3 <-] := h1.
have vn : vnorm v = cabs (v 0 0).
  by rewrite /vnorm big_ord1 -RpowE sqrt_pow2 //; exact: cabs_ge0.
have reg : v != 0 -> sing_floor fl (vnorm v) = false -> fl 1%coqR = 1%coqR -> (fl 0%coqR <= cabs (v 0%R 0%R) ^ 2)%coqR ->
  minimises H v z (nth 0 qs i).
  move=> v0 sg f1 f0; have := @C63_one eig fl _ mi lqs qs w i He e1 e2; rewrite e3 => -[] //; exact: Rlt_le.
have v0E : v = 0 <-> cabs (v 0 0) = 0.
  split=> [->|/eqP]; first by rewrite mxE cabs0.
  by rewrite cabs_eq0 => /eqP h; apply/matrixP => a b; rewrite (ord1 a) (ord1 b) h mxE.
case: uf => [fe|[eps [ep0 ep1] [fe _]]].
  have g0 := rs1 fe; apply: reg; rewrite ?fe //.
  - by apply/eqP => /v0E h; apply: g0; rewrite -vg h; toR; lra.
  - by apply/RltbP; rewrite vn /identity_fl; have := cabs_ge0 (v 0 0); toR; lra.
  - exact: pow2_ge_0.
have s0 : max_flooring eps 0%coqR = eps by apply: Rmax_right; lra.
case: (rs2 _ fe) => g.
  have vz : v = 0.
    apply/v0E; apply: Rsqr_eq_0; by rewrite Rsqr_pow2 vg.
  have := @C63_one_singular eig fl _ mi lqs qs w i He e1 e2; rewrite e3 => h.
  apply: (h _ vz 1%coqR); rewrite ?H1 ?cR1 //; first by apply/RltbP; rewrite fe s0; lra.
    exact: Rlt_0_1.
  exact: Rlt_le.
have c0 := cabs_ge0 (v 0 0).
have ev : (eps <= cabs (v 0%R 0%R))%coqR.
  case: (Rle_or_lt eps (cabs (v 0%R 0%R))) => // lt.
  have : (cabs (v 0%R 0%R) ^ 2 < eps ^ 2)%coqR by have := Rmult_le_0_lt_compat _ _ _ _ c0 c0 lt lt; lra.
  rewrite vg; have : (eps ^ 2 <= eps)%coqR by have := Rmult_le_compat_l eps eps 1 (Rlt_le _ _ ep0) ep1; lra.
  lra.
apply: reg; rewrite ?fe.
- by apply/eqP => /v0E h; move: ev; rewrite h; toR; lra.
- by apply/RltbP; rewrite vn s0; lra.
- by apply: Rmax_left.
- by rewrite s0 vg.
Qed.
End Two.
