(** C56 (definedness) and C67: with [max_flooring] the updates of CACGMM are always defined, and
    they do not increase the negative log-likelihood. *)
From Coq Require Import Reals Lra.
From mathcomp Require Import all_ssreflect all_algebra all_fingroup.
From Verif Require Import RStruct MxC CxR NpLin RealLemmas Eigh EighProofs NmfReal NmfMM Prop_Linalg ProxProofs TraceMM.
From Verif Require Import SvdExist Special SpecialProofs Cacgmm CacgmmProofs Prop_Cacgmm.
Import Order.TTheory GRing.Theory Num.Theory.
Set Implicit Arguments.
Unset Strict Implicit.
Unset Printing Implicit Defensive.
Local Open Scope ring_scope.

(** ** One source in one bin *)
Section Source.
Variables (M T : nat).
Implicit Types (B : 'M[Cx]_M) (Z : 'M[Cx]_(M, T)) (g q : 'I_T -> R).
Definition qf B Z t : R := re (form (invmx B) (col t Z) (col t Z)).
Definition scat Z g q : 'M[Cx]_M :=
  \matrix_(a, b) (M%:R * ((\sum_t c (g t / q t)%coqR * (Z a t * (Z b t)^*)) / c (\sum_t g t))).
Lemma c_natM m : c (m%:R) = m%:R.
Proof. by elim: m => [|m IH]; [exact: c0|rewrite -addn1 !natrD cD IH c1]. Qed.
Lemma scatE Z g q : scat Z g q = c ((M%:R : R) / \sum_t g t) *: \sum_t c (g t / q t)%coqR *: (col t Z *m (col t Z)^H).
Proof.
apply/matrixP => a b; rewrite !mxE summxE cM cV c_natM -mulrA; congr (_ * _); rewrite mulrC; congr (_ * _).
by apply: eq_bigr => t _; rewrite !mxE big_ord1 /ctr !mxE.
Qed.
Lemma scat_herm Z g q : (scat Z g q)^H = scat Z g q.
Proof.
rewrite scatE ctrZ c_conj ctr_sum; congr (_ *: _); apply: eq_bigr => t _.
by rewrite ctrZ c_conj ctrM ctrK.
Qed.
Lemma rtr_scat (A : 'M[Cx]_M) Z g q : \sum_t g t != 0 ->
  \sum_t g t * rtr (A *m scat Z g q) = (M%:R * \sum_t (g t / q t * re (form A (col t Z) (col t Z)))%coqR)%R.
Proof.
move=> G0; rewrite scatE -scalemxAr rtrZ mulmx_sumr rtr_sum -mulr_suml mulrA mulrCA mulfV // mulr1; congr (_ * _).
apply: eq_bigr => t _; rewrite -scalemxAr rtrZ; congr (_ * _).
by rewrite mulmxA rtrC mulmxA /rtr trace_mx11.
Qed.
Lemma qf_gt0 B Z t : pd B -> re (form 1%:M (col t Z) (col t Z)) = 1 -> (0 < qf B Z t)%coqR.
Proof.
move=> pB z1; have z0 : col t Z != 0.
  by apply/eqP => z; move: z1; rewrite z form0l re0 => /eqP; rewrite eq_sym oner_eq0.
by have /gt0_cre[] := proj2 (pd_inv pB) _ z0.
Qed.
(** the new covariance improves the weighted log-likelihood of the source *)
Lemma source_bound eig eps B Z g : eigh_contract eig -> (0 < eps)%coqR -> pd B ->
  (forall x, (eps * re (form 1%:M x x) <= re (form B x x))%coqR) -> (0 < T)%N -> (forall t, (0 < g t)%coqR) ->
  (forall t, re (form 1%:M (col t Z) (col t Z)) = 1) ->
  let B' := to_psd eig (max_flooring eps) (scat Z g (qf B Z)) in
  pd B' /\ ((\sum_t g t)%R * (ln (cabs (\det B')) - ln (cabs (\det B))) +
    (M%:R : R) * (\sum_t (g t * (ln (qf B' Z t) - ln (qf B Z t)))%coqR)%R <= 0)%coqR.
Proof.
move=> He e0 pB lo T0 g0 z1 B'.
have G0 : (0 < (\sum_t g t)%R)%coqR.
  by apply: (@sumR_gt0 _ _ (Ordinal T0)) => [t|]; [apply: Rlt_le|].
have G1 : \sum_t g t != 0 by apply/eqP => e; move: G0; rewrite e => /Rlt_irrefl.
have [pB' opt] := floored_opt He e0 (scat_herm Z g (qf B Z)) pB lo; split=> //.
have e1 := rtr_scat (invmx B') Z (qf B Z) G1; have e2 := rtr_scat (invmx B) Z (qf B Z) G1.
have q0 t := qf_gt0 pB (z1 t); have q0' t := qf_gt0 pB' (z1 t).
have {}e2 : (\sum_t g t)%R * rtr (invmx B *m scat Z g (qf B Z)) = (M%:R * (\sum_t g t))%R.
  rewrite mulr_suml e2; congr (_ * _); apply: eq_bigr => t _; rewrite -/(qf B Z t).
  by have := q0 t; move: (qf B Z t) => x x0; Rf; lra.
have {}e1 : (\sum_t g t)%R * rtr (invmx B' *m scat Z g (qf B Z)) = (M%:R * (\sum_t (g t * (qf B' Z t / qf B Z t))%coqR))%R.
  rewrite mulr_suml e1; congr (_ * _); apply: eq_bigr => t _; rewrite -/(qf B' Z t).
  by have := q0 t; move: (qf B Z t) => x x0; Rf; lra.
have l : ((\sum_t (g t * (ln (qf B' Z t) - ln (qf B Z t)))%coqR)%R <= (\sum_t (g t * (qf B' Z t / qf B Z t))%coqR)%R - (\sum_t g t)%R)%coqR.
  rewrite sumR_sub; apply: sumR_le => t _; have := ln_tangent _ _ (q0 t) (q0' t).
  have -> : ((qf B' Z t - qf B Z t) / qf B Z t = qf B' Z t / qf B Z t - 1)%coqR by Rfield; have := q0 t; lra.
  by have := g0 t; move: (_ / _)%coqR (ln _) (ln _) => x y w h1 h2; nra.
have m0 : (0 <= (M%:R : R))%coqR by apply/RleP; exact: ler0n.
have := Rmult_le_compat_l _ _ _ m0 l; have := Rmult_le_compat_l _ _ _ (Rlt_le _ _ G0) opt.
move: e1 e2; rewrite -/B' -!RmulE; move: (rtr _) (rtr _) (\sum_t _) (\sum_t _) (\sum_t _) (ln _) (ln _) => r1 r2 s1 s2 s3 l1 l2 h1 h2 h3 h4.
nra.
Qed.
End Source.

Section C67.
Variables (N M F T : nat) (eps : R) (eig : eigh_t).
Hypotheses (e0 : (0 < eps)%coqR) (He : eigh_contract eig) (N0 : (0 < N)%N) (M0 : (0 < M)%N) (T0 : (0 < T)%N).
Notation spec := ('I_F -> 'M[Cx]_(M, T)).
Notation post := ('I_F -> 'I_N -> 'I_T -> R).
Notation params := (params N M F).
Notation fl := (max_flooring eps).
Implicit Types (Z : spec) (p : params) (g : post).
(** positive weights and positive definite covariances *)
Definition valid p : Prop := forall i n, (0 < mixing p i n)%coqR /\ pd (covariance p i n).
Lemma fl_gt0 x : (0 < fl x)%coqR.
Proof. by rewrite /max_flooring; have := Rmax_r x eps; lra. Qed.
Lemma to_psd_pd n (S : 'M[Cx]_n) : pd (to_psd eig fl S).
Proof.
have [l [P [uP _ ->]]] := C25_spectrum fl S He; apply: recompose_pd; first exact: unitary_unit.
by move=> i; rewrite mxE; exact: fl_gt0.
Qed.
Lemma once_parts b Z p : valid p -> exists g p1 p2,
  [/\ update_posterior fl Z p = Some g,
      p1 = {| mixing := fun i n => ((T%:R)^-1 * \sum_t g i n t)%R; covariance := fun i n => to_psd eig fl (scatter fl Z p g i n) |},
      valid p1, p2 = (if b then {| mixing := mixing p1; covariance := fun i n => (c (rtr (covariance p1 i n)))^-1 *: covariance p1 i n |} else p1) &
      update_once fl eig b Z p = Some (p2, g) /\ valid p2].
Proof.
move=> vp; have uB i n : covariance p i n \in unitmx by apply: pd_unit; have [] := vp i n.
have [||g E] := @C56_posterior_defined N M F T fl Z p N0.
- by move=> i n; have [] := vp i n.
- by move=> i n t; exact: fl_gt0.
have P := C56_posterior E.
have g0 i n t : (0 < g i n t)%coqR by have [_ /(_ n)[]] := P i t.
have G0 i n : (0 < (\sum_t g i n t)%R)%coqR by apply: (@sumR_gt0 _ _ (Ordinal T0)) => [t|]; [apply: Rlt_le|]; apply: g0.
pose p1 := {| mixing := fun i n => ((T%:R)^-1 * \sum_t g i n t)%R; covariance := fun i n => to_psd eig fl (scatter fl Z p g i n) |}.
have v1 : valid p1.
  move=> i n; split; last exact: to_psd_pd.
  by rewrite /= -[_ * _]/(_ * _)%coqR; apply: Rmult_lt_0_compat => //; apply/RltP; rewrite invr_gt0 ltr0n.
have tr0 i n : (0 < rtr (covariance p1 i n))%coqR by apply: rtr_pd => //; have [] := v1 i n.
have E1 : update_parameters fl eig Z p g = Some p1.
  rewrite /update_parameters -lt0n T0 /=.
  have -> : [forall i, [forall n, (covariance p i n \in unitmx) && (\sum_t g i n t != 0)]].
    apply/forallP => i; apply/forallP => n; rewrite uB /=; apply/eqP => z.
    by have := G0 i n; rewrite z => /Rlt_irrefl.
  have -> // : all_cells (fun i n t => zbz fl Z (covariance p) i n t != 0).
  apply/forallP => i; apply/forallP => n; apply/forallP => t; apply/eqP => z.
  by have := fl_gt0 (Rmax (re (form (invmx (covariance p i n)) (col t (Z i)) (col t (Z i)))) 0); rewrite -/(zbz fl Z (covariance p) i n t) z => /Rlt_irrefl.
exists g, p1, (if b then {| mixing := mixing p1; covariance := fun i n => (c (rtr (covariance p1 i n)))^-1 *: covariance p1 i n |} else p1); split=> //.
rewrite /update_once E E1; case: b; last by split.
rewrite /normalize_covariance; have -> : [forall i, [forall n, re (\tr (covariance p1 i n)) != 0]].
  apply/forallP => i; apply/forallP => n; apply/eqP => z; have := tr0 i n; by rewrite /rtr z => /Rlt_irrefl.
split=> // i n /=; have [m1 c1] := v1 i n; split=> //; apply: pdZ => //.
by rewrite invr_gt0; apply: c_gt0; exact: tr0.
Qed.
(** C56: with positive flooring every number of updates is defined from positive weights and
    positive definite covariances, and keeps them so. *)
Theorem C56_defined b k Z p : valid p -> exists p', iterate fl eig b k Z p = Some p' /\ valid p'.
Proof.
elim: k p => [|k IH] p vp /=; first by exists p.
by have [g [p1 [p2 [_ _ _ _ [-> v2]]]]] := once_parts b Z vp; exact: IH.
Qed.

(** ** The loss *)
(** log-density of source n at a frame, without flooring *)
Definition logd Z p i n t : R :=
  (ln (mixing p i n) - ln (cabs (\det (covariance p i n))) - INR M * ln (qf (covariance p i n) (Z i) t))%coqR.
Definition nll Z p : R := (\sum_i ((T%:R)^-1 * \sum_t - ln (\sum_n exp (logd Z p i n t))))%R.
(** the floors are not active *)
Definition above_floor Z p : Prop := forall i n t, (eps <= re (form (invmx (covariance p i n)) (col t (Z i)) (col t (Z i))))%coqR.
Lemma zbzE Z p i n t : above_floor Z p -> zbz fl Z (covariance p) i n t = qf (covariance p i n) (Z i) t.
Proof.
move=> a; rewrite /zbz /qf; have := a i n t; move: (re _) => q h.
by rewrite /max_flooring (Rmax_left q); [rewrite Rmax_left|lra].
Qed.
Lemma lossE Z p : valid p -> above_floor Z p -> compute_loss fl Z p = Some (nll Z p).
Proof.
move=> vp ab; rewrite /compute_loss -!lt0n T0 N0 andbT /=.
have -> : log_gamma_ok fl Z p.
  apply/log_gamma_okP; split=> [i n|i n t]; last exact: fl_gt0.
  by have [m /pd_unit] := vp i n.
congr Some; apply: eq_bigr => i _; congr (_ * _); apply: eq_bigr => t _; rewrite logsumexp_column //=.
by congr (- ln _); apply: eq_bigr => n _; rewrite /log_gamma zbzE.
Qed.
(** C67: the loss is the negative log-likelihood of the mixture, up to constants *)
Theorem C67_loss Z p : valid p -> above_floor Z p -> compute_loss fl Z p =
  Some (\sum_i ((T%:R)^-1 * \sum_t - ln (\sum_n (mixing p i n / (cabs (\det (covariance p i n)) *
     re (form (invmx (covariance p i n)) (col t (Z i)) (col t (Z i))) ^ M))%coqR)))%R.
Proof.
move=> vp ab; rewrite lossE //; congr Some; apply: eq_bigr => i _; congr (_ * _); apply: eq_bigr => t _.
congr (- ln _); apply: eq_bigr => n _; have [m0 pB] := vp i n.
have := exp_log_gamma (fl := fl) (Z := Z) (p := p) (t := t) m0 (pd_unit pB) (fl_gt0 _).
by rewrite /log_gamma /density -/(zbz fl Z (covariance p) i n t) zbzE // => ->.
Qed.

Section Step.
Variables (Z : spec) (p : params).
Hypotheses (z1 : forall i t, \sum_m cabs (Z i m t) ^+ 2 = 1) (vp : valid p) (sum1 : forall i, \sum_n mixing p i n = 1).
Hypothesis lo : forall i n x, (eps * re (form 1%:M x x) <= re (form (covariance p i n) x x))%coqR.
Hypothesis ab : above_floor Z p.
Lemma unit_form i t : re (form 1%:M (col t (Z i)) (col t (Z i))) = 1.
Proof. by rewrite form1E rec -(z1 i t); apply: eq_bigr => m _; rewrite mxE. Qed.
Lemma step_nll g : update_posterior fl Z p = Some g ->
  let p1 := {| mixing := fun i n => ((T%:R)^-1 * \sum_t g i n t)%R; covariance := fun i n => to_psd eig fl (scatter fl Z p g i n) |} in
  (nll Z p1 <= nll Z p)%coqR.
Proof.
move=> E p1; have P := C56_posterior E; have [_ gE] := postP E.
have g0 i n t : (0 < g i n t)%coqR by have [_ /(_ n)[]] := P i t.
have Tp : (0 < (T%:R : R))%coqR by apply/RltP; rewrite ltr0n.
rewrite /nll; apply: sumR_le => i _; apply: Rmult_le_compat_l.
  by apply: Rlt_le; apply/RltP; rewrite invr_gt0; apply/RltP.
have {}gE n t : g i n t = (exp (logd Z p i n t) / (\sum_k exp (logd Z p i k t))%R)%coqR.
  rewrite gE /log_gamma zbzE //; congr (_ / _)%coqR; apply: eq_bigr => k _; by rewrite /log_gamma zbzE.
have scE n : scatter fl Z p g i n = scat (Z i) (g i n) (qf (covariance p i n) (Z i)).
  apply/matrixP => a b; rewrite !mxE; congr (_ * (_ / _)); apply: eq_bigr => t _; by rewrite zbzE.
have step t : (- ln (\sum_n exp (logd Z p1 i n t))%R <= - ln (\sum_n exp (logd Z p i n t))%R +
    (\sum_n (g i n t * (logd Z p i n t - logd Z p1 i n t))%coqR)%R)%coqR.
  have := em_bound (fun n => logd Z p i n t) (fun n => logd Z p1 i n t) N0.
  cbv zeta; set u := (\sum_n (_ * _)%coqR)%R.
  suff -> : u = (\sum_n (g i n t * (logd Z p i n t - logd Z p1 i n t))%coqR)%R by [].
  by apply: eq_bigr => n _; rewrite gE.
apply: (@Rle_trans _ (\sum_t (- ln (\sum_n exp (logd Z p i n t))%R + (\sum_n (g i n t * (logd Z p i n t - logd Z p1 i n t))%coqR)%R)%coqR)).
  by apply: sumR_le => t _; exact: step.
rewrite -sumR_add.
suff : ((\sum_t (\sum_n (g i n t * (logd Z p i n t - logd Z p1 i n t))%coqR))%R <= 0)%coqR.
  by move: (\sum_t _) (\sum_t _) => a b; lra.
rewrite exchange_big /=.
have src n : ((\sum_t (g i n t * (logd Z p i n t - logd Z p1 i n t))%coqR)%R <= (T%:R : R) * mixing p i n - (\sum_t g i n t)%R)%coqR.
  have [m0 pB] := vp i n.
  have [pB' bd] := source_bound He e0 pB (lo i n) T0 (g0 i n) (unit_form i).
  set G := \sum_t g i n t in bd *; set B' := to_psd _ _ _ in pB' bd.
  have cE : covariance p1 i n = B' by rewrite /p1 /= scE.
  have mE : mixing p1 i n = (T%:R)^-1 * G by [].
  have G0 : (0 < G)%coqR by apply: (@sumR_gt0 _ _ (Ordinal T0)) => [t|]; [apply: Rlt_le|]; apply: g0.
  have m1 : (0 < mixing p1 i n)%coqR.
    by rewrite mE; apply: Rmult_lt_0_compat => //; apply/RltP; rewrite invr_gt0; apply/RltP.
  have -> : (\sum_t (g i n t * (logd Z p i n t - logd Z p1 i n t))%coqR)%R =
     (G * (ln (mixing p i n) - ln (mixing p1 i n)) + (G * (ln (cabs (\det B')) - ln (cabs (\det (covariance p i n)))) +
      (M%:R : R) * (\sum_t (g i n t * (ln (qf B' (Z i) t) - ln (qf (covariance p i n) (Z i) t)))%coqR)%R))%coqR.
    rewrite /G !sumR_mulr sumR_mull !sumR_add; apply: eq_bigr => t _; rewrite /logd cE RnatE.
    move: (ln (mixing p i n)) (ln (mixing p1 i n)) (ln _) (ln _) (ln _) (ln _) (M%:R : R) (g i n t) => *; Rr.
  have := ln_tangent _ _ m1 m0.
  have TG : (T%:R * mixing p i n = G * (mixing p i n / mixing p1 i n))%coqR.
    have Tn : (T%:R : R) <> 0%coqR by move=> z; move: Tp; rewrite z; exact: Rlt_irrefl.
    rewrite mE -RmulE -(RinvE Tn); have Gn : G <> 0%coqR by lra.
    by clear - Tn Gn; clearbody G; move: Tn Gn; move: (T%:R : R) (mixing p i n) => a d a0 b0; Rf.
  have -> : ((mixing p i n - mixing p1 i n) / mixing p1 i n = mixing p i n / mixing p1 i n - 1)%coqR by Rfield; lra.
  rewrite TG => h; have := Rmult_le_compat_l G _ _ (Rlt_le _ _ G0) h; move: bd; set x := (_ + _ * _)%coqR.
  by move: x (ln (mixing p i n)) (ln (mixing p1 i n)) (_ / _)%coqR => x y w v; lra.
apply: (Rle_trans _ (\sum_n ((T%:R : R) * mixing p i n - (\sum_t g i n t)%R)%coqR)); first by apply: sumR_le => n _.
rewrite -sumR_sub -sumR_mull sum1 exchange_big /= (eq_bigr (fun _ => 1)); last by move=> t _; have [h _ _] := P i t; exact: h.
by rewrite sumr_const card_ord -[1]/1%coqR; lra.
Qed.
Lemma nll_scale p1 (k : 'I_F -> 'I_N -> R) : valid p1 -> (forall i n, (0 < k i n)%coqR) ->
  nll Z {| mixing := mixing p1; covariance := fun i n => (c (k i n))^-1 *: covariance p1 i n |} = nll Z p1.
Proof.
move=> v1 k0; apply: eq_bigr => i _; congr (_ * _); apply: eq_bigr => t _; congr (- ln _); apply: eq_bigr => n _; congr exp.
have [m0 pB] := v1 i n; have kp := k0 i n; rewrite /logd /=; set B := covariance p1 i n in pB *.
have q0 := qf_gt0 pB (unit_form i t); have uB := pd_unit pB.
have cn : c (k i n) != 0 by apply: lt0r_neq0; exact: c_gt0.
have -> : qf ((c (k i n))^-1 *: B) (Z i) t = (k i n * qf B (Z i) t)%coqR.
  rewrite /qf; have -> : invmx ((c (k i n))^-1 *: B) = c (k i n) *: invmx B.
    by rewrite invmxZ ?invrK // unitmxZ // unitfE invr_eq0.
  by rewrite /form -scalemxAr -scalemxAl mxE reMc.
have d0 : (0 < cabs (\det B))%coqR by apply: cabs_gt0; rewrite -unitfE -unitmxE.
have -> : cabs (\det ((c (k i n))^-1 *: B)) = (/ (k i n) ^ M * cabs (\det B))%coqR.
  rewrite detZ cabsM -cV -cX cabs_c -[_ * _]/(_ * _)%coqR; congr (_ * _)%coqR.
  rewrite exprVn -RpowE -RinvE; last by apply: pow_nonzero; lra.
  by rewrite Rabs_pos_eq //; apply: Rlt_le; apply: Rinv_0_lt_compat; apply: pow_lt.
rewrite !ln_mult //; [|by apply: Rinv_0_lt_compat; apply: pow_lt].
rewrite ln_Rinv ?ln_pow //; last exact: pow_lt.
by move: (INR M) (ln _) (ln _) (ln _) (ln _) => *; Rring.
Qed.
End Step.

Lemma above_of_trace Z p : (forall i t, \sum_m cabs (Z i m t) ^+ 2 = 1) -> valid p ->
  (forall i n, (eps * re (\tr (covariance p i n)) <= 1)%coqR) -> above_floor Z p.
Proof.
move=> z1 vp tr i n t; have [_ pB] := vp i n.
have z := unit_form z1 i t; have := qform_lower pB z; have q0 := qf_gt0 pB z; rewrite -/(qf (covariance p i n) (Z i) t) in q0 *.
have := tr i n; rewrite -/(rtr _); have := rtr_pd M0 pB; move: (rtr _) (qf _ _ _) q0 => a q q0 a0 h1 h2.
by apply: (Rmult_le_reg_l a) => //; lra.
Qed.
(** C67: an update with normalisation does not increase the loss: for unit-norm observations, a floor
    at most 1, weights summing to one and covariances of unit trace above the floor (the
    covariance after the update may be floored). *)
Theorem C67_normalized Z p : (eps <= 1)%coqR -> (forall i t, \sum_m cabs (Z i m t) ^+ 2 = 1) -> valid p ->
  (forall i, \sum_n mixing p i n = 1) -> (forall i n, \tr (covariance p i n) = 1) ->
  (forall i n x, (eps * re (form 1%:M x x) <= re (form (covariance p i n) x x))%coqR) ->
  exists p' g l l', [/\ update_once fl eig true Z p = Some (p', g), valid p',
    (forall i, \sum_n mixing p' i n = 1) /\ (forall i n, \tr (covariance p' i n) = 1),
    compute_loss fl Z p = Some l /\ compute_loss fl Z p' = Some l' & (l' <= l)%coqR].
Proof.
move=> e1 z1 vp s1 t1 lo; have [g [p1 [p2 [E p1E v1 p2E [E2 v2]]]]] := once_parts true Z vp.
have PP := C56_parameters E2.
have ab : above_floor Z p by apply: above_of_trace => // i n; rewrite t1 re1; toR; lra.
have ab2 : above_floor Z p2.
  by apply: above_of_trace => // i n; have [_ _ _ ->] := PP i; rewrite // re1; toR; lra.
exists p2, g, (nll Z p), (nll Z p2); split=> //.
- by split=> [i|i n]; have [h _ _ h'] := PP i; [exact: h|exact: h'].
- by split; apply: lossE.
rewrite p2E nll_scale // => [|i n]; last by apply: rtr_pd => //; have [] := v1 i n.
by rewrite p1E; apply: step_nll.
Qed.
(** C67: along a run with normalisation whose covariances stay above the floor the loss never
    increases. *)
Theorem C67_run Z p k : (eps <= 1)%coqR -> (forall i t, \sum_m cabs (Z i m t) ^+ 2 = 1) -> valid p ->
  (forall i, \sum_n mixing p i n = 1) -> (forall i n, \tr (covariance p i n) = 1) ->
  (forall j q, (j < k)%N -> iterate fl eig true j Z p = Some q ->
    forall i n x, (eps * re (form 1%:M x x) <= re (form (covariance q i n) x x))%coqR) ->
  exists p' l l', [/\ iterate fl eig true k Z p = Some p', compute_loss fl Z p = Some l,
    compute_loss fl Z p' = Some l' & (l' <= l)%coqR].
Proof.
move=> e1 z1; elim: k p => [|k IH] p vp s1 t1 lo.
  exists p, (nll Z p), (nll Z p); split=> //; try by apply: lossE => //; apply: above_of_trace => // i n; rewrite t1 re1; toR; lra.
  exact: Rle_refl.
have [p1 [g [l [l1 [E v1 [s1' t1'] [L1 L2] le]]]]] := C67_normalized e1 z1 vp s1 t1 (lo 0%N p isT erefl).
have [||||p' [l1' [l' [E' L3 L4 le']]]] := IH p1 => //.
  by move=> j q jk Ej; apply: (lo j.+1) => //=; rewrite E.
exists p', l, l'; split=> //=; first by rewrite E.
by move: L3; rewrite L2 => -[e]; apply: Rle_trans le; rewrite e.
Qed.
(** C67: without normalisation, when the quadratic forms stay above the floor *)
Theorem C67_unnormalized Z p : (forall i t, \sum_m cabs (Z i m t) ^+ 2 = 1) -> valid p ->
  (forall i, \sum_n mixing p i n = 1) -> (forall i n, (eps * re (\tr (covariance p i n)) <= 1)%coqR) ->
  (forall i n x, (eps * re (form 1%:M x x) <= re (form (covariance p i n) x x))%coqR) ->
  exists p' g, [/\ update_once fl eig false Z p = Some (p', g), valid p',
    forall i n x, (eps * re (form 1%:M x x) <= re (form (covariance p' i n) x x))%coqR &
    (forall i n, (eps * re (\tr (covariance p' i n)) <= 1)%coqR) ->
    exists l l', [/\ compute_loss fl Z p = Some l, compute_loss fl Z p' = Some l' & (l' <= l)%coqR]].
Proof.
move=> z1 vp s1 t1 lo; have [g [p1 [p2 [E p1E v1 -> [E2 v2]]]]] := once_parts false Z vp.
exists p1, g; split=> //; first by move=> i n x; rewrite p1E; exact: C25_lower_bound.
move=> t1'; have ab : above_floor Z p by apply: above_of_trace.
have ab1 : above_floor Z p1 by apply: above_of_trace.
exists (nll Z p), (nll Z p1); split; try exact: lossE.
by rewrite p1E; apply: step_nll.
Qed.
End C67.

(** ** Instance: two sources, two channels, two frames *)
Lemma half_gt0 k : (0 < k)%coqR -> (0 < / k)%coqR. Proof. exact: Rinv_0_lt_compat. Qed.
Example C67_instance : exists (p : params 2 2 1) (Z : 'I_1 -> 'M[Cx]_2),
  [/\ valid p, (forall i t, \sum_m cabs (Z i m t) ^+ 2 = 1) /\ (forall i, \sum_n mixing p i n = 1),
      forall i n, \tr (covariance p i n) = 1,
      forall i n x, ((1 / 4) * re (form 1%:M x x) <= re (form (covariance p i n) x x))%coqR &
      covariance p 0 0 <> covariance p 0 1].
Proof.
pose d (n : 'I_2) : 'rV[R]_2 := \row_m (if m == n then (1 / 3)%coqR else (2 / 3)%coqR).
have d0 n m : (1 / 4 <= d n 0%R m)%coqR by rewrite mxE; case: ifP => _; lra.
have ds n : \sum_m d n 0 m = 1.
  rewrite sum2 !mxE; have [->|->] := ord2P n; rewrite /=; toR; lra.
exists {| mixing := fun _ n => if n == 0 then (1 / 4)%coqR else (3 / 4)%coqR; covariance := fun _ n => rdiag (d n) |}, (fun _ => 1%:M).
split.
- move=> i n; split=> /=; first by case: ifP => _; lra.
  by apply: pd_rdiag => m; have := d0 n m; lra.
- split=> [i t|i] /=.
    rewrite sum2 !mxE; have [->|->] := ord2P t; by rewrite /= ?cabs1 ?cabs0 expr1n expr0n /= ?addr0 ?add0r.
  by rewrite sum2 /=; toR; lra.
- by move=> i n; rewrite SvdExist.rdiag_sum ds c1.
- move=> i n x; rewrite form1E form_rdiag !rec [X in (X <= _)%coqR]sumR_mull; apply: sumR_le => m _.
  by apply: Rmult_le_compat_r; [apply/RleP; exact: sqr_ge0|exact: d0].
move=> /= /matrixP/(_ 0 0); rewrite !rdiagE !mxE /= => /c_inj; lra.
Qed.

(** the same parameters and data meet the hypotheses of C56: a step of the algorithm is defined *)
Example C56_instance eig : eigh_contract eig -> exists (p : params 2 2 1) (Z : 'I_1 -> 'M[Cx]_2) p' g,
  update_once (max_flooring (1 / 4)%coqR) eig true Z p = Some (p', g).
Proof.
move=> He; have [p [Z [vp _ _ _ _]]] := C67_instance; exists p, Z.
have e0 : (0 < 1 / 4)%coqR by lra.
have [//|//|//|g [p1 [p2 [_ _ _ _ [E _]]]]] := once_parts e0 He _ _ _ true Z vp.
by exists p2, g.
Qed.

(** ** C65: the documented targets of the permutation solvers *)
From Coq Require Import String.
Local Open Scope string_scope.
(** [True] selects the score of the posteriors; the names containing "score" and the correlation of
    amplitudes work; all other strings are rejected. *)
Theorem C65_supported o : truthy o ->
  match solve_permutation o with
  | PaScore Posterior => o = PaBool true \/ o = PaStr "posterior_score"
  | PaScore Amplitude => o = PaStr "amplitude_score"
  | PaCorrelation Amplitude => o = PaStr "amplitude_correlation"
  | PaCorrelation Posterior => False
  | PaAssertion => o = PaStr "posterior_correlation"
  | PaNotImplemented => exists s, o = PaStr s /\
      str_in s [:: "posterior_score"; "posterior_correlation"; "amplitude_score"; "amplitude_correlation"] = false
  end.
Proof.
case: o => [[]|s] //; first by left.
move=> ne; rewrite /solve_permutation ne /str_in /=; move: ne => /= /negbTE ne.
case E1: (String.eqb s "posterior_score") => /=; first by move/String.eqb_eq: E1 => ->; right.
case E2: (String.eqb s "posterior_correlation") => /=; first by move/String.eqb_eq: E2 => -> /=.
case E3: (String.eqb s "amplitude_score") => /=; first by move/String.eqb_eq: E3 => -> /=.
case E4: (String.eqb s "amplitude_correlation") => /=; first by move/String.eqb_eq: E4 => -> /=.
by exists s; rewrite E1 E2 E3 E4.
Qed.
(** The documentation of [solve_permutation_by_correlation] offers the target "posterior"
    (cacgmm.py:381-382), and the dispatch accepts "posterior_correlation" (line 272), but the call
    always raises an AssertionError; the constructor accepts the option. *)
Theorem C65_posterior_correlation_refuted : exists o,
  [/\ init_keywords o [::] = Some [::], call_permutation o = Some PaAssertion & o = PaStr "posterior_correlation"].
Proof. by exists (PaStr "posterior_correlation"). Qed.
(** keywords of the iteration counts are accepted exactly for the score-based solvers *)
Theorem C65_keywords o k ks : init_keywords o (k :: ks) = Some (k :: ks) <->
  (o = PaBool true \/ o = PaStr "posterior_score" \/ o = PaStr "amplitude_score") /\
  forall x, List.In x (k :: ks) -> x = "global_iter" \/ x = "local_iter".
Proof.
rewrite /init_keywords; set valid := match o with PaBool _ => _ | PaStr _ => _ end.
have inP x : str_in x [:: "global_iter"; "local_iter"] <-> x = "global_iter" \/ x = "local_iter".
  rewrite /str_in /= orbF; split=> [/orP[]/String.eqb_eq|[]->]; [by left|by right|by []|].
  by rewrite (String.eqb_refl "local_iter") orbT.
have allP l : all (fun k => str_in k [:: "global_iter"; "local_iter"]) l <-> forall x, List.In x l -> x = "global_iter" \/ x = "local_iter".
  elim: l => //= a l IH; split=> [/andP[/inP h /IH H] x [<-//|/H//]|H].
  by apply/andP; split; [apply/inP; apply: H; left|apply/IH => x hx; apply: H; right].
have vE : valid = (if match o with PaBool b => b | PaStr s => str_in s [:: "posterior_score"; "amplitude_score"] end
  then [:: "global_iter"; "local_iter"] else [::]) by rewrite /valid; case: (o).
rewrite vE; clear vE valid.
have oE : match o with PaBool b => b | PaStr s => str_in s [:: "posterior_score"; "amplitude_score"] end = true <->
  (o = PaBool true \/ o = PaStr "posterior_score" \/ o = PaStr "amplitude_score").
  case: (o) => [[]|s]; split=> //; try by [left|case=> [|[]]].
    by rewrite /str_in /= orbF => /orP[]/String.eqb_eq ->; right; [left|right].
  by case=> // -[] [->].
case E: (match o with PaBool b => b | PaStr s => _ end).
  split=> [|[_ /allP -> //]].
  by case: ifP => [/allP h _|//]; split=> //; apply/oE; rewrite E.
split=> [|[/oE]]; last by rewrite E.
by rewrite /= /str_in /=.
Qed.
Print Assumptions C56_defined.
Print Assumptions C67_loss.
Print Assumptions C67_normalized.
Print Assumptions C67_run.
Print Assumptions C67_unnormalized.
Print Assumptions C65_supported.
Print Assumptions C65_posterior_correlation_refuted.
Print Assumptions C65_keywords.
