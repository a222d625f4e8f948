(** C88, C67: CACGMM without flooring on recordings of full rank. *)
From Coq Require Import Reals Lra FunctionalExtensionality.
From mathcomp Require Import all_ssreflect all_algebra all_fingroup.
From mathcomp Require Import ring.
From Verif Require Import RStruct MxC CxR NpLin RealLemmas Eigh EighProofs NmfReal NmfMM Prop_Linalg ProxProofs TraceMM.
From Verif Require Import Special SpecialProofs SpatialISS AuxIVA AuxIVAProofs Cacgmm CacgmmProofs Prop_Cacgmm Prop_CacgmmEM MnmfGauss Prop_Frames Prop_CacgmmGauge.
Import Order.TTheory GRing.Theory Num.Theory.
Set Implicit Arguments.
Unset Strict Implicit.
Unset Printing Implicit Defensive.
Local Open Scope ring_scope.

Lemma fin_floor (I : finType) (f : I -> R) : (forall i, (0 < f i)%coqR) -> exists2 e, (0 < e)%coqR & forall i, (e <= f i)%coqR.
Proof.
move=> f0; suff : exists2 e, (0 < e)%coqR & forall i, i \in enum I -> (e <= f i)%coqR.
  by case=> e e0 h; exists e => // i; apply: h; rewrite mem_enum.
elim: (enum I) => [|i s [e e0 h]]; first by exists 1%coqR => //; lra.
exists (Rmin e (f i)); first exact: Rmin_glb_lt.
move=> j; rewrite inE => /orP[/eqP ->|/h hj]; first exact: Rmin_r.
by apply: Rle_trans hj; exact: Rmin_l.
Qed.
Lemma pd_floor n (B : 'M[Cx]_n) : pd B -> exists2 e, (0 < e)%coqR & forall x, (e * re (form 1%:M x x) <= re (form B x x))%coqR.
Proof.
move=> pB; have [r sp] := eigh_exists (proj1 pB).
have l0 i : (0 < r.1 0%R i)%coqR := eigh_val_gt0 i pB sp.
have [e e0 he] := fin_floor l0; exists e => // x; have [-> ->] := form_eigen sp x.
rewrite [X in (X <= _)%coqR]sumR_mull; apply: sumR_le => k _.
by apply: Rmult_le_compat_r; [rewrite -RpowE; exact: pow2_ge_0|exact: he].
Qed.

Section Free.
Variables (N M F T : nat) (eig : eigh_t).
Hypotheses (He : eigh_contract eig) (N0 : (0 < N)%N) (M0 : (0 < M)%N) (T0 : (0 < T)%N).
Notation spec := ('I_F -> 'M[Cx]_(M, T)).
Notation post := ('I_F -> 'I_N -> 'I_T -> R).
Notation params := (params N M F).
Notation id := (fun x : R => x).
Implicit Types (Z X : spec) (p : params) (g : post).

Lemma scat_pd (Z : 'M[Cx]_(M, T)) (g q : 'I_T -> R) : row_free Z -> (forall t, (0 < g t)%coqR) -> (forall t, (0 < q t)%coqR) -> pd (scat Z g q).
Proof.
move=> fZ g0 q0; pose phi : 'M[R]_(M, T) := \matrix_(m, t) (g t / q t)%coqR.
have pW : pd (wcov phi Z (Ordinal M0)).
  by apply: wcov_pd => // t; rewrite mxE; apply: Rdiv_lt_0_compat.
have G0 : (0 < (\sum_t g t)%R)%coqR by apply: (@sumR_gt0 _ _ (Ordinal T0)) => [t|]; [apply: Rlt_le|].
have -> : scat Z g q = c (((M * T)%N)%:R / \sum_t g t)%R *: wcov phi Z (Ordinal M0).
  apply/matrixP => a b; rewrite !mxE /meanC cM cV c_natM natrM.
  have -> : \sum_t c (phi (Ordinal M0) t) * (Z a t * (Z b t)^*) = \sum_t c (g t / q t)%coqR * (Z a t * (Z b t)^*).
    by apply: eq_bigr => t _; rewrite mxE.
  have Tn : (T%:R : Cx) != 0 by rewrite pnatr_eq0 -lt0n.
  have yn : c (\sum_t g t) != 0 by apply: c_neq0; exact: Rgt_not_eq G0.
  rewrite cV c_natM; move: (\sum_t _ * _) (c _) yn => x y yn; field; by rewrite yn Tn.
apply: pdZ => //; apply: c_gt0; apply: Rmult_lt_0_compat; first by apply/RltP; rewrite ltr0n muln_gt0 M0.
by apply/RltP; rewrite invr_gt0; apply/RltP.
Qed.
Section Rec.
Variables (Z : spec).
Hypotheses (fZ : forall i, row_free (Z i)) (z1 : forall i t, \sum_m cabs (Z i m t) ^+ 2 = 1).
Lemma qf_pos p i n t : valid p -> (0 < qf (covariance p i n) (Z i) t)%coqR.
Proof. by move=> vp; apply: qf_gt0; [have [] := vp i n|exact: unit_form z1 i t]. Qed.
Lemma zbz_free p i n t : valid p -> zbz id Z (covariance p) i n t = qf (covariance p i n) (Z i) t.
Proof. by move=> vp; apply: Rmax_left; apply: Rlt_le; exact: qf_pos. Qed.
Lemma ok_free p : valid p -> log_gamma_ok id Z p.
Proof.
move=> vp; apply/log_gamma_okP; split=> [i n|i n t]; last by rewrite zbz_free //; exact: qf_pos.
by have [m /pd_unit] := vp i n.
Qed.
Lemma lg_free p i n t : valid p -> log_gamma id Z p i n t = logd Z p i n t.
Proof. by move=> vp; rewrite /log_gamma zbz_free. Qed.
Lemma loss_free p : valid p -> compute_loss id Z p = Some (nll Z p).
Proof.
move=> vp; rewrite compute_lossE ok_free // -!lt0n T0 N0; apply: f_equal; apply: eq_bigr => i _; apply: f_equal.
apply: eq_bigr => t _; apply: f_equal; apply: f_equal; by apply: eq_bigr => n _; rewrite lg_free.
Qed.
Lemma src_free : some_source N F T.
Proof. by apply/forallP => i; apply/forallP => t. Qed.
Lemma em_valid p : valid p -> valid (em id eig Z p).
Proof.
move=> vp i n; split.
  by rewrite /= -RmulE; apply: Rmult_lt_0_compat; [apply/RltP; rewrite invr_gt0 ltr0n|apply: sum_gam; rewrite -lt0n].
rewrite em_covE //; apply: scat_pd => // t; first exact: gam_gt0.
by rewrite zbz_free //; exact: qf_pos.
Qed.
Definition normed b p : params := if b then
  {| mixing := mixing p; covariance := fun i n => (c (rtr (covariance p i n)))^-1 *: covariance p i n |} else p.
Lemma normed_valid b p : valid p -> valid (normed b p).
Proof.
case: b => // vp i n; have [m1 c1] := vp i n; split=> //; apply: pdZ => //.
by rewrite invr_gt0; apply: c_gt0; apply: rtr_pd.
Qed.
Lemma once_free b p : valid p -> update_once id eig b Z p = Some (normed b (em id eig Z p), gam id Z p).
Proof.
move=> vp; rewrite onceE ok_free // src_free -lt0n T0; have ve := em_valid vp.
move: (em id eig Z p) (gam id Z p) ve => q g vq; case: b => //.
by rewrite norm_pos // => i n; apply: rtr_pd => //; have [] := vq i n.
Qed.
Lemma nll_normed b p : valid p -> nll Z (normed b p) = nll Z p.
Proof. by case: b => // vp; apply: nll_scale => // i n; apply: rtr_pd => //; have [] := vp i n. Qed.
Lemma sum_mixing p i : \sum_n mixing (em id eig Z p) i n = 1.
Proof.
rewrite /= -mulr_sumr exchange_big /= (eq_bigr (fun _ => 1)) => [|t _].
  by rewrite sumr_const card_ord mulVf // pnatr_eq0 -lt0n.
rewrite -(sumR_mulr _ _ (/ _)%coqR); apply: Rinv_r; apply: Rgt_not_eq; exact: (sumexp_gt0 _ (Ordinal N0)).
Qed.
Lemma step_free p : valid p -> (forall i, \sum_n mixing p i n = 1) -> (nll Z (em id eig Z p) <= nll Z p)%coqR.
Proof.
move=> vp s1; have ve := em_valid vp.
pose J := ('I_F * 'I_N)%type.
have [e1 e10 h1] : exists2 e, (0 < e)%coqR & forall i n x, (e * re (form 1%:M x x) <= re (form (covariance p i n) x x))%coqR.
  have F0 (j : J) : exists e, (0 < e)%coqR /\ forall x, (e * re (form 1%:M x x) <= re (form (covariance p j.1 j.2) x x))%coqR.
    by have [_ /pd_floor[e]] := vp j.1 j.2; exists e.
  have [f hf] := fin_all_exists F0; have [e e0 he] := fin_floor (fun j => proj1 (hf j)).
  exists e => // i n x; apply: Rle_trans (proj2 (hf (i, n)) x); apply: Rmult_le_compat_r; last exact: he.
  by rewrite form1E rec; apply: sumR_ge0 => m _; rewrite -RpowE; exact: pow2_ge_0.
have [e2 e20 h2] : exists2 e, (0 < e)%coqR & forall i n x, (e * re (form 1%:M x x) <= re (form (covariance (em id eig Z p) i n) x x))%coqR.
  have F0 (j : J) : exists e, (0 < e)%coqR /\ forall x, (e * re (form 1%:M x x) <= re (form (covariance (em id eig Z p) j.1 j.2) x x))%coqR.
    by have [_ /pd_floor[e]] := ve j.1 j.2; exists e.
  have [f hf] := fin_all_exists F0; have [e e0 he] := fin_floor (fun j => proj1 (hf j)).
  exists e => // i n x; apply: Rle_trans (proj2 (hf (i, n)) x); apply: Rmult_le_compat_r; last exact: he.
  by rewrite form1E rec; apply: sumR_ge0 => m _; rewrite -RpowE; exact: pow2_ge_0.
have [e3 e30 h3] := fin_floor (fun j : J * 'I_T => qf_pos j.1.1 j.1.2 j.2 vp).
pose e := Rmin e1 (Rmin e2 e3).
have ee1 : (e <= e1)%coqR by exact: Rmin_l.
have ee2 : (e <= e2)%coqR by apply: Rle_trans (Rmin_r _ _) _; exact: Rmin_l.
have ee3 : (e <= e3)%coqR by apply: Rle_trans (Rmin_r _ _) _; exact: Rmin_r.
have e0 : (0 < e)%coqR by do 2?apply: Rmin_glb_lt.
have x0 (x : 'cV[Cx]_M) : (0 <= re (form 1%:M x x))%coqR.
  by rewrite form1E rec; apply: sumR_ge0 => m _; rewrite -RpowE; exact: pow2_ge_0.
have ab : above_floor e Z p by move=> i n t; apply: Rle_trans ee3 (h3 ((i, n), t)).
have lo i n x : (e * re (form 1%:M x x) <= re (form (covariance p i n) x x))%coqR.
  by apply: Rle_trans (h1 i n x); apply: Rmult_le_compat_r.
have lo2 i n x : (e * re (form 1%:M x x) <= re (form (covariance (em id eig Z p) i n) x x))%coqR.
  by apply: Rle_trans (h2 i n x); apply: Rmult_le_compat_r.
have zE i n t : zbz (max_flooring e) Z (covariance p) i n t = zbz id Z (covariance p) i n t.
  by rewrite zbzE // zbz_free.
have lgE : log_gamma (max_flooring e) Z p = log_gamma id Z p.
  by apply: functional_extensionality => i; apply: functional_extensionality => n; apply: functional_extensionality => t; rewrite /log_gamma zE.
have gE : gam (max_flooring e) Z p = gam id Z p by rewrite /gam lgE.
have ok : log_gamma_ok (max_flooring e) Z p.
  have /log_gamma_okP[k1 k2] := ok_free vp; apply/log_gamma_okP; split=> // i n t; rewrite zE; exact: k2.
have E : update_posterior (max_flooring e) Z p = Some (gam id Z p) by rewrite postE ok src_free gE.
have := step_nll e0 He N0 T0 z1 vp s1 lo ab E.
suff -> : {| mixing := fun i n => ((T%:R)^-1 * \sum_t gam id Z p i n t)%R;
   covariance := fun i n => to_psd eig (max_flooring e) (scatter (max_flooring e) Z p (gam id Z p) i n) |} = em id eig Z p by [].
rewrite /em; apply: f_equal; apply: functional_extensionality => i; apply: functional_extensionality => n.
have sE : scatter (max_flooring e) Z p (gam id Z p) i n = scatter id Z p (gam id Z p) i n.
  apply/matrixP => a b; rewrite !mxE; congr (_ * (_ / _)); apply: eq_bigr => t _; by rewrite zE.
have cE := em_covE He Z p i n; have [_ [hS _]] := ve i n.
rewrite sE -cE C25_identity //; first by rewrite cE; apply/esym; rewrite -[RHS]cE.
Qed.
Lemma run_free b k p : valid p -> (forall i, \sum_n mixing p i n = 1) -> exists q,
  [/\ iterate id eig b k Z p = Some q, valid q & forall i, \sum_n mixing q i n = 1].
Proof.
elim: k p => [|k IH] p vp s1; first by exists p.
cbn [iterate]; rewrite once_free //; apply: IH; first by apply: normed_valid; exact: em_valid.
by move=> i; rewrite -(sum_mixing p i); case: b.
Qed.
Lemma iterateS b k p q : iterate id eig b k Z p = Some q -> iterate id eig b k.+1 Z p = omap fst (update_once id eig b Z q).
Proof.
elim: k p => [|k IH] p; first by cbn [iterate]; case=> ->; case: (update_once _ _ _ _ _) => [[]|].
cbn [iterate]; case: (update_once _ _ _ _ p) => [[p1 g1]|] // h; exact: IH.
Qed.
End Rec.

(** every bin of the recording has full row rank and no frame is silent *)
Definition rich X : Prop := forall i, row_free (X i) /\ forall t, col t (X i) != 0.
Lemma rich_unit X : rich X -> exists Z, [/\ unit_input id X = Some Z, forall i, row_free (Z i) & forall i t, \sum_m cabs (Z i m t) ^+ 2 = 1].
Proof.
move=> hX; have n0 i t : chan_norm X i t != 0 by rewrite chan_norm0; have [_ /(_ t)] := hX i.
have n1 i t : chan_norm X i t <> 0%coqR by apply/eqP; exact: n0.
exists (fun i => \matrix_(m, t) (X i m t * c (/ chan_norm X i t)%coqR)).
have U : unit_input id X = Some (fun i => \matrix_(m, t) (X i m t * c (/ chan_norm X i t)%coqR)).
  by rewrite /unit_input; have -> : all_bins (fun i => [forall t, chan_norm X i t != 0]) by apply/forallP => i; apply/forallP => t.
split=> // [i|i t]; last by have [_ ->] := C56_unit_input U i t.
have [fX _] := hX i; pose d : 'rV[Cx]_T := \row_t c (/ chan_norm X i t)%coqR.
have -> : \matrix_(m, t) (X i m t * c (/ chan_norm X i t)%coqR) = X i *m diag_mx d.
  by apply/matrixP => m t; rewrite mul_mx_diag !mxE.
have ud : diag_mx d \in unitmx.
  rewrite unitmxE det_diag unitfE; apply/prodf_neq0 => t _; rewrite mxE; apply: c_neq0.
  by apply: Rinv_neq_0_compat.
by rewrite /row_free mxrankMfree // row_free_unit.
Qed.
(** C88: without flooring, a recording of full rank without silent frames can be processed for any
    number of iterations, from positive weights and positive definite covariances *)
Theorem C88_defined b k (solver : params -> post -> option ('I_F -> {perm 'I_N})) r X p0 : rich X -> valid p0 ->
  (forall i, \sum_n mixing p0 i n = 1) -> (forall p g, solver p g <> None) ->
  exists p g Y, call id eig b k solver r X p0 = Some (p, g, Y) /\ valid p.
Proof.
move=> /rich_unit[Z [U fZ z1]] vp s1 hs; have [q [E vq _]] := run_free fZ z1 b k vp s1.
rewrite /call U E postE (ok_free z1 vq) src_free andbT.
case sE: (solver q (gam id Z q)) => [s|]; last by have := hs q (gam id Z q); rewrite sE.
do 3!eexists; split; first by [].
by move=> i n; exact: vq.
Qed.
(** C67: then, with or without normalisation, no iteration increases the loss *)
Theorem C67_no_flooring b k X p : rich X -> valid p -> (forall i, \sum_n mixing p i n = 1) ->
  exists Z q q' l l', [/\ unit_input id X = Some Z, iterate id eig b k Z p = Some q /\ iterate id eig b k.+1 Z p = Some q',
    compute_loss id Z q = Some l, compute_loss id Z q' = Some l' & (l' <= l)%coqR].
Proof.
move=> /rich_unit[Z [U fZ z1]] vp s1; have [q [E vq sq]] := run_free fZ z1 b k vp s1.
have ve := em_valid fZ z1 vq; have vn := normed_valid b ve.
exists Z, q, (normed b (em id eig Z q)), (nll Z q), (nll Z (normed b (em id eig Z q))); split.
- by [].
- by split=> //; rewrite (iterateS E) (once_free fZ z1 b vq).
- exact: loss_free.
- exact: loss_free.
by rewrite (nll_normed z1 b ve); exact: step_free.
Qed.
End Free.

(** ** Instance: two bins with two channels, two sources and two frames *)
Example C88_instance eig (a : 'I_2 -> 'I_2 -> Cx) (A : 'I_2 -> 'M[Cx]_2) : eigh_contract eig -> (forall i t, a i t != 0) -> (forall i, A i \in unitmx) ->
  exists (p p' : params 2 2 2) (X : 'I_2 -> 'M[Cx]_2),
  [/\ (rich X /\ valid p) /\ (forall i, \sum_n mixing p i n = 1), mixed A p p',
      (forall i t, chan_norm (gained a X) i t = (cabs (a i t) * chan_norm X i t)%coqR) &
      forall b k, exists o, call (fun x => x) eig b k (@unaligned 2 2 2 2) 0 X p = Some o].
Proof.
move=> He a0 uA.
pose d (n : 'I_2) : 'rV[R]_2 := \row_m (if m == n then (1 / 3)%coqR else (2 / 3)%coqR).
pose p : params 2 2 2 := {| mixing := fun _ n => if n == 0 then (1 / 4)%coqR else (3 / 4)%coqR; covariance := fun _ n => rdiag (d n) |}.
pose p' : params 2 2 2 := {| mixing := mixing p; covariance := fun i n => c 2%coqR *: (A i *m covariance p i n *m (A i)^H) |}.
pose X (i : 'I_2) : 'M[Cx]_2 := if i == 0 then 1%:M else \matrix_(m, t) (if (m == 1) && (t == 0) then 0 else 1).
have vp : valid p.
  move=> i n; split=> /=; first by case: ifP => _; lra.
  by apply: pd_rdiag => m; rewrite mxE; case: ifP => _; lra.
have s1 i : \sum_n mixing p i n = 1 by rewrite sum2 /=; toR; lra.
have uX i : X i \in unitmx.
  by have [->|->] := ord2P i; rewrite /X /= ?unitmx1 // unitmxE det2 !mxE /= mul1r mulr0 subr0 unitr1.
have rX : rich X.
  move=> i; split=> [|t]; first by rewrite row_free_unit.
  apply/eqP => /colP/(_ t)/eqP; rewrite !mxE /X.
  by have [->|->] := ord2P i; have [->|->] := ord2P t; rewrite !mxE /= oner_eq0.
exists p, p', X; split=> //.
- by split=> //; exists (fun _ _ => 2%coqR) => i n; split=> //; lra.
- by move=> i t; exact: chan_norm_gained.
move=> b k; have [|//|||q [g [Y [E _]]]] := @C88_defined 2 2 2 2 eig He _ _ _ b k (@unaligned 2 2 2 2) 0 X p rX vp s1; by [|exists (q, g, Y)].
Qed.
Print Assumptions C88_gain.
Print Assumptions C88_gain_floor.
Print Assumptions C88_bins.
Print Assumptions C88_sources.
Print Assumptions C88_sources_loss.
Print Assumptions C88_frames.
Print Assumptions C88_frames_loss.
Print Assumptions C88_mixing.
Print Assumptions C88_mixing_loss.
Print Assumptions C88_defined.
Print Assumptions C67_no_flooring.
