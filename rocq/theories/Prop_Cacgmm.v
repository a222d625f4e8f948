(** C56: normalisation of posteriors, weights and covariances in CACGMM.
    C67: an update of CACGMM does not increase the loss. *)
From Coq Require Import Reals Lra.
From mathcomp Require Import all_ssreflect all_algebra all_fingroup.
From Verif Require Import RStruct MxC CxR NpLin RealLemmas Eigh EighProofs NmfReal NmfMM Prop_Linalg ProxProofs TraceMM.
From Verif Require Import Special SpecialProofs Cacgmm CacgmmProofs.
Import Order.TTheory GRing.Theory Num.Theory.
Set Implicit Arguments.
Unset Strict Implicit.
Unset Printing Implicit Defensive.
Local Open Scope ring_scope.

Section C56.
Variables (N M F T : nat) (fl : R -> R) (eig : eigh_t).
Notation spec := ('I_F -> 'M[Cx]_(M, T)).
Notation post := ('I_F -> 'I_N -> 'I_T -> R).
Notation params := (params N M F).
Implicit Types (Z X : spec) (p : params) (g : post).

(** density of source n at a frame, up to a constant: weight / (|det B| q^M) *)
Definition density Z p i n t : R :=
  (mixing p i n / (cabs (\det (covariance p i n)) *
     (fl (Rmax (re (form (invmx (covariance p i n)) (col t (Z i)) (col t (Z i)))) 0)) ^ M))%coqR.
Lemma exp_log_gamma Z p i n t : (0 < mixing p i n)%coqR -> covariance p i n \in unitmx ->
  (0 < zbz fl Z (covariance p) i n t)%coqR -> exp (log_gamma fl Z p i n t) = density Z p i n t.
Proof.
rewrite /log_gamma /density => a0 uB; rewrite /zbz; set q := fl _ => q0.
have d0 : (0 < cabs (\det (covariance p i n)))%coqR by apply: cabs_gt0; rewrite -unitfE -unitmxE.
rewrite /Rminus !exp_plus exp_ln // !exp_Ropp exp_ln // -/(Rpower q (INR M)) Rpower_pow //.
by Rfield; split; [apply: pow_nonzero|]; lra.
Qed.
Lemma log_gamma_okP Z p : reflect
  ((forall i n, covariance p i n \in unitmx /\ (0 < mixing p i n)%coqR) /\
   forall i n t, (0 < zbz fl Z (covariance p) i n t)%coqR) (log_gamma_ok fl Z p).
Proof.
apply: (iffP andP) => [[/forallP h1 /forallP h2]|[h1 h2]]; split.
- by move=> i n; have /forallP/(_ n)/andP[h /RltbP h'] := h1 i.
- by move=> i n t; have /forallP/(_ n)/forallP/(_ t)/RltbP := h2 i.
- by apply/forallP => i; apply/forallP => n; have [-> h] := h1 i n; apply/RltbP.
- by apply/forallP => i; apply/forallP => n; apply/forallP => t; apply/RltbP.
Qed.
Lemma postP Z p g : update_posterior fl Z p = Some g -> log_gamma_ok fl Z p /\
  forall i n t, g i n t = (exp (log_gamma fl Z p i n t) / (\sum_k exp (log_gamma fl Z p i k t))%R)%coqR.
Proof.
rewrite /update_posterior; case: ifP => // /andP[ok _] [<-]; split=> // i n t.
by have [l [-> /= ->]] := softmax_column (fun n => log_gamma fl Z p i n t) n.
Qed.
Lemma sumexp_gt0 (f : 'I_N -> R) (n : 'I_N) : (0 < (\sum_k exp (f k))%R)%coqR.
Proof. by apply: (@sumR_gt0 _ _ n) => [k|]; [apply: Rlt_le|]; apply: exp_pos. Qed.
(** C56: the posteriors are a probability distribution over the sources, given by Bayes' rule. *)
Theorem C56_posterior Z p g : update_posterior fl Z p = Some g -> forall i t,
  [/\ (0 < N)%N -> \sum_n g i n t = 1, forall n, (0 < g i n t <= 1)%coqR &
      forall n, g i n t * (\sum_k density Z p i k t) = density Z p i n t].
Proof.
move=> /postP[/log_gamma_okP[h1 h2] gE] i t.
have dE n : density Z p i n t = exp (log_gamma fl Z p i n t).
  by have [u a] := h1 i n; rewrite exp_log_gamma.
have s1 : (0 < N)%N -> \sum_n g i n t = 1.
  move=> N0; have S0 := sumexp_gt0 (fun n => log_gamma fl Z p i n t) (Ordinal N0).
  rewrite (eq_bigr _ (fun n _ => gE i n t)) -(sumR_mulr _ _ (/ _)%coqR); apply: Rinv_r; move: S0; move: (\sum_k _) => S; lra.
split=> // n; last first.
  rewrite (eq_bigr _ (fun k _ => dE k)) dE gE; have := sumexp_gt0 (fun n => log_gamma fl Z p i n t) n.
  by move: (\sum_k _) => S S0; toR; Rf; lra.
have S0 := sumexp_gt0 (fun n => log_gamma fl Z p i n t) n.
have g0 k : (0 < g i k t)%coqR by rewrite gE; apply: Rdiv_lt_0_compat => //; exact: exp_pos.
split=> //; have N0 : (0 < N)%N by apply: leq_ltn_trans (ltn_ord n).
have := s1 N0; rewrite (bigD1 n) //=; set s := \sum_(k | _) _ => e.
have : (0 <= s)%coqR by apply: sumR_ge0 => k _; apply: Rlt_le.
by move: e; toR; lra.
Qed.
Theorem C56_posterior_defined Z p : (0 < N)%N ->
  (forall i n, covariance p i n \in unitmx /\ (0 < mixing p i n)%coqR) ->
  (forall i n t, (0 < fl (Rmax (re (form (invmx (covariance p i n)) (col t (Z i)) (col t (Z i)))) 0))%coqR) ->
  exists g, update_posterior fl Z p = Some g.
Proof.
move=> N0 h1 h2; rewrite /update_posterior; have -> : log_gamma_ok fl Z p by apply/log_gamma_okP.
have -> : all_bins (fun i => [forall t : 'I_T, isSome (softmax (column (fun n => log_gamma fl Z p i n t)))]); last by eexists.
apply/forallP => i; apply/forallP => t.
by have [l [-> _]] := softmax_column (fun n => log_gamma fl Z p i n t) (Ordinal N0).
Qed.
Lemma parP Z p g p' : update_parameters fl eig Z p g = Some p' ->
  [/\ T <> 0%N, forall i n, covariance p i n \in unitmx /\ \sum_t g i n t != 0 &
   p' = {| mixing := fun i n => ((T%:R)^-1 * \sum_t g i n t)%R; covariance := fun i n => to_psd eig fl (scatter fl Z p g i n) |}].
Proof.
rewrite /update_parameters; case: ifP => // /and3P[/eqP T0 /forallP h _] [<-]; split=> // i n.
by have /forallP/(_ n)/andP := h i.
Qed.
(** C56: after an update the mixing weights are positive and sum to one in every bin; the
    covariances are Hermitian, and have unit trace when they are normalised. *)
Theorem C56_parameters b Z p p' g : update_once fl eig b Z p = Some (p', g) -> forall i,
  [/\ (0 < N)%N -> \sum_n mixing p' i n = 1, forall n, (0 < mixing p' i n)%coqR,
      forall n, (covariance p' i n)^H = covariance p' i n &
      b -> forall n, \tr (covariance p' i n) = 1].
Proof.
rewrite /update_once; case E: (update_posterior fl Z p) => [g1|] //; case E2: (update_parameters _ _ _ _ _) => [p1|] //.
have PP := C56_posterior E; have [T0 u pE] := parP E2.
have T1 : (0 < (T%:R : R))%coqR by apply/RltP; rewrite ltr0n lt0n; apply/eqP.
have m1 i : (0 < N)%N -> \sum_n mixing p1 i n = 1.
  move=> N0; rewrite pE /= -mulr_sumr exchange_big /= (eq_bigr (fun _ => 1)); last first.
    by move=> t _; have [h _ _] := PP i t; exact: h.
  by rewrite sumr_const card_ord mulVf // pnatr_eq0; apply/eqP.
have m2 i n : (0 < mixing p1 i n)%coqR.
  rewrite pE /= -[_ * _]/(_ * _)%coqR; apply: Rmult_lt_0_compat.
    by apply/RltP; rewrite invr_gt0; apply/RltP.
  have Tn : (0 < T)%N by rewrite lt0n; apply/eqP.
  apply: (@sumR_gt0 _ _ (Ordinal Tn)) => [t|].
    by have [_ /(_ n)[h _] _] := PP i t; apply: Rlt_le.
  by have [_ /(_ n)[h _] _] := PP i (Ordinal Tn).
have m3 i n : (covariance p1 i n)^H = covariance p1 i n by rewrite pE; exact: C25_hermitian.
case: b => [|[<- _] i]; last by split=> [|n|n|//]; [exact: m1|exact: m2|exact: m3].
rewrite /normalize_covariance; case: ifP => // /forallP nz [<- _] i; split=> [|n|n|_ n] /=; [exact: m1|exact: m2| |].
  by rewrite ctrZ m3 fmorphV c_conj.
have /forallP/(_ n) t0 := nz i; rewrite mxtraceZ.
have rl : \tr (covariance p1 i n) = c (re (\tr (covariance p1 i n))).
  apply: real_cre; rewrite CrealE /mxtrace rmorph_sum; apply/eqP; apply: eq_bigr => k _.
  by have /matrixP/(_ k k) := m3 i n; rewrite ctrE.
by rewrite {2}rl mulVf // c_eq0.
Qed.
Lemma iterate_last b k Z p p' : iterate fl eig b k Z p = Some p' -> (0 < k)%N ->
  exists q g, update_once fl eig b Z q = Some (p', g).
Proof.
elim: k p => // k IH p /=; case E: (update_once fl eig b Z p) => [[p1 g1]|] //.
by case: k IH => [_ /= [<-] _|k IH h _]; [exists p, g1|exact: IH h _].
Qed.
(** C56: the separated signals of a call sum to the reference channel, whatever permutations the
    solver finds, and weights and posteriors are normalised. *)
Theorem C56_call b k solver r X p0 p' g' Y : (0 < N)%N ->
  call fl eig b k solver r X p0 = Some (p', g', Y) ->
  [/\ forall i t, \sum_n Y i n t = X i r t, forall i n t, Y i n t = c (g' i n t) * X i r t,
      forall i t, \sum_n g' i n t = 1, forall i n t, (0 < g' i n t <= 1)%coqR &
      (0 < k)%N -> forall i, \sum_n mixing p' i n = 1].
Proof.
move=> N0; rewrite /call; case: (unit_input fl X) => [Z|] //; case E1: (iterate _ _ _ _ _ _) => [p|] //.
case E2: (update_posterior _ _ _) => [g|] //; case: (solver p g) => [s|] //= [<- <- <-] /=.
have P := C56_posterior E2.
have g1 i t : \sum_n g i (s i n) t = 1.
  by rewrite -(reindex_inj (@perm_inj _ (s i)) (P := xpredT) (F := fun n => g i n t)); have [h _ _] := P i t; exact: h.
split=> //.
- by move=> i t; rewrite /mask -mulr_suml -c_sum g1 c1 mul1r.
- by move=> i n t; have [_ h _] := P i t.
move=> k0 i; have [q [g2 E3]] := iterate_last E1 k0; have [h _ _ _] := C56_parameters E3 i.
rewrite -(reindex_inj (@perm_inj _ (s i)) (P := xpredT) (F := fun n => mixing p i n)); exact: h.
Qed.
(** the posteriors that are returned, and hence the masks, are those of the returned parameters *)
Theorem C56_call_posterior b k solver r X p0 p' g' Y : (0 < N)%N ->
  call fl eig b k solver r X p0 = Some (p', g', Y) ->
  exists Z g, [/\ unit_input fl X = Some Z, update_posterior fl Z p' = Some g & forall i n t, g' i n t = g i n t].
Proof.
move=> N0; rewrite /call; case: (unit_input fl X) => [Z|] //; case: (iterate _ _ _ _ _ _) => [p|] //.
case E2: (update_posterior _ _ _) => [g|] //; case: (solver p g) => [s|] //= [<- <- _].
set q := {| mixing := _; covariance := _ |}.
have [/log_gamma_okP[h1 h2] gE] := postP E2.
have [|i n t|g2 E3] := @C56_posterior_defined Z q N0; first by move=> i n; exact: h1.
  exact: (h2 i (s i n) t).
exists Z, g2; split=> // i n t; have [_ ->] := postP E3; rewrite gE; congr (_ / _)%coqR.
by rewrite (reindex_inj (@perm_inj _ (s i))).
Qed.
(** the unit-norm observations *)
Theorem C56_unit_input X Z : unit_input fl X = Some Z -> forall i t,
  let r := R_sqrt.sqrt (\sum_m cabs (X i m t) ^+ 2) in
  (forall m, X i m t = c (fl r) * Z i m t) /\ (fl r = r -> \sum_m cabs (Z i m t) ^+ 2 = 1).
Proof.
rewrite /unit_input; case: ifP => // /forallP nz [<-] i t; cbv zeta.
have /forallP/(_ t)/eqP := nz i; set Z' := \matrix_(m, t) _.
have zE m : Z' m t = X i m t * c (/ fl (chan_norm X i t))%coqR by rewrite mxE.
move: zE; rewrite -/(chan_norm X i t); set r := chan_norm X i t => zE n0; split=> [m|e].
  by rewrite zE cRV // mulrCA mulfV ?mulr1 // c_eq0; apply/eqP.
have -> : \sum_m cabs (Z' m t) ^+ 2 = (/ r)%coqR ^+ 2 * \sum_m cabs (X i m t) ^+ 2.
  rewrite mulr_sumr; apply: eq_bigr => m _; rewrite zE cabsM e exprMn mulrC; congr (_ * _).
  by rewrite cabs_c -!RpowE /= !Rmult_1_r -Rabs_mult Rabs_pos_eq //; exact: Rle_0_sqr.
have ge : (0 <= \sum_m cabs (X i m t) ^+ 2)%coqR by apply: sumR_ge0 => m _; apply/RleP; exact: sqr_ge0.
rewrite -(sqrt_sqrt _ ge) -/(chan_norm X i t) -/r; move: n0; rewrite e; clearbody r => n0; rewrite expr2; toR.
by Rf.
Qed.
End C56.
Print Assumptions C56_posterior.
Print Assumptions C56_posterior_defined.
Print Assumptions C56_parameters.
Print Assumptions C56_call.
Print Assumptions C56_call_posterior.
Print Assumptions C56_unit_input.
