(** C11, continued: the choice made in a local iteration of the score-based solver *)
From Coq Require Import Reals Lra.
From mathcomp Require Import all_ssreflect all_algebra.
From mathcomp Require Import zify.
From Verif Require Import RStruct MxC CxR NpLin RealLemmas PermAlign PermAlignProofs Prop_PermAlign Prop_PermScore.
Import Order.TTheory GRing.Theory Num.Theory.
Set Implicit Arguments.
Unset Strict Implicit.
Unset Printing Implicit Defensive.
Local Open Scope ring_scope.

(** the bins compared with bin [b]: the three bins on both sides, and the bins around half and around twice the frequency *)
Definition near (b i : nat) : bool :=
  [|| (i != b) && (i <= b + 3)%N && (b <= i + 3)%N, (i <= b %/ 2 + 1)%N && (b %/ 2 <= i + 1)%N |
      (i <= 2 * b + 1)%N && (2 * b <= i + 1)%N].
Lemma neighboursE F b : neighbours F b = [seq i <- iota 0 F | near b i].
Proof. by rewrite /neighbours; apply: eq_filter => i; rewrite /near; lia. Qed.

Section Local.
Variables (fl : R -> R) (F n T : nat) (x : nat -> nat -> nat -> R) (d : nat -> R).
(** sum over these bins of the correlations of equal sources minus those of different sources *)
Definition local_score b (q : seq nat) : R :=
  \sum_(i < F | near b i) \sum_(s < n) \sum_(s' < n) (if s == s' :> nat then 1 else -1) *
     (rmean T (fun t => x b (nth 0%N q s) t * x i s' t) / fl (d s))%R.
Variables (sn : nat -> nat -> nat -> cnum) (cstd : nat -> num).
Hypothesis T0 : (0 < T)%N.
Hypothesis snE : forall b s t, (b < F)%N -> (s < n)%N -> (t < T)%N -> sn b s t = Some (c (x b s t)).
Hypothesis cE : forall s, (s < n)%N -> cstd s = Some (d s).
Hypothesis fz : forall s, (s < n)%N -> fl (d s) <> 0.
Lemma agreement_bins b i q : (b < F)%N -> (i < F)%N -> perm_eq q (iota 0 n) ->
  agreement fl n T cstd (sn b) (sn i) q = Some (c (\sum_(s < n) \sum_(s' < n) (if s == s' :> nat then 1 else -1) *
     (rmean T (fun t => x b (nth 0%N q s) t * x i s' t) / fl (d s)))).
Proof.
move=> bF iF pq; rewrite /agreement.
rewrite (cnsum_some (g := fun s : nat => \sum_(s' < n) (if s == s' :> nat then 1 else -1) *
     (rmean T (fun t => x b (nth 0%N q s) t * x i s' t) / fl (d s)))); first by rewrite sum_iota.
move=> s; rewrite mem_iota => /= sl.
rewrite (cnsum_some (g := fun s' : nat => (if s == s' :> nat then 1 else -1) *
     (rmean T (fun t => x b (nth 0%N q s) t * x i s' t) / fl (d s)))); first by rewrite sum_iota.
move=> s'; rewrite mem_iota => /= sl'.
rewrite cE // /nmean (Tn T0) (cnsum_some (g := fun t => x b (nth 0%N q s) t * x i s' t)); last first.
  by move=> t; rewrite mem_iota => /= tT; rewrite !snE ?(perm_nth_lt pq) //= cM.
rewrite /= /cndiv; case: (fl _ =P 0) => [e|_]; first by case: (fz sl).
rewrite -cM -cV -cM sum_iota /rmean; case: ifP => _; first by rewrite mul1r.
by rewrite /= mulN1r cN.
Qed.
Lemma local_score_real b q : (b < F)%N -> perm_eq q (iota 0 n) ->
  cnsum [seq agreement fl n T cstd (sn b) (sn i) q | i <- neighbours F b] = Some (c (local_score b q)).
Proof.
move=> bF pq; pose g (i : nat) : R := \sum_(s < n) \sum_(s' < n) (if s == s' :> nat then 1 else -1) *
     (rmean T (fun t => x b (nth 0%N q s) t * x i s' t) / fl (d s)).
rewrite neighboursE (cnsum_some (g := g)).
  by rewrite big_filter -[iota 0 F](_ : index_iota 0 F = _) ?(big_mkord (near b) g) // /index_iota subn0.
by move=> i; rewrite mem_filter mem_iota => /andP[_ iF]; apply: agreement_bins.
Qed.
(** One step of a local iteration permutes the rows of bin [b] only, in the sequence, its normalised version and every
    extra argument alike, by the permutation with the largest score, lexicographically first among those. *)
Theorem C11_local_choice ls h lY cs b (st' := local_step fl F n T cstd ls (GState h lY sn cs) b) :
  (b < F)%N -> uniq (lY :: ls) -> all (fun l => l < size h)%N (lY :: ls) ->
  exists p, [/\ perm_eq p (iota 0 n), g_seq st' = lY,
    forall i s t, g_norm st' i s t = sn i (if i == b then nth 0%N p s else s) t,
    forall l i s r, l \in lY :: ls -> get (rd (g_heap st') l) i s r = get (rd h l) i (if i == b then nth 0%N p s else s) r &
    forall q, perm_eq q (iota 0 n) ->
      (local_score b q <= local_score b p)%coqR /\ (local_score b q = local_score b p -> q = p \/ lexltb p q)].
Proof.
move=> bF u al; exists (local_perm fl n T sn cstd (neighbours F b) b); rewrite /st' /local_step /=.
set p := local_perm _ _ _ _ _ _ _; split=> //.
- exact: argmax_perm_ok.
- by move=> i s t; case: eqP => [->|].
- move=> l i s r ll.
  have [_ rdE] := @permute_bins_atP b p h (lY :: ls) u al.
  have := rdE l; rewrite ll [permute_bins_at _ _ _ _]/= => ->; rewrite /permute_bin /=; by case: eqP => [->|].
- rewrite /p /local_perm (argmax_best (g := local_score b)); first exact: (@best_perm_first n (local_score b)).
  by move=> q; rewrite permutations_mem => pq; exact: local_score_real.
Qed.
End Local.

(** one step on bin 2 of the data of [sx_Y] (three bins): its sources are exchanged *)
Example C11_local_instance :
  let st := local_step idR 3 2 2 (fun _ => Some 1) [:: 1%N] (GState sx_h 0%N (fun b s t => Some (c (sx_y b s t))) None) 2 in
  forall s t, (s < 2)%N -> g_norm st 2%N s t = Some (c (sx_y 2 (1 - s)%N t)).
Proof.
have [|||||||p [pp _ nE _ best]] := @C11_local_choice idR 3 2 2 sx_y (fun _ => 1) (fun b s t => Some (c (sx_y b s t)))
  (fun _ => Some 1) _ _ _ _ [:: 1%N] sx_h 0%N None 2%N => //.
  by move=> _ _; apply/eqP; exact: oner_neq0.
have sc q : perm_eq q (iota 0 2) -> local_score idR 3 2 2 sx_y (fun _ => 1) 2 q = if q == [:: 0; 1]%N then (-4)%coqR else 4%coqR.
  rewrite -permutations_mem /permutations /= !inE => /orP[]/eqP -> /=.
    rewrite /local_score big_mkcond !big_ord_recl !big_ord0 !addr0 /near /= !rmean2 /idR /sx_y /=.
    by rewrite ?invr1; toR; lra.
  rewrite /local_score big_mkcond !big_ord_recl !big_ord0 !addr0 /near /= !rmean2 /idR /sx_y /=.
  by rewrite ?invr1; toR; lra.
have p2 : p = [:: 1; 0]%N.
  have [] := best [:: 1; 0]%N isT; rewrite !sc //=.
  by move: pp; rewrite -permutations_mem /permutations /= !inE => /orP[]/eqP -> //= h; exfalso; lra.
by move=> st s t s2; rewrite nE /= p2; case: s s2 => [|[|//]] _.
Qed.
Print Assumptions C11_local_choice.
