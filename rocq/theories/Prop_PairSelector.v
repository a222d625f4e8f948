(** Properties C06-C08: pair selectors (ssspy/utils/select_pair.py). *)
From Coq Require Import List ZArith Lia Sorting.Sorted.
From Verif Require Import PairSelector PairSelectorProofs.
Import ListNotations.
Local Open Scope Z_scope.

(** C06: for at least two sources and a positive step the generator never
    raises, yields [ceil(stop/step)] pairs (see [C06_count]), every pair
    consists of two different valid source indices, is ordered when sort=True,
    does not depend on sort as an unordered pair, and the k-th pair is, as an
    unordered pair, {step*k mod n, step*k+1 mod n}. *)
Theorem C06_sequential :
  forall n_sources stop step sort ys x, 2 <= n_sources -> 0 < step ->
    sequential_pair_selector n_sources stop step sort = (ys, x) ->
    x = None /\
    Forall (fun p => 0 <= fst p < n_sources /\ 0 <= snd p < n_sources /\ fst p <> snd p) ys /\
    (sort = true -> Forall (fun p => fst p < snd p) ys) /\
    Forall2 same_pair ys (fst (sequential_pair_selector n_sources stop step false)) /\
    (forall k, (k < length ys)%nat ->
       same_pair (nth k ys (0, 0))
         ((step * Z.of_nat k) mod n_sources, (step * Z.of_nat k + 1) mod n_sources)).
Proof.
  intros n stop step sort ys x Hn Hs H.
  destruct (sequential_ok n stop step sort ys x Hn Hs H) as (H1 & _ & H3 & H4 & H5 & H6). auto.
Qed.

Theorem C06_count :
  forall n_sources stop step sort, 2 <= n_sources -> 0 < step -> 0 <= stop ->
    let k := Z.of_nat (length (fst (sequential_pair_selector n_sources (Some stop) step sort))) in
    step * (k - 1) < stop <= step * k.
Proof.
  intros n stop step sort Hn Hs Hst k.
  destruct (sequential_pair_selector n (Some stop) step sort) as [ys x] eqn:H.
  destruct (sequential_ok n (Some stop) step sort ys x Hn Hs H) as (_ & H2 & _).
  unfold k. cbn [fst]. rewrite H2. exact (range_len_spec stop step Hs Hst).
Qed.

(** C06, default arguments: n_sources pairs and every source takes part. *)
Theorem C06_default_covers :
  forall n_sources sort ys x, 2 <= n_sources ->
    sequential_pair_selector n_sources None 1 sort = (ys, x) ->
    Z.of_nat (length ys) = n_sources /\
    (forall s, 0 <= s < n_sources ->
       exists p, (In p ys /\ fst p = s) \/ (In p ys /\ snd p = s)).
Proof. intros n sort ys x Hn H. exact (sequential_default n sort ys x Hn H). Qed.

Example C06_nonvacuous :
  sequential_pair_selector 4 None 1 true = ([(0, 1); (1, 2); (2, 3); (0, 3)], None).
Proof. reflexivity. Qed.

(** A single source is accepted by the code but paired with itself. *)
Theorem C06_one_source_refuted :
  exists ys, sequential_pair_selector 1 None 1 false = (ys, None) /\ In (0, 0) ys.
Proof. exists [(0, 0)]. split; [reflexivity|left; reflexivity]. Qed.

(** C07: the docstring's sequence for n_sources=6, step=2 is not what is
    yielded; the code stops after one sweep. *)
Definition documented_step2 : list (Z * Z) := [(0, 1); (2, 3); (4, 5); (0, 1); (2, 3); (4, 5)].
Theorem C07_documented_step_refuted :
  fst (sequential_pair_selector 6 None 2 false) <> documented_step2 /\
  fst (sequential_pair_selector 6 None 2 false) = [(0, 1); (2, 3); (4, 5)].
Proof. split; [discriminate|reflexivity]. Qed.

(** ... and in general, with step=2, every even n_sources gives half as many
    pairs as the documented n_sources. *)
Theorem C07_step2_count :
  forall h sort, 1 <= h ->
    Z.of_nat (length (fst (sequential_pair_selector (2 * h) None 2 sort))) = h.
Proof.
  intros h sort Hh. destruct (sequential_pair_selector (2 * h) None 2 sort) as [ys x] eqn:H.
  destruct (sequential_ok (2 * h) None 2 sort ys x ltac:(lia) ltac:(lia) H) as (_ & H2 & _).
  cbn [fst]. rewrite H2. pose proof (range_len_spec (2 * h) 2 ltac:(lia) ltac:(lia)). cbv zeta in *. lia.
Qed.

(** C08 *)
Theorem C08_combination :
  forall n_sources sort, 0 <= n_sources ->
    (forall a b, In (a, b) (combination_pair_selector n_sources sort) <-> 0 <= a < b /\ b < n_sources) /\
    NoDup (combination_pair_selector n_sources sort) /\
    StronglySorted (fun p q => fst p < fst q \/ (fst p = fst q /\ snd p < snd q))
      (combination_pair_selector n_sources sort) /\
    2 * Z.of_nat (length (combination_pair_selector n_sources sort)) = n_sources * (n_sources - 1).
Proof. intros n sort Hn. exact (combination_ok n sort Hn). Qed.

Example C08_nonvacuous :
  combination_pair_selector 4 true = [(0, 1); (0, 2); (0, 3); (1, 2); (1, 3); (2, 3)].
Proof. reflexivity. Qed.

Print Assumptions C06_sequential.
Print Assumptions C06_count.
Print Assumptions C06_default_covers.
Print Assumptions C06_one_source_refuted.
Print Assumptions C07_documented_step_refuted.
Print Assumptions C07_step2_count.
Print Assumptions C08_combination.
