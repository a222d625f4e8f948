(** C09-C12: permutation solvers (/repo/ssspy/algorithm/permutation_alignment.py) *)
From Coq Require Import Reals Lra FunctionalExtensionality.
From mathcomp Require Import all_ssreflect all_algebra.
From Verif Require Import RStruct MxC CxR NpLin RealLemmas PermAlign PermAlignProofs.
Import Order.TTheory GRing.Theory Num.Theory.
Set Implicit Arguments.
Unset Strict Implicit.
Unset Printing Implicit Defensive.
Local Open Scope ring_scope.

(** [a'] holds the rows of [a], rearranged bin by bin: in bin [b] row [s] of [a'] is row
    [(pi b)_s] of [a], entry for entry, and [pi b] is a permutation of the source indices. *)
Definition rows_permuted (pi : nat -> seq nat) (a a' : arr) : Prop :=
  shape a' = shape a /\
  forall b s r, (b < dim0 a)%N -> (s < dim1 a)%N -> (r < trail a)%N ->
    get a' b s r = get a b (nth 0%N (pi b) s) r.
Definition permutations_of (n : nat) (pi : nat -> seq nat) : Prop := forall b, perm_eq (pi b) (iota 0 n).
(** arrays [ls'] in [h'] are the arrays [ls] of [h], all rearranged by the same permutations *)
Definition consistently_permuted n (h : heap) (ls : seq loc) (h' : heap) (ls' : seq loc) : Prop :=
  size ls' = size ls /\
  exists pi, permutations_of n pi /\
    forall k, (k < size ls)%N -> rows_permuted pi (rd h (nth 0%N ls k)) (rd h' (nth 0%N ls' k)).
Definition valid (h : heap) (ls : seq loc) : Prop := forall l, l \in ls -> (l < size h)%N.
Definition bins_and_sources_agree (h : heap) (seqn : loc) (args : seq loc) : Prop :=
  forall l, l \in args -> take 2 (shape (rd h l)) = take 2 (shape (rd h seqn)).

(** ** Preparation: copies *)
Definition prep (h : heap) (seqn : loc) (args : seq loc) (ow : bool) : heap * loc * seq loc :=
  if ow then (h, seqn, args)
  else let: (h', l) := alloc h (rd h seqn) in let: (h'', ls') := copies h' args in (h'', l, ls').
Lemma prepP h seqn args (ow : bool) : valid h (seqn :: args) -> (ow -> uniq (seqn :: args)) ->
  let: (h1, lY, ls) := prep h seqn args ow in
  [/\ uniq (lY :: ls), all (fun l => l < size h1)%N (lY :: ls),
      map (rd h1) (lY :: ls) = map (rd h) (seqn :: args),
      (size h <= size h1)%N /\ (forall l, (l < size h)%N -> rd h1 l = rd h l) &
      if ow then [/\ h1 = h, lY = seqn & ls = args] else forall l, l \in lY :: ls -> (size h <= l)%N].
Proof.
move=> v u; rewrite /prep; case: ow u => [/(_ isT) u|_].
  by split=> //; apply/allP => l /v.
rewrite /alloc; have := @copiesP (rcons h (rd h seqn)) args.
case: (copies _ _) => h2 ls2 H.
have [|s1 r1 m1 u1 a1] := H; first by apply/allP => l la; rewrite size_rcons ltnS ltnW // v // inE la orbT.
rewrite size_rcons in s1 r1 a1.
have rh l : (l < size h)%N -> rd h2 l = rd h l by move=> lh; rewrite r1 ?rd_rcons // ltnW.
split=> //=.
- rewrite u1 andbT; apply/negP => /(allP a1); by rewrite ltnn.
- by rewrite s1; apply: sub_all a1 => l /andP[].
- rewrite m1 r1 // rd_new; congr cons; apply/eq_in_map => l la; rewrite rd_rcons // v // inE la orbT //.
- by split=> //; apply: ltnW.
- by move=> l; rewrite inE => /orP[/eqP ->|/(allP a1)/andP[/ltnW]].
Qed.

Lemma consistent_of n h ls h1 h' ls' pi :
  map (rd h1) ls' = map (rd h) ls -> all_perms n pi -> (forall l, l \in ls -> dim1 (rd h l) = n) ->
  rearranged_in_at n pi h1 ls' h' ls' -> consistently_permuted n h ls h' ls'.
Proof.
move=> mE hp dE [_ hr]; have sz : size ls' = size ls by have := congr1 size mE; rewrite !size_map.
split=> //; exists pi; split=> // k ks.
have rE : rd h1 (nth 0%N ls' k) = rd h (nth 0%N ls k).
  by have := congr1 (fun s => nth arr0 s k) mE; rewrite !(nth_map 0%N) ?sz.
have := hr k; rewrite sz rE => /(_ ks)[sh e]; split=> // b s r _ sn rt.
by apply: e => //; rewrite -(dE (nth 0%N ls k)) ?mem_nth.
Qed.
Lemma rearranged_at_in n pi h ls h' ls' : rearranged_at n pi h ls h' ls' -> rearranged_in_at n pi h ls h' ls'.
Proof. by case=> sz hr; split=> // k ks; have [sh e] := hr k ks; split=> // b s r sn _; exact: e. Qed.
Lemma rearranged_at_id n h ls : rearranged_at n (fun _ => iota 0 n) h ls h ls.
Proof. by split=> // k ks; exact: rearranged_id. Qed.
Lemma dim1_agree h seqn args : bins_and_sources_agree h seqn args ->
  forall l, l \in seqn :: args -> dim1 (rd h l) = dim1 (rd h seqn).
Proof.
move=> ag l; rewrite inE => /orP[/eqP ->//|/ag e]; rewrite /dim1.
by rewrite -(nth_take 0%N (n0 := 2)) // e nth_take.
Qed.
Lemma sameP h seqn args : reflect (bins_and_sources_agree h seqn args) (all (fun l => same_dims (rd h l) (rd h seqn)) args).
Proof. by apply: (iffP allP) => H l /H; [move/eqP|move=> e; apply/eqP]. Qed.

Section C09.
Variables (fl : R -> R) (argsort : nat -> (nat -> num) -> seq nat).
Local Notation solver := (corr_solver fl argsort).

Lemma corr_solverE h seqn args (ow : bool) : size (shape (rd h seqn)) = 3%N -> bins_and_sources_agree h seqn args ->
  solver h seqn args ow =
  let: (h1, lY, ls) := prep h seqn args ow in
  let Y := rd h1 lY in
  if argsort (dim0 Y) (correlation fl Y) is b0 :: bins then
    Done (lY, ls) (corr_loop (dim1 Y) (nth 0%N (shape Y) 2) (ampl fl Y) lY ls bins (ampl fl Y b0) h1)
  else Raise IndexError h1.
Proof. by move=> sh /sameP ag; rewrite /corr_solver sh eqxx ag /=. Qed.

(** C09: whenever the solver returns, the main sequence and every extra argument are rearranged
    by one and the same family of permutations, one for each bin, whatever the data and whatever
    [argsort] returns; all other arrays of the program are untouched.  With [overwrite=True] the
    arguments must be different arrays. *)
Theorem C09_consistent h seqn args (ow : bool) lY ls h' :
  valid h (seqn :: args) -> (ow -> uniq (seqn :: args)) ->
  solver h seqn args ow = Done (lY, ls) h' ->
  consistently_permuted (dim1 (rd h seqn)) h (seqn :: args) h' (lY :: ls) /\
  forall l, (l < size h)%N -> l \notin lY :: ls -> rd h' l = rd h l.
Proof.
move=> v u.
case: (boolP (size (shape (rd h seqn)) == 3%N)) => [/eqP sh|sh]; last by rewrite /corr_solver sh.
case: (sameP h seqn args) => [ag|/sameP ag]; last by rewrite /corr_solver sh eqxx /= ag.
rewrite corr_solverE //; have := prepP v u; case: (prep _ _ _ _) => [[h1 lY1] ls1] [u1 a1 m1 [s1 f1] _]; cbv zeta.
case: (argsort (dim0 (rd h1 lY1)) (correlation fl (rd h1 lY1))) => [//|b0 bins] [<- <- <-].
have YE : rd h1 lY1 = rd h seqn by case: m1.
have [pi [hp hr sz fr]] := corr_loopP (nth 0%N (shape (rd h1 lY1)) 2) (ampl fl (rd h1 lY1)) bins (ampl fl (rd h1 lY1) b0)
  u1 a1 (all_perms_id (dim1 (rd h1 lY1))) (rearranged_at_id _ h1 _).
split; last by move=> l lh ll; rewrite fr // f1.
rewrite YE in hp hr; rewrite YE; apply: (consistent_of m1 hp); last exact: rearranged_at_in hr.
exact: dim1_agree.
Qed.

(** C09: the solver returns whenever there is a bin and the shapes agree, *)
Theorem C09_total h seqn args (ow : bool) : valid h (seqn :: args) -> (ow -> uniq (seqn :: args)) ->
  (forall n f, size (argsort n f) = n) ->
  size (shape (rd h seqn)) = 3%N -> bins_and_sources_agree h seqn args -> (0 < dim0 (rd h seqn))%N ->
  exists lY ls h', solver h seqn args ow = Done (lY, ls) h'.
Proof.
move=> v u asz sh ag F0; rewrite corr_solverE //; have := prepP v u.
case: (prep _ _ _ _) => [[h1 lY1] ls1] [_ _ m1 _ _]; have YE : rd h1 lY1 = rd h seqn by case: m1.
cbv zeta; rewrite YE; have := asz (dim0 (rd h seqn)) (correlation fl (rd h seqn)).
by case: (argsort (dim0 (rd h seqn)) (correlation fl (rd h seqn))) => [e|b bs _]; [rewrite -e in F0|eauto].
Qed.
(** and otherwise fails before anything is modified. *)
Theorem C09_rejects h seqn args (ow : bool) : size (shape (rd h seqn)) = 3%N -> ~ bins_and_sources_agree h seqn args ->
  solver h seqn args ow = Raise ValueError h.
Proof. by move=> sh ag; rewrite /corr_solver sh eqxx /=; case: sameP => // /ag. Qed.
Theorem C09_rejects_ndim h seqn args (ow : bool) : size (shape (rd h seqn)) <> 3%N ->
  solver h seqn args ow = Raise AssertionError h.
Proof. by move=> sh; rewrite /corr_solver; case: eqP. Qed.

(** ** C10 *)
(** normalised amplitudes of the data *)
Definition amplitude (Y : arr) b s t : R :=
  (cabs (get Y b s t) / fl (R_sqrt.sqrt (\sum_(s' < dim1 Y) cabs (get Y b s' t) ^+ 2)))%R.
(** correlation between the sources of a bin *)
Definition inter_source (Y : arr) b : R :=
  \sum_(s < dim1 Y) \sum_(s' < dim1 Y) \sum_(t < nth 0%N (shape Y) 2) amplitude Y b s t * amplitude Y b s' t.
(** numpy's contract: a permutation of the positions which sorts the keys when they are numbers *)
Definition argsort_contract : Prop := forall n f, perm_eq (argsort n f) (iota 0 n) /\
  forall g : nat -> R, (forall i, (i < n)%N -> f i = Some (g i)) ->
    pairwise (fun i j => Rleb (g i) (g j)) (argsort n f).
(** alignment of the rows [a], permuted by [q], with the reference rows [ref] *)
Definition alignment (n T : nat) (ref a : nat -> nat -> R) (q : seq nat) : R :=
  \sum_(s < n) \sum_(t < T) ref s t * a (nth 0%N q s) t.
(** [p] is best, and lexicographically first among the best *)
Definition first_best_alignment n T ref a (p : seq nat) : Prop :=
  forall q, perm_eq q (iota 0 n) -> (alignment n T ref a q <= alignment n T ref a p)%coqR /\
    (alignment n T ref a q = alignment n T ref a p -> q = p \/ lexltb p q).

(** C10: there are an order of the bins, by increasing correlation between the sources and meeting
    each bin exactly once, and permutations of the sources, such that the first bin is kept as it
    is, the permutation of every later bin is the best against the sum of the aligned amplitudes
    of all earlier bins (first one in lexicographic order if several are best), and the result is
    the data rearranged by these permutations.  The hypothesis on the flooring function only asks
    for the norms to be nonzero after flooring. *)
Theorem C10_greedy h seqn args (ow : bool) lY ls h' (Y := rd h seqn) (F := dim0 Y) (n := dim1 Y) (T := nth 0%N (shape Y) 2) :
  valid h (seqn :: args) -> (ow -> uniq (seqn :: args)) -> argsort_contract ->
  (forall b t, (b < F)%N -> (t < T)%N -> fl (R_sqrt.sqrt (\sum_(s' < dim1 Y) cabs (get Y b s' t) ^+ 2)) <> 0) ->
  solver h seqn args ow = Done (lY, ls) h' ->
  exists order pi,
    [/\ perm_eq order (iota 0 F), pairwise (fun i j => Rleb (inter_source Y i) (inter_source Y j)) order &
    [/\ permutations_of n pi,
     forall k, (k < size (seqn :: args))%N ->
       rows_permuted pi (rd h (nth 0%N (seqn :: args) k)) (rd h' (nth 0%N (lY :: ls) k)),
     pi (nth 0%N order 0) = iota 0 n &
     forall k, (0 < k < F)%N -> first_best_alignment n T
       (fun s t => \sum_(l < k) amplitude Y (nth 0%N order l) (nth 0%N (pi (nth 0%N order l)) s) t)
       (amplitude Y (nth 0%N order k)) (pi (nth 0%N order k))]].
Proof.
move=> v u ac nz.
case: (boolP (size (shape (rd h seqn)) == 3%N)) => [/eqP sh|sh]; last by rewrite /corr_solver sh.
case: (sameP h seqn args) => [ag|/sameP ag]; last by rewrite /corr_solver sh eqxx /= ag.
rewrite corr_solverE //; have := prepP v u; case: (prep _ _ _ _) => [[h1 lY1] ls1] [u1 a1 m1 [s1 f1] _]; cbv zeta.
have YE : rd h1 lY1 = Y by case: m1.
rewrite YE; set ord := argsort (dim0 Y) (correlation fl Y); case Eo: ord => [//|b0 bins] [<- <- <-].
have [pe srt] : perm_eq ord (iota 0 F) /\ _ := ac (dim0 Y) (correlation fl Y).
have aE b s t : (b < F)%N -> (t < T)%N -> ampl fl Y b s t = Some (amplitude Y b s t).
  by move=> bF tT; rewrite /ampl /ndiv; case: eqP => [e|_ //]; case: (nz b t bF tT).
have memF b : b \in b0 :: bins -> (b < F)%N by rewrite -Eo (perm_mem pe) mem_iota.
have ub : uniq (b0 :: bins) by rewrite -Eo (perm_uniq pe) iota_uniq.
have [pi [hp hr pin best]] := @corr_loop_best n T (ampl fl Y) lY1 ls1 bins (ampl fl Y b0) h1 (fun _ => iota 0 n)
  h1 (lY1 :: ls1) (amplitude Y) (amplitude Y b0) u1 a1 (all_perms_id n) (rearranged_at_id _ h1 _)
  (andP ub).2 (fun _ _ => erefl) (fun b s t bb _ tT => aE b s t (memF b (mem_behead (s := b0 :: bins) bb)) tT)
  (fun s t _ tT => aE b0 s t (memF b0 (mem_head b0 bins)) tT).
exists (b0 :: bins), pi; split; first by rewrite -Eo.
  rewrite -Eo; apply: srt => b bF; rewrite /correlation /inter_source.
  apply: (nsum_some (g := fun s => \sum_(s' < dim1 Y) \sum_(t < nth 0%N (shape Y) 2) amplitude Y b s t * amplitude Y b s' t)) => s _.
  apply: (nsum_some (g := fun s' => \sum_(t < nth 0%N (shape Y) 2) amplitude Y b s t * amplitude Y b s' t)) => s' _.
  by apply: (nsum_some (g := fun t => amplitude Y b s t * amplitude Y b s' t)) => t tT; rewrite !aE.
have b0n : b0 \notin bins by case/andP: ub.
split=> //.
- move=> k ks; have [sz hr'] := rearranged_at_in hr.
  have szE : size (lY1 :: ls1) = size (seqn :: args) by have := congr1 size m1; rewrite !size_map.
  have rE : rd h1 (nth 0%N (lY1 :: ls1) k) = rd h (nth 0%N (seqn :: args) k).
    by have := congr1 (fun s => nth arr0 s k) m1; rewrite !(nth_map 0%N) ?szE.
  have := hr' k; rewrite szE rE => /(_ ks)[sh' e]; split=> // b s r _ sn rt.
  by apply: e => //; rewrite /n -(dim1_agree ag (l := nth 0%N (seqn :: args) k)) ?mem_nth.
- by rewrite /= pin.
- case=> [//|k] /= kF; have kb : (k < size bins)%N by move: (perm_size pe); rewrite Eo size_iota /= => e; rewrite -ltnS e.
  have := best k kb; rewrite /first_best_alignment /first_best.
  set r1 := (fun s t : nat => _ + _); set r2 := (fun s t : nat => \sum_(l < k.+1) _) => B.
  move=> q pq; have := B q pq; rewrite /alignment /align_val.
  have rr s t : (s < n)%N -> r2 s t = r1 s t.
    by move=> sn; rewrite /r2 big_ord_recl /= pin // nth_iota.
  have sE q' : \sum_(s < n) \sum_(t < T) r2 s t * amplitude Y (nth 0%N bins k) (nth 0%N q' s) t =
    \sum_(s < n) \sum_(t < T) r1 s t * amplitude Y (nth 0%N bins k) (nth 0%N q' s) t.
    by apply: eq_bigr => s _; apply: eq_bigr => t _; rewrite rr.
  by rewrite !sE.
Qed.
End C09.

(** ** C11 *)
Section C11.
Variable fl : R -> R.
Local Notation solver := (score_solver fl).

Lemma score_solverE h seqn args gi li mc ow : size (shape (rd h seqn)) = 3%N -> mc = false -> bins_and_sources_agree h seqn args ->
  solver h seqn args gi li mc ow =
  let: (h1, lY, ls) := prep h seqn args ow in
  let Y := rd h1 lY in
  let: (F, n, T) := (dim0 Y, dim1 Y, nth 0%N (shape Y) 2) in
  let st1 := iter gi (global_step fl F n T ls) (GState h1 lY (normalized Y) None) in
  if (li == 0%N) || (F == 0%N) then Done (g_seq st1, ls) (g_heap st1)
  else if g_cstd st1 is Some cstd then
    let st2 := iter li (local_iter_once fl F n T cstd ls) st1 in
    Done (g_seq st2, ls) (g_heap st2)
  else Raise UnboundLocalError (g_heap st1).
Proof. by move=> sh -> /sameP ag; rewrite /score_solver sh eqxx ag /=. Qed.

Lemma good_start h1 lY1 ls1 n sn : uniq (lY1 :: ls1) -> all (fun l => l < size h1)%N (lY1 :: ls1) ->
  good n h1 lY1 ls1 ls1 (GState h1 lY1 sn None).
Proof.
by move=> u a; split=> //; exists (fun _ => iota 0 n); split=> //; split=> // k _; exact: rearranged_in_id.
Qed.

Lemma score_solver_inv h seqn args gi li mc (ow : bool) lY ls h' :
  valid h (seqn :: args) -> (ow -> uniq (seqn :: args)) -> solver h seqn args gi li mc ow = Done (lY, ls) h' ->
  let: (h1, lY1, ls1) := prep h seqn args ow in
  [/\ ls = ls1, bins_and_sources_agree h seqn args,
      exists2 pi, all_perms (dim1 (rd h seqn)) pi & rearranged_in_at (dim1 (rd h seqn)) pi h1 (lY1 :: ls1) h' (lY :: ls1),
      (0 < gi)%N -> (size h1 <= lY)%N &
      (gi = 0%N -> lY = lY1) /\ forall l, (l < size h1)%N -> l \notin lY :: ls1 -> rd h' l = rd h1 l].
Proof.
move=> v u.
case: (boolP (size (shape (rd h seqn)) == 3%N)) => [/eqP sh|sh]; last by rewrite /score_solver sh.
case: mc; first by rewrite /score_solver sh eqxx.
case: (sameP h seqn args) => [ag|/sameP ag]; last by rewrite /score_solver sh eqxx /= ag.
rewrite score_solverE //; have := prepP v u; case: (prep _ _ _ _) => [[h1 lY1] ls1] [u1 a1 m1 [s1 f1] _]; cbv zeta.
have YE : rd h1 lY1 = rd h seqn by case: m1.
rewrite YE; set Y := rd h seqn; set n := dim1 Y; set T := nth _ _ _; set F := dim0 Y; cbv beta iota.
have [g1 g2 g3 g4] := global_iterP fl F T gi (good_start n (normalized Y) u1 a1).
set st1 := iter gi _ _ in g1 g2 g3 g4 *.
have start : gi = 0%N -> g_seq st1 = lY1 by rewrite /st1 => ->.
case: ifP => [_ [<- <- <-]|_].
  case: g1 => ug ag1 [pi [hp hr]]; split=> //; [by exists pi|by move=> /g2[]|split=> // l lh].
  by rewrite inE negb_or => /andP[_ ll]; apply: g4.
case: (g_cstd st1) => [cstd|//]; have [l1 l2 l3 l4] := local_iterP fl F T cstd li g1.
set st2 := iter li _ _ in l1 l2 l3 l4 *; case=> <- <- <-.
case: (l1) => ug ag1 [pi [hp hr]]; rewrite l2 in hr *; split=> //; first by exists pi; rewrite // l2 in hr *.
- by move=> /g2[].
- split=> // l lh ll; rewrite l4 // g4 //; by move: ll; rewrite inE negb_or => /andP[].
Qed.

(** C11: whenever the solver returns, the returned sequence and every extra argument are the
    given ones rearranged by one and the same family of permutations, for every number of
    iterations.  Arrays with no trailing dimension are excluded: for them the code calls
    [np.repeat] with the floating-point number [np.prod(())]. *)
Theorem C11_consistent h seqn args gi li mc (ow : bool) lY ls h' :
  valid h (seqn :: args) -> (ow -> uniq (seqn :: args)) ->
  (forall l, l \in args -> (2 < size (shape (rd h l)))%N) ->
  solver h seqn args gi li mc ow = Done (lY, ls) h' ->
  consistently_permuted (dim1 (rd h seqn)) h (seqn :: args) h' (lY :: ls) /\
  forall l, (l < size h)%N -> l \notin lY :: ls -> rd h' l = rd h l.
Proof.
move=> v u _ E; have := score_solver_inv v u E; have := prepP v u.
case: (prep _ _ _ _) => [[h1 lY1] ls1] [u1 a1 m1 [s1 f1] _] [-> ag [pi hp hr] _ [_ fr]].
split; last by move=> l lh ll; rewrite fr ?f1 // (leq_trans lh).
have [sz hr'] := hr.
have szE : size (lY1 :: ls1) = size (seqn :: args) by have := congr1 size m1; rewrite !size_map.
split; first by rewrite -szE.
exists pi; split=> // k ks.
have rE : rd h1 (nth 0%N (lY1 :: ls1) k) = rd h (nth 0%N (seqn :: args) k).
  by have := congr1 (fun s => nth arr0 s k) m1; rewrite !(nth_map 0%N) ?szE.
have := hr' k; rewrite [size (lY :: _)]szE rE => /(_ ks)[sh' e]; split=> // b s r _ sn rt.
by apply: e => //; rewrite -(dim1_agree ag (l := nth 0%N (seqn :: args) k)) ?mem_nth.
Qed.

(** C11: with at least one global iteration (the default) and agreeing shapes it returns. *)
Theorem C11_total h seqn args gi li (ow : bool) : (0 < gi)%N -> valid h (seqn :: args) -> (ow -> uniq (seqn :: args)) ->
  size (shape (rd h seqn)) = 3%N -> bins_and_sources_agree h seqn args ->
  exists lY ls h', solver h seqn args gi li false ow = Done (lY, ls) h'.
Proof.
move=> g0 v u sh ag; rewrite score_solverE //; have := prepP v u.
case: (prep _ _ _ _) => [[h1 lY1] ls1] [u1 a1 m1 [s1 f1] _]; cbv zeta.
have YE : rd h1 lY1 = rd h seqn by case: m1.
rewrite YE; set Y := rd h seqn; set n := dim1 Y; set T := nth _ _ _; set F := dim0 Y; cbv beta iota.
have [g1 g2 g3 g4] := global_iterP fl F T gi (good_start n (normalized Y) u1 a1).
set st1 := iter gi _ _ in g1 g2 g3 g4 *.
case: ifP => _; first by eauto.
by have [] := g2 g0; case: (g_cstd st1) => // cstd _ _; eauto.
Qed.
(** C11: local iterations without a global one fail. *)
Theorem C11_local_only h seqn args li (ow : bool) : (0 < li)%N -> size (shape (rd h seqn)) = 3%N ->
  valid h (seqn :: args) -> (ow -> uniq (seqn :: args)) ->
  bins_and_sources_agree h seqn args -> (0 < dim0 (rd h seqn))%N ->
  exists h', solver h seqn args 0 li false ow = Raise UnboundLocalError h'.
Proof.
move=> l0 sh v u ag F0; rewrite score_solverE //; have := prepP v u.
case: (prep _ _ _ _) => [[h1 lY1] ls1] [u1 a1 m1 [s1 f1] _]; cbv zeta.
have -> : rd h1 lY1 = rd h seqn by case: m1.
by case: li l0 => // li _; case: (dim0 _) F0 => // F _ /=; eauto.
Qed.
Theorem C11_rejects h seqn args gi li (ow : bool) : size (shape (rd h seqn)) = 3%N -> ~ bins_and_sources_agree h seqn args ->
  solver h seqn args gi li false ow = Raise ValueError h.
Proof. by move=> sh ag; rewrite /score_solver sh eqxx /=; case: sameP => // /ag. Qed.

(** ** C12, score-based solver *)
(** with [overwrite=False] no existing array is modified and the results are new arrays *)
Theorem C12_score_no_overwrite h seqn args gi li mc lY ls h' : valid h (seqn :: args) ->
  solver h seqn args gi li mc false = Done (lY, ls) h' ->
  (forall l, (l < size h)%N -> rd h' l = rd h l) /\ forall l, l \in lY :: ls -> (size h <= l)%N.
Proof.
move=> v E; have u : false -> uniq (seqn :: args) by [].
have := score_solver_inv v u E; have := prepP v u.
case: (prep _ _ _ _) => [[h1 lY1] ls1] [u1 a1 m1 [s1 f1] new] [-> ag _ g1 [g2 fr]].
have nw l : l \in lY :: ls1 -> (size h <= l)%N.
  rewrite inE => /orP[/eqP ->|ll]; last by apply: new; rewrite inE ll orbT.
  case: (posnP gi) => [/g2 ->|/g1]; [by apply: new; rewrite mem_head|exact: leq_trans].
split=> // l lh; rewrite fr ?f1 // ?(leq_trans lh) //.
by apply/negP => /nw; rewrite leqNgt lh.
Qed.
(** with [overwrite=True] the extra arguments hold the returned values, *)
Theorem C12_score_overwrite_args h seqn args gi li mc lY ls h' : valid h (seqn :: args) -> uniq (seqn :: args) ->
  solver h seqn args gi li mc true = Done (lY, ls) h' -> ls = args.
Proof. by move=> v u E; have [-> //] := score_solver_inv v (fun _ => u) E. Qed.
(** but the main sequence does not: with at least one global iteration the result is a new array
    and the given one keeps its old contents. *)
Theorem C12_score_sequence_kept h seqn args gi li mc lY ls h' : valid h (seqn :: args) -> uniq (seqn :: args) ->
  (0 < gi)%N -> solver h seqn args gi li mc true = Done (lY, ls) h' ->
  lY <> seqn /\ rd h' seqn = rd h seqn.
Proof.
move=> v u g0 E; have [_ _ _ g1 [_ fr]] := score_solver_inv v (fun _ => u) E.
have sl : (seqn < size h)%N by apply: v; rewrite mem_head.
have ne : lY != seqn by apply/negP => /eqP e; have := g1 g0; rewrite /= e leqNgt sl.
split; first exact/eqP.
by apply: fr => //; rewrite inE negb_or eq_sym ne; case/andP: u.
Qed.
End C11.

(** ** C12, correlation-based solver *)
Theorem C12_corr_no_overwrite fl argsort h seqn args lY ls h' : valid h (seqn :: args) ->
  corr_solver fl argsort h seqn args false = Done (lY, ls) h' ->
  (forall l, (l < size h)%N -> rd h' l = rd h l) /\ forall l, l \in lY :: ls -> (size h <= l)%N.
Proof.
move=> v E; have u : false -> uniq (seqn :: args) by [].
have [_ fr] := C09_consistent v u E.
suff nw l : l \in lY :: ls -> (size h <= l)%N.
  by split=> // l lh; apply: fr => //; apply/negP => /nw; rewrite leqNgt lh.
move: E; case: (boolP (size (shape (rd h seqn)) == 3%N)) => [/eqP sh|sh]; last by rewrite /corr_solver sh.
case: (sameP h seqn args) => [ag|/sameP ag]; last by rewrite /corr_solver sh eqxx /= ag.
rewrite corr_solverE //; have := prepP v u; case: (prep _ _ _ _) => [[h1 lY1] ls1] [u1 a1 m1 [s1 f1] new]; cbv zeta.
by case: (argsort (dim0 (rd h1 lY1)) (correlation fl (rd h1 lY1))) => [//|b0 bins] [<- <- _]; exact: new.
Qed.
(** with [overwrite=True] the given arrays themselves are returned *)
Theorem C12_corr_overwrite fl argsort h seqn args lY ls h' :
  corr_solver fl argsort h seqn args true = Done (lY, ls) h' -> lY = seqn /\ ls = args.
Proof.
rewrite /corr_solver; case: ifP => // _; case: ifP => // _; cbv zeta.
by case: (argsort (dim0 (rd h seqn)) (correlation fl (rd h seqn))) => [//|b0 bins] [<- <- _].
Qed.
