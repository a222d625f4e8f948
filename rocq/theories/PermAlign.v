(** Model of /repo/ssspy/algorithm/permutation_alignment.py.

    Arrays live in a heap (a list; an array object is a position), so that aliasing and in-place
    writes are visible.  Entries are complex numbers; real arrays are those with zero imaginary
    part.  The trailing dimensions of an array are read through their flat index.  Floating-point
    results are modelled by [option]: [None] is a value which is not a number, on which every
    comparison is false. *)
From Coq Require Import Reals.
From mathcomp Require Import all_ssreflect all_algebra.
From Verif Require Import RStruct MxC CxR NpLin.
Import Order.TTheory GRing.Theory Num.Theory.
Set Implicit Arguments.
Unset Strict Implicit.
Unset Printing Implicit Defensive.
Local Open Scope ring_scope.

(** ** Arrays and heap *)
Record arr := Arr { shape : seq nat; get : nat -> nat -> nat -> Cx }.
Definition heap := seq arr.
Definition loc := nat.
Definition arr0 : arr := Arr [::] (fun _ _ _ => 0).
Definition rd (h : heap) (l : loc) : arr := nth arr0 h l.
Definition wr (h : heap) (l : loc) (a : arr) : heap := set_nth arr0 h l a.
(** [a.copy()], or any expression which builds a new array *)
Definition alloc (h : heap) (a : arr) : heap * loc := (rcons h a, size h).
Fixpoint copies (h : heap) (ls : seq loc) : heap * seq loc :=
  if ls is l :: ls' then
    let: (h1, l1) := alloc h (rd h l) in
    let: (h2, ls2) := copies h1 ls' in (h2, l1 :: ls2)
  else (h, [::]).

Definition dim0 (a : arr) := nth 0%N (shape a) 0.
Definition dim1 (a : arr) := nth 0%N (shape a) 1.
(** number of entries of the trailing dimensions, [np.prod(shape[2:])] *)
Definition trail (a : arr) : nat := foldr muln 1%N (drop 2 (shape a)).
(** [a[b, :] = a[b, p]] *)
Definition permute_bin (a : arr) (b : nat) (p : seq nat) : arr :=
  Arr (shape a) (fun b' s r => if b' == b then get a b (nth 0%N p s) r else get a b' s r).
Definition permute_bin_at (b : nat) (p : seq nat) (h : heap) (l : loc) : heap := wr h l (permute_bin (rd h l) b p).
Definition permute_bins_at b p (h : heap) (ls : seq loc) : heap := foldl (permute_bin_at b p) h ls.

(** [itertools.permutations(l, k)]: lexicographic in the positions *)
Fixpoint perms (k : nat) (l : seq nat) : seq (seq nat) :=
  if k is k'.+1 then flatten [seq [seq x :: p | p <- perms k' (rem x l)] | x <- l] else [:: [::]].
Definition permutations (n : nat) : seq (seq nat) := perms n (iota 0 n).

(** ** Numbers with NaN *)
Definition num := option R.
Definition nadd (x y : num) : num := if x is Some a then if y is Some b then Some (a + b) else None else None.
Definition nmul (x y : num) : num := if x is Some a then if y is Some b then Some (a * b) else None else None.
Definition ndiv (a b : R) : num := if b == 0 then None else Some (a / b).
Definition nsum (n : nat) (f : nat -> num) : num := foldl nadd (Some 0) [seq f i | i <- iota 0 n].
Definition ngt (x y : num) : bool := if x is Some a then if y is Some b then Rltb b a else false else false.

Inductive error := AssertionError | ValueError | IndexError | UnboundLocalError.
Inductive outcome A := Done of A & heap | Raise of error & heap.
Arguments Raise {A}.

(** ** correlation_based_permutation_solver *)
Section Correlation.
Variables (fl : R -> R) (argsort : nat -> (nat -> num) -> seq nat).

(** lines 84-88: normalised amplitudes *)
Definition norm_at (Y : arr) b t : R := fl (R_sqrt.sqrt (\sum_(s < dim1 Y) cabs (get Y b s t) ^+ 2)).
Definition ampl (Y : arr) b s t : num := ndiv (cabs (get Y b s t)) (norm_at Y b t).
(** line 89 *)
Definition correlation (Y : arr) b : num :=
  nsum (dim1 Y) (fun s => nsum (dim1 Y) (fun s' => nsum (nth 0%N (shape Y) 2) (fun t => nmul (ampl Y b s t) (ampl Y b s' t)))).
(** lines 98-105: the first permutation with the largest correlation *)
Definition score (n T : nat) (crit P : nat -> nat -> num) (p : seq nat) : num :=
  nsum n (fun s => nsum T (fun t => nmul (crit s t) (P (nth 0%N p s) t))).
Definition better (f : seq nat -> num) (best : option (num * seq nat)) (p : seq nat) : option (num * seq nat) :=
  if best is Some (m, q) then if ngt (f p) m then Some (f p, p) else best else Some (f p, p).
Definition best_perm (f : seq nat -> num) (ps : seq (seq nat)) : seq nat :=
  if foldl (better f) None ps is Some (_, p) then p else [::].
(** lines 95-111; [P] was computed from the data before the loop *)
Fixpoint corr_loop (n T : nat) (P : nat -> nat -> nat -> num) (lY : loc) (ls : seq loc) (bins : seq nat)
    (crit : nat -> nat -> num) (h : heap) : heap :=
  if bins is b :: bins' then
    let p := best_perm (score n T crit (P b)) (permutations n) in
    let h1 := permute_bin_at b p h lY in
    let h2 := permute_bins_at b p h1 ls in
    corr_loop n T P lY ls bins' (fun s t => nadd (crit s t) (P b (nth 0%N p s) t)) h2
  else h.

Definition same_dims (a b : arr) : bool := take 2 (shape a) == take 2 (shape b).
(** lines 60-118; the result is the returned [Y] and [permutable] *)
Definition corr_solver (h : heap) (seqn : loc) (args : seq loc) (overwrite : bool) : outcome (loc * seq loc) :=
  if size (shape (rd h seqn)) != 3%N then Raise AssertionError h
  else if ~~ all (fun l => same_dims (rd h l) (rd h seqn)) args then Raise ValueError h
  else
    let: (h1, lY, ls) := if overwrite then (h, seqn, args)
                         else let: (h', l) := alloc h (rd h seqn) in let: (h'', ls') := copies h' args in (h'', l, ls') in
    let Y := rd h1 lY in
    let P := ampl Y in
    let indices := argsort (dim0 Y) (correlation Y) in
    if indices is b0 :: bins then
      Done (lY, ls) (corr_loop (dim1 Y) (nth 0%N (shape Y) 2) P lY ls bins (P b0) h1)
    else Raise IndexError h1.
End Correlation.

(** ** score_based_permutation_solver *)
Section Score.
Variables (fl : R -> R).

(** lines 217-219: mean and standard deviation over the frames, normalised sequence *)
Definition mean_of (T : nat) (f : nat -> Cx) : Cx := c ((T%:R : R)^-1) * \sum_(t < T) f t.
Definition std_of (T : nat) (f : nat -> Cx) : R :=
  R_sqrt.sqrt ((T%:R : R)^-1 * \sum_(t < T) cabs (f t - mean_of T f) ^+ 2).
Definition cnum := option Cx.
Definition cndiv (a : Cx) (b : R) : cnum := if b == 0 then None else Some (a / c b).
Definition cnadd (x y : cnum) : cnum := if x is Some a then if y is Some b then Some (a + b) else None else None.
Definition cnmul (x y : cnum) : cnum := if x is Some a then if y is Some b then Some (a * b) else None else None.
Definition cnopp (x : cnum) : cnum := if x is Some a then Some (- a) else None.
Definition cnsum (l : seq cnum) : cnum := foldl cnadd (Some 0) l.
Definition cnscale (a : R) (x : cnum) : cnum := if x is Some z then Some (c a * z) else None.
(** a standard deviation of numbers with NaN is NaN as soon as one of them is *)
Definition all_some (T : nat) (f : nat -> cnum) : bool := all (fun t => isSome (f t)) (iota 0 T).
Definition nmean (T : nat) (f : nat -> cnum) : cnum := if T == 0%N then None else cnscale (T%:R)^-1 (cnsum [seq f t | t <- iota 0 T]).
Definition nstd (T : nat) (f : nat -> cnum) : num :=
  if (T != 0%N) && all_some T f then Some (std_of T (fun t => odflt 0 (f t))) else None.
Definition nfl (x : num) : num := if x is Some a then Some (fl a) else None.
Definition cndivn (a : cnum) (b : num) : cnum := if b is Some y then if a is Some x then cndiv x y else None else None.

Definition normalized (Y : arr) b s t : cnum :=
  let T := nth 0%N (shape Y) 2 in
  if T == 0%N then None else cndiv (get Y b s t - mean_of T (get Y b s)) (std_of T (get Y b s)).

(** the numpy order of complex numbers, used by [argmax]: NaN is the largest *)
Definition cgt (x y : cnum) : bool :=
  match x, y with
  | _, None => false
  | None, Some _ => true
  | Some a, Some b => Rltb (re b) (re a) || ((re a == re b) && Rltb (im b) (im a))
  end.
Definition cbetter (f : seq nat -> cnum) (best : option (cnum * seq nat)) (p : seq nat) : option (cnum * seq nat) :=
  if best is Some (m, q) then if cgt (f p) m then Some (f p, p) else best else Some (f p, p).
(** [permutations[np.argmax(scores)]] *)
Definition argmax_perm (f : seq nat -> cnum) (ps : seq (seq nat)) : seq nat :=
  if foldl (cbetter f) None ps is Some (_, p) then p else [::].

(** lines 226-231 and 261-268: agreement of the rows [f] (permuted) with the reference rows [g].
    The standard deviation of the reference is broadcast along the permuted rows (index [s]),
    as in the code, not along the reference rows. *)
Definition agreement (n T : nat) (cstd : nat -> num) (f g : nat -> nat -> cnum) (p : seq nat) : cnum :=
  cnsum [seq cnsum [seq
      let corr := cndivn (nmean T (fun t => cnmul (f (nth 0%N p s) t) (g s' t))) (nfl (cstd s)) in
      if s == s' then corr else cnopp corr | s' <- iota 0 n] | s <- iota 0 n].

(** [_parallel_sort]: gather with an index array obtained by [repeat] and [reshape] *)
Definition parallel_sort (a : arr) (p : nat -> seq nat) : arr :=
  Arr (shape a) (fun b s r => get a b (nth 0%N (p b) ((s * trail a + r) %/ trail a)) r).
Definition sort_cn (f : nat -> nat -> nat -> cnum) (p : nat -> seq nat) : nat -> nat -> nat -> cnum :=
  fun b s t => f b (nth 0%N (p b) s) t.

(** lines 221-240, one global iteration; [sequence] is rebound to a new array, the extra
    arguments are written in place *)
Definition global_perm (F n T : nat) (sn : nat -> nat -> nat -> cnum) (cstd : nat -> num) (cen : nat -> nat -> cnum) (b : nat) : seq nat :=
  argmax_perm (agreement n T cstd (sn b) cen) (permutations n).
Fixpoint sort_args (h : heap) (ls : seq loc) (p : nat -> seq nat) : heap :=
  if ls is l :: ls' then sort_args (wr h l (parallel_sort (rd h l) p)) ls' p else h.
Record gstate := GState { g_heap : heap; g_seq : loc; g_norm : nat -> nat -> nat -> cnum; g_cstd : option (nat -> num) }.
Definition global_step (F n T : nat) (ls : seq loc) (st : gstate) : gstate :=
  let: GState h lY sn _ := st in
  let cen s t := if F == 0%N then None else cnscale (F%:R)^-1 (cnsum [seq sn b s t | b <- iota 0 F]) in
  let cstd s := nstd T (cen s) in
  let p := global_perm F n T sn cstd cen in
  let: (h1, lY1) := alloc h (parallel_sort (rd h lY) p) in
  GState (sort_args h1 ls p) lY1 (sort_cn sn p) (Some cstd).

(** lines 245-258: neighbouring bins *)
Definition neighbours (F b : nat) : seq nat :=
  [seq i <- iota 0 F | [|| [&& b - 3 <= i, i <= b + 3 & i != b], (b %/ 2 - 1 <= i <= b %/ 2 + 1) |
                           (2 * b - 1 <= i <= 2 * b + 1)]%N].
(** lines 244-281, one bin of a local iteration: everything is written in place *)
Definition local_perm (n T : nat) (sn : nat -> nat -> nat -> cnum) (cstd : nat -> num) (cov : seq nat) (b : nat) : seq nat :=
  argmax_perm (fun p => cnsum [seq agreement n T cstd (sn b) (sn i) p | i <- cov]) (permutations n).
Definition local_step (F n T : nat) (cstd : nat -> num) (ls : seq loc) (st : gstate) (b : nat) : gstate :=
  let: GState h lY sn cs := st in
  let p := local_perm n T sn cstd (neighbours F b) b in
  let h1 := permute_bins_at b p (permute_bin_at b p h lY) ls in
  GState h1 lY (fun b' s t => if b' == b then sn b (nth 0%N p s) t else sn b' s t) cs.
Definition local_iter_once F n T cstd ls st : gstate := foldl (local_step F n T cstd ls) st (iota 0 F).

(** lines 186-289 *)
Definition score_solver (h : heap) (seqn : loc) (args : seq loc) (global_iter local_iter : nat)
    (multi_centroids overwrite : bool) : outcome (loc * seq loc) :=
  if size (shape (rd h seqn)) != 3%N then Raise AssertionError h
  else if multi_centroids then Raise AssertionError h
  else if ~~ all (fun l => same_dims (rd h l) (rd h seqn)) args then Raise ValueError h
  else
    let: (h1, lY, ls) := if overwrite then (h, seqn, args)
                         else let: (h', l) := alloc h (rd h seqn) in let: (h'', ls') := copies h' args in (h'', l, ls') in
    let Y := rd h1 lY in
    let: (F, n, T) := (dim0 Y, dim1 Y, nth 0%N (shape Y) 2) in
    let st1 := iter global_iter (global_step F n T ls) (GState h1 lY (normalized Y) None) in
    if (local_iter == 0%N) || (F == 0%N) then Done (g_seq st1, ls) (g_heap st1)
    else if g_cstd st1 is Some cstd then
      let st2 := iter local_iter (local_iter_once F n T cstd ls) st1 in
      Done (g_seq st2, ls) (g_heap st2)
    else Raise UnboundLocalError (g_heap st1).
End Score.
