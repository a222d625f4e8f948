(** Model of ssspy/utils/select_pair.py (lines 5-76). *)
From Coq Require Import List ZArith Lia Bool.
Import ListNotations.
Local Open Scope Z_scope.

Inductive sel_exn := ZeroDivisionError | RangeStepZero (* ValueError *).

(** A consumed generator: the yielded values and the exception that ended it. *)
Definition generated (A : Type) : Type := (list A * option sel_exn)%type.

(** Python's [range(0, stop, step)] for step <> 0. *)
Definition range_len (stop step : Z) : nat :=
  if 0 <? step then Z.to_nat ((stop + step - 1) / step)
  else Z.to_nat ((- stop + - step - 1) / - step).
Definition py_range (stop step : Z) : list Z :=
  map (fun k => step * Z.of_nat k) (seq 0 (range_len stop step)).

(** lines 41-42 and 73-74 *)
Definition sort_pair (sort : bool) (p : Z * Z) : Z * Z :=
  if sort then (let (m, n) := p in if n <? m then (n, m) else (m, n)) else p.

(** lines 38-44: the generator body over the remaining range; [m % n_sources]
    raises ZeroDivisionError when n_sources is 0 ([Z.modulo] is Python's [%]
    otherwise). *)
Fixpoint seq_yield (n_sources : Z) (sort : bool) (ms : list Z) : generated (Z * Z) :=
  match ms with
  | [] => ([], None)
  | m :: ms' =>
      if n_sources =? 0 then ([], Some ZeroDivisionError)
      else
        let p := sort_pair sort (m mod n_sources, (m + 1) mod n_sources) in
        let (ys, x) := seq_yield n_sources sort ms' in (p :: ys, x)
  end.

(** lines 5-44 *)
Definition sequential_pair_selector (n_sources : Z) (stop : option Z) (step : Z) (sort : bool)
  : generated (Z * Z) :=
  let stop := match stop with None => n_sources | Some s => s end in
  if step =? 0 then ([], Some RangeStepZero)
  else seq_yield n_sources sort (py_range stop step).

(** [itertools.combinations(l, 2)]: pairs in lexicographic position order *)
Fixpoint combinations2 (l : list Z) : list (Z * Z) :=
  match l with
  | [] => []
  | x :: l' => map (fun y => (x, y)) l' ++ combinations2 l'
  end.

(** lines 47-76 *)
Definition combination_pair_selector (n_sources : Z) (sort : bool) : list (Z * Z) :=
  map (sort_pair sort) (combinations2 (py_range n_sources 1)).
