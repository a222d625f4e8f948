(** Model of the block decomposition of the frequency axis in ssspy/bss/ipsdta.py.

    An array is represented by the list of its slices along the frequency axis, so that an
    element of type [A] stands for everything stored for one bin (a demixing matrix, a channel
    by frame slice, ...).  [None] = ValueError raised by numpy for incompatible shapes, or
    ZeroDivisionError. *)
From mathcomp Require Import all_ssreflect.
Set Implicit Arguments.
Unset Strict Implicit.
Unset Printing Implicit Defensive.

(** ipsdta.py:577-582, [n_remains] and lines 538, 954, 1012, 1116, 1194 [n_bins // n_blocks] *)
Definition n_remains (n_bins n_blocks : nat) : nat := n_bins %% n_blocks.
Definition n_neighbors (n_bins n_blocks : nat) : nat := n_bins %/ n_blocks.

(** [a.reshape(k, m)] along one axis, C order *)
Definition np_reshape A (k m : nat) (l : seq A) : option (seq (seq A)) :=
  if size l == k * m then Some (reshape (nseq k m) l) else None.
(** [np.split(a, [k])] *)
Definition np_split A (k : nat) (l : seq A) : seq A * seq A := (take k l, drop k l).
(** [a.reshape(k * m)] of an array of shape (k, m) *)
Definition np_merge A (k m : nat) (l : seq (seq A)) : option (seq A) :=
  if (size l == k) && all (fun r => size r == m) l then Some (flatten l) else None.

Definition obind2 A B C (f : A -> B -> option C) (x : option A) (y : option B) : option C :=
  if x is Some a then if y is Some b then f a b else None else None.

(** ipsdta.py:960-964, 969-970, 1018-1022, 1029-1030, 1123-1135, 1141-1143, 1203-1211, 1221-1223
    and the same code in TIPSDTA (1507-1511, 1607-1611, 1739-1751, 1825-1833).  The second
    component is [None] when [n_remains = 0]: then the code keeps a single array. *)
Definition split_bins A (n_bins n_blocks : nat) (l : seq A) : option (seq (seq A) * option (seq (seq A))) :=
  if n_blocks == 0 then None else
  let n_rem := n_remains n_bins n_blocks in
  let n_nb := n_neighbors n_bins n_blocks in
  if 0 < n_rem then
    let: (low, high) := np_split ((n_blocks - n_rem) * n_nb) l in
    obind2 (fun lo hi => Some (lo, Some hi)) (np_reshape (n_blocks - n_rem) n_nb low) (np_reshape n_rem (n_nb + 1) high)
  else omap (fun lo => (lo, None)) (np_reshape n_blocks n_nb l).

(** ipsdta.py:1138-1140, 1145, 1763-1765, 1775 *)
Definition merge_bins A (n_bins n_blocks : nat) (p : seq (seq A) * option (seq (seq A))) : option (seq A) :=
  let n_rem := n_remains n_bins n_blocks in
  let n_nb := n_neighbors n_bins n_blocks in
  if p.2 is Some hi then
    obind2 (fun l h => Some (l ++ h)) (np_merge (n_blocks - n_rem) n_nb p.1) (np_merge n_rem (n_nb + 1) hi)
  else np_merge n_blocks n_nb p.1.

(** update_spatial_model_vcd (ipsdta.py:1110-1147, 1726-1777): [_update] works on one block at
    a time, so it is a function of the block (of type [seq A]) *)
Definition update_blocks A B (n_bins n_blocks : nat) (f : seq A -> option (seq B)) (l : seq A) : option (seq B) :=
  let all_of (bs : seq (seq A)) : option (seq (seq B)) :=
    foldr (obind2 (fun x xs => Some (x :: xs))) (Some [::]) (map f bs) in
  if split_bins n_bins n_blocks l is Some p then
    let r := match p.2 with
      | Some hi => obind2 (fun lo' hi' => Some (lo', Some hi')) (all_of p.1) (all_of hi)
      | None => omap (fun lo' => (lo', None)) (all_of p.1)
      end in
    if r is Some q then merge_bins n_bins n_blocks q else None
  else None.

(** dimensions of the basis matrices allocated by _init_block_decomposition_psdtf
    (ipsdta.py:545-556): one matrix of that dimension for every block *)
Definition init_dims (n_bins n_blocks : nat) : option (seq nat * option (seq nat)) :=
  if n_blocks == 0 then None else
  let n_rem := n_remains n_bins n_blocks in
  let n_nb := n_neighbors n_bins n_blocks in
  let low := nseq (n_blocks - n_rem) n_nb in
  Some (low, if 0 < n_rem then Some (nseq n_rem (n_nb + 1)) else None).
