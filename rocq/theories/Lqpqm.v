(** Model of [solve_equation], [_fn] and [_d_fn] in
    /repo/ssspy/linalg/lqpqm.py:123-219, 295-351.

    A frequency bin is a list of pairs (phi, v) and a number z.  All bins share
    the loop counter and the convergence test, as in the code.  Arithmetic is
    exact; a division by zero (numpy inf/nan) does not occur in the theorems. *)
From Coq Require Import Reals.
From mathcomp Require Import all_ssreflect all_algebra.
From Verif Require Import RStruct MxC CxR Cubic.
Set Implicit Arguments.
Unset Strict Implicit.
Unset Printing Implicit Defensive.
Local Open Scope R_scope.

Definition pv := (R * Cx)%type.
Fixpoint rsum (f : pv -> R) (l : seq pv) : R :=
  if l is p :: l' then f p + rsum f l' else 0.

(** lqpqm.py:313-317 *)
Definition lq_fn (l : seq pv) (z lamb : R) : R :=
  lamb ^ 2 * rsum (fun p => (p.1 * cabs p.2 ^ 2) / (lamb - p.1) ^ 2) l - lamb + z.
(** lqpqm.py:346-350 *)
Definition lq_dfn (l : seq pv) (lamb : R) : R :=
  - (2) * lamb * rsum (fun p => (p.1 * cabs p.2) ^ 2 / (lamb - p.1) ^ 3) l - 1.

(** lqpqm.py:165-167 *)
Definition lq_mask (fl : R -> R) (p : pv) : pv :=
  if Rle_dec (fl 0) (p.1 * cabs p.2 ^ 2) then p else (0, GRing.zero _).
(** [np.argmax]: first index of the maximum, lqpqm.py:169-173 *)
Fixpoint lq_argmax (p : pv) (l : seq pv) : pv :=
  if l is q :: l' then lq_argmax (if Rlt_dec p.1 q.1 then q else p) l' else p.

(** lqpqm.py:186-194 *)
Definition lq_init (fl : R -> R) (phi_max : R) (v_max : Cx) (z : R) : R :=
  let A := - (phi_max * cabs v_max ^ 2 + 2 * phi_max + z) in
  let B := (phi_max + 2 * z) * phi_max in
  let C := - phi_max ^ 2 * z in
  let lamb := find_largest_root A B C in
  let lamb := if Rlt_dec phi_max lamb then lamb else phi_max + fl 0 in
  Rmax lamb z.
(** lqpqm.py:203-205 *)
Definition lq_newton (l : seq pv) (z phi_max lamb : R) : R :=
  let mu := lamb - lq_fn l z lamb / lq_dfn l lamb in
  if Rlt_dec phi_max mu then mu else (phi_max + lamb) / 2.
(** lqpqm.py:198 *)
Definition lq_conv (fl : R -> R) (l : seq pv) (z lamb : R) : bool :=
  if Rle_dec (Rabs (lq_fn l z lamb)) (fl 0) then true else false.

(** one bin inside the loop *)
Record lqbin := LqBin { lq_l : seq pv; lq_z : R; lq_max : R; lq_vmax : Cx; lq_scale : R }.

(** lqpqm.py:196-205 *)
Fixpoint lq_loop (fl : R -> R) (bs : seq lqbin) (n : nat) (lamb : seq R) : seq R :=
  if n is S n' then
    if all (fun bl => lq_conv fl (lq_l bl.1) (lq_z bl.1) bl.2) (zip bs lamb) then lamb
    else lq_loop fl bs n' [seq lq_newton (lq_l bl.1) (lq_z bl.1) (lq_max bl.1) bl.2 | bl <- zip bs lamb]
  else lamb.

(** lqpqm.py:160-184, one bin; [None]: argmax of an empty axis raises ValueError *)
Definition lq_prep (fl : R -> R) (normalization : bool) (b : seq pv * R) : option lqbin :=
  let l := [seq lq_mask fl p | p <- b.1] in
  if l is p :: l' then
    let pm := lq_argmax p l' in
    let phi_max := fl pm.1 in
    if normalization then
      Some (LqBin [seq (q.1 / phi_max, GRing.mul q.2 (GRing.inv (c phi_max))) | q <- l]
                  (b.2 / phi_max) (phi_max / phi_max)
                  (GRing.mul pm.2 (GRing.inv (c phi_max))) phi_max)
    else Some (LqBin l b.2 phi_max pm.2 1)
  else None.

Fixpoint oseq {T} (l : seq (option T)) : option (seq T) :=
  match l with
  | [::] => Some [::]
  | None :: _ => None
  | Some x :: l' => if oseq l' is Some r then Some (x :: r) else None
  end.

(** lqpqm.py:160-219.  [None] also stands for the UnboundLocalError of
    [max_iter = 0] (line 207).  The boolean tells whether the UserWarning of
    lines 207-214 is issued; an early [break] implies that all bins converged. *)
Definition solve_equation (fl : R -> R) (max_iter : nat) (normalization : bool)
    (bins : seq (seq pv * R)) : option (seq R * bool) :=
  if oseq [seq lq_prep fl normalization b | b <- bins] is Some bs then
    if max_iter is S _ then
      let lamb0 := [seq lq_init fl (lq_max b) (lq_vmax b) (lq_z b) | b <- bs] in
      let lamb := lq_loop fl bs max_iter lamb0 in
      let warned := ~~ all (fun bl => lq_conv fl (lq_l bl.1) (lq_z bl.1) bl.2) (zip bs lamb) in
      Some (if normalization then [seq bl.2 * lq_scale bl.1 | bl <- zip bs lamb] else lamb, warned)
    else None
  else None.
