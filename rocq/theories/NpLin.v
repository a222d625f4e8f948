(** Model of the numpy / ssspy.linalg primitives used by the spatial updates.
    [None] stands for [LinAlgError] (singular system) or for a non-finite result
    (division by an exact zero). *)
From Coq Require Import Reals.
From mathcomp Require Import all_ssreflect all_algebra.
From Verif Require Import RStruct MxC CxR.
Import Order.TTheory GRing.Theory Num.Theory.
Set Implicit Arguments.
Unset Strict Implicit.
Unset Printing Implicit Defensive.
Local Open Scope ring_scope.

(** /repo/ssspy/linalg/_solve.py:9-21: [solve(a, b)] is [np.linalg.solve], which
    raises on a singular matrix and otherwise returns the unique solution. *)
Definition solve n p (A : 'M[Cx]_n) (B : 'M[Cx]_(n, p)) : option 'M[Cx]_(n, p) :=
  if A \in unitmx then Some (invmx A *m B) else None.

(** numpy division of an array by a real scalar. *)
Definition divs m n (A : 'M[Cx]_(m, n)) (d : R) : option 'M[Cx]_(m, n) :=
  if d == 0 then None else Some ((c d)^-1 *: A).

(** /repo/ssspy/special/flooring.py:8-24 *)
Definition identity_fl (x : R) : R := x.
Definition max_flooring (eps x : R) : R := Rmax x eps.
Definition add_flooring (eps x : R) : R := x + eps.
