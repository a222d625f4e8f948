(** Model of /repo/ssspy/linalg/cubic.py, /repo/ssspy/linalg/polynomial.py and of
    [_find_largest_root] in /repo/ssspy/linalg/lqpqm.py:222-292, elementwise on
    one entry of the arrays.  Arithmetic is exact and there are no signed zeros. *)
From Coq Require Import Reals.
From mathcomp Require Import all_ssreflect all_algebra.
From Verif Require Import RStruct MxC CxR.
Import Order.TTheory GRing.Theory Num.Theory.
Set Implicit Arguments.
Unset Strict Implicit.
Unset Printing Implicit Defensive.
Local Open Scope ring_scope.

(** ** numpy primitives *)
(** [np.cbrt] on reals *)
Definition cbrtR (x : R) : R :=
  (if Rlt_dec 0 x then Rpower x (1 / 3)
   else if Rlt_dec x 0 then - Rpower (- x) (1 / 3) else 0)%coqR.
(** [r * np.exp(1j * t)] *)
Definition polar (r t : R) : Cx := mkC (r * cos t)%coqR (r * sin t)%coqR.
(** [np.angle], in (-pi, pi], and 0 at 0 *)
Definition angle (z : Cx) : R :=
  (if z == 0%R then 0
   else if Rle_dec 0 (im z) then acos (re z / cabs z) else - acos (re z / cabs z))%coqR.
(** [np.sqrt] on complex numbers: the principal square root *)
Definition csqrt (z : Cx) : Cx := polar (R_sqrt.sqrt (cabs z)) (angle z / 2)%coqR.

(** cubic.py:15-22, complex branch; the real branch is [cbrtR] *)
Definition cbrtC (z : Cx) : Cx := polar (cbrtR (cabs z)) (angle z / 3)%coqR.

(** polynomial.py:77-78 *)
Definition omega : Cx := mkC (- 1 / 2)%coqR (R_sqrt.sqrt 3 / 2)%coqR.
Definition omega_conj : Cx := mkC (- 1 / 2)%coqR (- R_sqrt.sqrt 3 / 2)%coqR.

(** polynomial.py:75-95 *)
Definition find_cubic_roots (P Q : Cx) : Cx * Cx * Cx :=
  let discriminant := (Q / 2%:R) ^+ 2 + (P / 3%:R) ^+ 3 in
  let U := cbrtC (- Q / 2%:R + csqrt discriminant) in
  let is_singular := P == 0 in
  let U := if is_singular then 1 else U in
  let V := - P / (3%:R * U) in
  let X1 := U + V in
  let X1 := if is_singular then cbrtC (- Q) else X1 in
  let X2 := U * omega + V * omega_conj in
  let X2 := if is_singular then X1 * omega else X2 in
  let X3 := U * omega_conj + V * omega in
  let X3 := if is_singular then X1 * omega_conj else X3 in
  (X1, X2, X3).

(** polynomial.py:43-50: monic cubic *)
Definition solve_cubic3 (A B C : Cx) : Cx * Cx * Cx :=
  let P := - (A ^+ 2) / 3%:R + B in
  let Q := (2%:R * A ^+ 3) / 27%:R - (A * B) / 3%:R + C in
  let: (X1, X2, X3) := find_cubic_roots P Q in
  (X1 - A / 3%:R, X2 - A / 3%:R, X3 - A / 3%:R).
(** polynomial.py:51-55; [None] is the LinAlgError for a zero coefficient *)
Definition solve_cubic4 (A B C D : Cx) : option (Cx * Cx * Cx) :=
  if A == 0 then None else Some (solve_cubic3 (B / A) (C / A) (D / A)).

(** lqpqm.py:259-292 on real coefficients.  [-inf] entries never win the maximum
    because the first root is never masked. *)
Definition find_largest_root (A B C : R) : R :=
  let P := (- (A ^ 2) / 3 + B)%coqR in
  let Q := ((2 * A ^ 3) / 27 - (A * B) / 3 + C)%coqR in
  let discriminant := ((Q / 2) ^ 2 + (P / 3) ^ 3)%coqR in
  let U := cbrtC (c (- Q / 2)%coqR + csqrt (c discriminant)) in
  let is_singular := U == 0 in
  let U := if is_singular then 1 else U in
  let V := - c P / (3%:R * U) in
  let X1 := if is_singular then c (cbrtR (- Q)%coqR) else U + V in
  let X2 := re (U * omega + V * omega_conj) in
  let X3 := re (U * omega_conj + V * omega) in
  let masked := (if Rle_dec 0 P then true else if Rlt_dec 0 discriminant then true else false) in
  let root := if masked then re X1 else Rmax (re X1) (Rmax X2 X3) in
  (root - A / 3)%coqR.
