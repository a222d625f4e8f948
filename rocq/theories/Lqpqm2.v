(** Model of [lqpqm2], /repo/ssspy/linalg/lqpqm.py:13-120.  A frequency bin is a
    triple (H, v, z); the bins share one call of [solve_equation].  [np.linalg.eigh]
    is the parameter [eig] (Eigh.v).  [None] stands for an exception or a
    division by zero. *)
From Coq Require Import Reals.
From mathcomp Require Import all_ssreflect all_algebra.
From Verif Require Import RStruct MxC CxR NpLin Eigh Cubic Lqpqm.
Import GRing.Theory.
Set Implicit Arguments.
Unset Strict Implicit.
Unset Printing Implicit Defensive.
Local Open Scope ring_scope.

(** lqpqm.py:61-77: the tests for a vanishing linear term selected by
    [singular_fn=None] and [singular_fn="flooring"] *)
Definition sing_none (x : R) : bool := x == 0.
Definition sing_floor (fl : R -> R) (x : R) : bool := Rltb x (fl 0).

(** [np.linalg.norm(v, axis=-1)] *)
Definition vnorm n (v : 'cV[Cx]_n) : R := R_sqrt.sqrt (\sum_i cabs (v i 0) ^+ 2)%R.

Section Lqpqm2.
Variables (eig : eigh_t) (m : nat).
Definition lqin := ('M[Cx]_m.+1 * 'cV[Cx]_m.+1 * R)%type.
Variables (fl : R -> R) (sing : R -> bool) (max_iter : nat).

(** lqpqm.py:84-93.  [sigma[:, -1]] selects the last row of every matrix of
    eigenvectors. *)
Definition lq_singular (phi : 'rV[R]_m.+1) (sigma : 'M[Cx]_m.+1) (z : R) : option 'cV[Cx]_m.+1 :=
  let phi_max := phi 0 ord_max in
  let sigma_max := (row ord_max sigma)^T in
  let lamb := Rmax z phi_max in
  if phi_max == 0 then None else
  let scale := R_sqrt.sqrt (Rmax ((lamb - z) / phi_max) 0)%coqR in
  Some (c scale *: sigma_max).

(** lqpqm.py:101-103 *)
Definition lq_tilde (sigma : 'M[Cx]_m.+1) (v : 'cV[Cx]_m.+1) : 'cV[Cx]_m.+1 := sigma^H *m v.
(** the row handed to [solve_equation], lqpqm.py:104-107 *)
Definition lq_pairs (phi : 'rV[R]_m.+1) (vt : 'cV[Cx]_m.+1) : seq pv :=
  [seq (phi 0 i, vt i 0) | i <- enum 'I_m.+1].
(** lqpqm.py:113-116 *)
Definition lq_regular (phi : 'rV[R]_m.+1) (sigma : 'M[Cx]_m.+1) (vt : 'cV[Cx]_m.+1) (lamb : R) :
    option 'cV[Cx]_m.+1 :=
  if [forall i, lamb - phi 0 i != 0] then
    Some (sigma *m \col_i (c (phi 0 i) * vt i 0 / c (lamb - phi 0 i)))
  else None.

Definition lq_is_singular (b : lqin) : bool := sing (vnorm b.1.2).
(** lqpqm.py:96-99, 101-107: what the regular bins hand to [solve_equation] *)
Definition lq_bin (b : lqin) : seq pv * R :=
  let: (phi, sigma) := eig b.1.1 in (lq_pairs phi (lq_tilde sigma b.1.2), b.2).

(** lqpqm.py:118-120: the assignments through the boolean masks *)
Fixpoint lq_scatter (bins : seq lqin) (lambs : seq R) : seq (option 'cV[Cx]_m.+1) :=
  if bins is b :: bins' then
    let: (phi, sigma) := eig b.1.1 in
    if lq_is_singular b then lq_singular phi sigma b.2 :: lq_scatter bins' lambs
    else lq_regular phi sigma (lq_tilde sigma b.1.2) (head 0 lambs) :: lq_scatter bins' (behead lambs)
  else [::].

(** lqpqm.py:79-120; the boolean is the UserWarning of [solve_equation] *)
Definition lqpqm2 (bins : seq lqin) : option (seq 'cV[Cx]_m.+1 * bool) :=
  let regular := [seq b <- bins | ~~ lq_is_singular b] in
  if solve_equation fl max_iter true [seq lq_bin b | b <- regular] is Some (lambs, w) then
    if oseq (lq_scatter bins lambs) is Some ys then Some (ys, w) else None
  else None.

End Lqpqm2.
