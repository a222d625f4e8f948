(** Model of /repo/ssspy/linalg/prox.py.  Each proximal operator acts independently
    on entries (l1, neg_log), on groups along [axis2] (l21) or on bins (neg_logdet);
    one entry, group or bin is modelled.  [None]: AssertionError, or a non-finite result. *)
From Coq Require Import Reals.
From mathcomp Require Import all_ssreflect all_algebra.
From Verif Require Import RStruct MxC CxR NpLin Eigh.
Import Order.TTheory GRing.Theory Num.Theory.
Set Implicit Arguments.
Unset Strict Implicit.
Unset Printing Implicit Defensive.
Local Open Scope ring_scope.

(** prox.py:9-12 and 29-33: [norm = where(norm < mu, mu, norm); maximum(1 - mu / norm, 0)] *)
Definition shrink (norm mu : R) : option R :=
  let norm := if Rltb norm mu then mu else norm in
  if norm == 0 then None else Some (Rmax (1 - mu / norm) 0)%coqR.

(** prox.py:6-12 *)
Definition prox_l1 (x : Cx) (mu : R) : option Cx := omap (fun s => c s * x) (shrink (cabs x) mu).

(** prox.py:15-33, one group; [axis1] is not used by the code *)
Definition norm2 n (x : 'rV[Cx]_n) : R := R_sqrt.sqrt (\sum_t cabs (x 0 t) ^+ 2).
Definition prox_l21 n (x : 'rV[Cx]_n) (mu : R) : option 'rV[Cx]_n :=
  omap (fun s => c s *: x) (shrink (norm2 x) mu).

(** prox.py:55-59 *)
Definition prox_neg_log (x mu : R) : option R :=
  if Rleb 0 x then
    if Rleb 0 (x ^ 2 + 4 * mu)%coqR then Some ((x + R_sqrt.sqrt (x ^ 2 + 4 * mu)) / 2)%coqR
    else None
  else None.

(** [np.linalg.svd] of a square matrix: X = U diag(s) V *)
Definition svd_t := forall n, 'M[Cx]_n -> 'M[Cx]_n * 'rV[R]_n * 'M[Cx]_n.
Definition svd_spec n (X : 'M[Cx]_n) (r : 'M[Cx]_n * 'rV[R]_n * 'M[Cx]_n) : Prop :=
  [/\ r.1.1^H *m r.1.1 = 1%:M, r.2 *m r.2^H = 1%:M, (forall i, (0 <= r.1.2 0%R i)%coqR) &
      X = r.1.1 *m rdiag r.1.2 *m r.2].

(** prox.py:84-91; a non-square X raises (shapes do not broadcast) and is not modelled *)
Definition prox_neg_logdet (svd : svd_t) n (X : 'M[Cx]_n) (mu : R) : option 'M[Cx]_n :=
  let: (U, Sigma, V) := svd n X in
  if [forall i, prox_neg_log (Sigma 0 i) mu != None] then
    Some (U *m rdiag (map_mx (fun s => odflt 0 (prox_neg_log s mu)) Sigma) *m V)
  else None.
