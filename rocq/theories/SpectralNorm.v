(** Model of [ProxBSSBase.normalize_by_spectral_norm], /repo/ssspy/bss/proxbss.py:205-223.
    [np.linalg.norm(.., ord=2)] is a parameter; what is assumed of it is the definition of the
    spectral norm.  [None] is a division by zero, whose result numpy fills with nan. *)
From Coq Require Import Reals.
From mathcomp Require Import all_ssreflect all_algebra.
From Verif Require Import RStruct MxC CxR NpLin Eigh Prox ProxBss.
Import Order.TTheory GRing.Theory Num.Theory.
Set Implicit Arguments.
Unset Strict Implicit.
Unset Printing Implicit Defensive.
Local Open Scope ring_scope.

(** squared Frobenius norm *)
Definition sqn m k (A : 'M[Cx]_(m, k)) : R := \sum_a \sum_b cabs (A a b) ^+ 2.

Definition snorm_t := forall m k, 'M[Cx]_(m, k) -> R.
(** the spectral norm is non-negative, bounds the gain of every vector and is the gain of one *)
Definition snorm_contract (nrm : snorm_t) : Prop := forall m k (A : 'M[Cx]_(m.+1, k)),
  [/\ (0 <= nrm _ _ A)%coqR,
      forall x : 'rV[Cx]_m.+1, (sqn (x *m A) <= nrm _ _ A ^+ 2 * sqn x)%coqR &
      exists2 x : 'rV[Cx]_m.+1, sqn x = 1 & sqn (x *m A) = nrm _ _ A ^+ 2].

Section Normalise.
Variables (nrm : snorm_t) (F n T : nat).
Notation spec := ('I_F.+1 -> 'M[Cx]_(n.+1, T)).

(** proxbss.py:220-221; norms are not negative, so starting the maximum at 0 is the same *)
Definition max_norm (X : spec) : R := \big[Rmax/0]_(i < F.+1) nrm (X i).
(** proxbss.py:217-223; [Q] is the number of penalties *)
Definition normalize_by_spectral_norm (Q : nat) (X : spec) : option spec :=
  let d := (sqrt (INR Q) * max_norm X)%coqR in
  if d == 0 then None else Some (fun i => c (/ d)%coqR *: X i).
End Normalise.
