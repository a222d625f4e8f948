(** Model of whole calls of FastGaussMNMF, /repo/ssspy/bss/mnmf.py.
    [None] is an exception or a non-finite value. *)
From Coq Require Import Reals.
From mathcomp Require Import all_ssreflect all_algebra.
From Verif Require Import RStruct MxC CxR NpLin NmfReal Eigh.
From Verif Require Import SpatialIP SpatialISS SpatialIP2 Scale AuxIVA AuxIVARun AuxIVACall Ilrma Mnmf.
Import Order.TTheory GRing.Theory Num.Theory.
Set Implicit Arguments.
Unset Strict Implicit.
Unset Printing Implicit Defensive.
Local Open Scope ring_scope.

Section Run.
Variables (N M F T K : nat) (fl : R -> R) (eig : eigh_t) (chol : chol_t).
Notation state := (fast_state N M F T K).
Notation spec := ('I_F -> 'M[Cx]_(M, T)).

(** mnmf.py:1419-1447 [update_diagonalizer] *)
Definition fast_diag (a : falg M) (X : spec) D (L : 'I_N -> 'I_F -> 'I_T -> R) Q :=
  match a with
  | FIP1 => fast_diag_ip1 fl X D L Q
  | FIP2 ps => fast_diag_ip2 fl eig chol X D L ps Q
  end.
(** mnmf.py:1294-1303 [update_once] *)
Definition fast_step (a : falg M) (normalization : bool) (X : spec) (s : state) : option state :=
  let: FastState Q D B V := s in
  if fast_basis fl X Q D B V is Some B1 then
    if fast_activation fl X Q D B1 V is Some V1 then
      if fast_diag a X D (recon B1 V1) Q is Some Q1 then
        if fast_spatial X Q1 D (recon B1 V1) is Some D1 then
          if normalization then
            omap (fun p => FastState p.1 p.2 B1 V1) (fast_norm fl X Q1 D1)
          else Some (FastState Q1 D1 B1 V1)
        else None
      else None
    else None
  else None.
(** [compute_loss] and [separate] on the attributes *)
Definition fast_state_loss (X : spec) (s : state) : option R :=
  fast_loss X (fs_Q s) (fs_D s) (recon (fs_B s) (fs_V s)).
Definition state_separate (X : spec) (r : 'I_M) (s : state) :=
  fast_separate fl eig X (fs_Q s) (fs_D s) (recon (fs_B s) (fs_V s)) r.
(** the loop with [record_loss=True] *)
Definition fast_run a nrm X k s := recorded (fast_step a nrm X) (fast_state_loss X) k s.
(** mnmf.py:109-117 [__call__] from the given attributes, [record_loss=True]; 493-499 [_reset]
    separates once before the iterations *)
Definition fast_call a nrm X (r : 'I_M) k s :=
  if state_separate X r s is Some _ then
    if fast_run a nrm X k s is Some (s', ls) then
      omap (fun Y => (Y, ls)) (state_separate X r s')
    else None
  else None.
End Run.
