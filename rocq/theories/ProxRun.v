(** Model of complete calls of PDSBSS with [record_loss=True] and of
    ADMMBSS (/repo/ssspy/bss/pdsbss.py, admmbss.py,
    proxbss.py) with [scale_restoration=True] (projection back).  [None] is
    an exception or a non-finite value. *)
From Coq Require Import Reals.
From mathcomp Require Import all_ssreflect all_algebra.
From Verif Require Import RStruct MxC CxR NpLin Eigh SpatialISS Scale AuxIVA AuxIVARun AuxIVACall Gradient GradLoss GradRun Prox ProxBss.
Import Order.TTheory GRing.Theory Num.Theory.
Set Implicit Arguments.
Unset Strict Implicit.
Unset Printing Implicit Defensive.
Local Open Scope ring_scope.

Section Run.
Variables (svd : svd_t) (F n T Q : nat).
Notation spec := ('I_F -> 'M[Cx]_(n, T)).
Variables (pens : option ('I_Q -> spec -> R)) (prox : 'I_Q -> prox_t F n T).

(** base.py:24-77 with pdsbss.py:197-219 and proxbss.py:172-203 *)
Definition pds_rec mu1 mu2 alpha (X : spec) k s :=
  recorded (pds_update svd mu1 mu2 alpha prox X) (fun s => compute_loss pens X (demix_filter s)) k s.
(** pdsbss.py:127-156 and proxbss.py:225-255 [__call__]: separated signals and losses *)
Definition pds_call mu1 mu2 alpha (X : spec) (r : 'I_n) k : option (spec * seq R) :=
  restored X r (@demix_filter F n T Q) (pds_rec mu1 mu2 alpha X k (pds_init F n T Q)).
(** admmbss.py:120-150 and proxbss.py:225-255 [__call__] with [record_loss=False]: separated signals *)
Definition admm_call rho alpha (X : spec) (r : 'I_n) k : option spec :=
  if admm_run svd rho alpha prox X k (admm_init F n T Q) is Some s then restore_f X r (a_filter s) else None.
End Run.
