(** Model of complete calls of AuxLaplaceIVA and AuxGaussIVA with [scale_restoration=True]
    (projection back), without loss recording and callbacks: /repo/ssspy/bss/iva.py.
    [None] is an exception or a non-finite value. *)
From Coq Require Import Reals.
From mathcomp Require Import all_ssreflect all_algebra.
From Verif Require Import RStruct MxC CxR NpLin Eigh SpatialIP SpatialISS Scale AuxIVA AuxFDICA.
Import Order.TTheory GRing.Theory Num.Theory.
Set Implicit Arguments.
Unset Strict Implicit.
Unset Printing Implicit Defensive.
Local Open Scope ring_scope.

(** base.py:59-77, [n_iter] updates *)
Fixpoint iterate S (once : S -> option S) (k : nat) (s : S) : option S :=
  if k is k'.+1 then if once s is Some s' then iterate once k' s' else None else Some s.

Section Call.
Variables (F N T : nat) (fl : R -> R).
Notation spec := ('I_F -> 'M[Cx]_(N, T)).
Notation filt := ('I_F -> 'M[Cx]_N).

(** iva.py:259-267 with filters, and the final separation iva.py:1664-1667 *)
Definition restore_f (X : spec) (r : 'I_N) (W : filt) : option spec :=
  all_bins X (fun i => omap fst (apply_pb (X i) (W i) r)).
(** iva.py:2194-2204 without filters *)
Definition restore_o (X : spec) (r : 'I_N) (Y : spec) : option spec :=
  all_bins X (fun i => pb_data (Y i) (X i) r).

(** one iteration: iva.py:1699-1735, and 3319-3337 with the update of the variance *)
Definition laplace_ip1 (X : spec) (W : filt) := update_once_ip1 fl (@d_laplace N T) X W.
Definition laplace_iss1 (Y : spec) := update_once_iss1 fl (@d_laplace N T) Y.
Definition gauss_ip1 (X : spec) (W : filt) := omap fst (gauss_update_ip1 fl X W).
Definition gauss_iss1 (Y : spec) := omap fst (gauss_update_iss1 fl Y).

(** AuxLaplaceFDICA, fdica.py:1056-1063 *)
Definition laplace_fdica_ip1 (X : spec) (W : filt) := fdica_ip1 fl fdica_d_laplace X W.

(** iva.py:1637-1667 [__call__], from the filters [W] given as [demix_filter=...]; [_reset]
    (143-169) uses identity matrices by default.  Also fdica.py:979-1027 with
    [permutation_alignment=False]. *)
Definition call_f (once : spec -> filt -> option filt) (k : nat) (r : 'I_N) (W : filt) (X : spec) : option spec :=
  if iterate (once X) k W is Some W' then restore_f X r W' else None.
(** with [scale_restoration=False]: the separated input *)
Definition call_raw (once : spec -> filt -> option filt) (k : nat) (W : filt) (X : spec) : option spec :=
  omap (separate_all X) (iterate (once X) k W).
Definition eyes : filt := fun _ => 1%:M.
(** the same with ISS1, whose initial output is the separated input (143-169, 1687-1697) *)
Definition call_o (once : spec -> option spec) (k : nat) (r : 'I_N) (X : spec) : option spec :=
  if iterate once k (separate_all X eyes) is Some Y then restore_o X r Y else None.
End Call.
