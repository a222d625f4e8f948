(** Model of whole runs of the auxiliary-function-based IVA classes of
    /repo/ssspy/bss/iva.py with [record_loss=True]: the loss is recorded before the
    first iteration and after each one (base.py:59-77; the protocol itself is C01).
    The state is the demixing filter (IP1, IP2) or the separated spectrogram (ISS1, ISS2),
    and for AuxGaussIVA the attribute [variance] as well. *)
From Coq Require Import Reals.
From mathcomp Require Import all_ssreflect all_algebra.
From Verif Require Import RStruct MxC CxR NpLin Eigh SpatialIP SpatialISS SpatialIP2 SpatialISS2 Scale AuxIVA.
Import Order.TTheory GRing.Theory Num.Theory.
Set Implicit Arguments.
Unset Strict Implicit.
Unset Printing Implicit Defensive.
Local Open Scope ring_scope.

(** base.py:59-77: final state and recorded losses of [n_iter = k] iterations;
    [None]: an exception or a non-finite value on the way *)
Section Recorded.
Variables (S : Type) (step : S -> option S) (loss : S -> option R).
Fixpoint recorded (k : nat) (s : S) : option (S * seq R) :=
  if loss s is Some l then
    if k is k'.+1 then
      if step s is Some s1 then
        if recorded k' s1 is Some (sf, ls) then Some (sf, l :: ls) else None
      else None
    else Some (s, [:: l])
  else None.
End Recorded.

Section Run.
Variables (F N T : nat) (fl : R -> R) (eig : eigh_t) (chol : chol_t).
Notation spec := ('I_F -> 'M[Cx]_(N, T)).
Notation filt := ('I_F -> 'M[Cx]_N).
Notation fn := ('I_N -> 'I_T -> R -> R).

(** iva.py:1699-1735 [AuxIVA.update_once] with demixing filters: IP1 or IP2; the second
    one with the pairs yielded by the pair selector *)
Variant falg := FIP1 | FIP2 of seq ('I_N * 'I_N).
Definition update_once_f (a : falg) (dG : fn) (X : spec) (W : filt) : option filt :=
  match a with
  | FIP1 => update_once_ip1 fl dG X W
  | FIP2 ps => update_once_ip2 fl eig chol dG X ps W
  end.
(** the same without demixing filters: ISS1 or ISS2 *)
Variant oalg := OISS1 | OISS2 of seq ('I_N * 'I_N).
Definition update_once_o (a : oalg) (dG : fn) (Y : spec) : option spec :=
  match a with
  | OISS1 => update_once_iss1 fl dG Y
  | OISS2 ps => update_once_iss2 fl eig chol dG [seq (val p.1, val p.2) | p <- ps] Y
  end.

(** runs of AuxIVA *)
Definition aux_run_f a (G dG : fn) X k W := recorded (update_once_f a dG X) (compute_loss G X) k W.
Definition aux_run_o a (G dG : fn) X k Y := recorded (update_once_o a dG) (compute_loss_output G X) k Y.

(** iva.py:3319-3337 and 3465-3473: [AuxGaussIVA.update_once]: first the variance, then
    the filters.  IP2 (3339-3463) reads the variance set at the start of the iteration for
    every pair.  A division by a zero variance is not finite. *)
Definition gauss_once_f a (X : spec) (s : filt * 'M[R]_(N, T)) : option (filt * 'M[R]_(N, T)) :=
  let v := source_variance (separate_all X s.1) in
  if [forall n, [forall t, v n t != 0]] then
    omap (fun W' => (W', v)) (update_once_f a (d_gauss v) X s.1)
  else None.
Definition gauss_once_o a (s : spec * 'M[R]_(N, T)) : option (spec * 'M[R]_(N, T)) :=
  let v := source_variance s.1 in
  if [forall n, [forall t, v n t != 0]] then
    omap (fun Y' => (Y', v)) (update_once_o a (d_gauss v) s.1)
  else None.
(** iva.py:3304-3317: [_reset] sets the variance to ones *)
Definition unit_variance : 'M[R]_(N, T) := const_mx 1%coqR.
Definition gauss_run_f a X k W :=
  recorded (gauss_once_f a X) (fun s => compute_loss (@gauss F N T s.2) X s.1) k (W, unit_variance).
Definition gauss_run_o a X k Y :=
  recorded (gauss_once_o a) (fun s => compute_loss_output (@gauss F N T s.2) X s.1) k (Y, unit_variance).
End Run.
