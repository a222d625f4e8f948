(** Model of complete runs and calls of FastIVA and FasterIVA (/repo/ssspy/bss/iva.py) from identity
    matrices with [scale_restoration=True] (projection back) and [record_loss=True].  The contrast
    function acts on the norms over the bins, as its derivatives do in the code.  [None] is an
    exception or a non-finite value. *)
From Coq Require Import Reals.
From mathcomp Require Import all_ssreflect all_algebra.
From Verif Require Import RStruct MxC CxR NpLin Eigh SpatialISS Scale Prox AuxIVA AuxIVARun AuxIVACall Gradient.
Import Order.TTheory GRing.Theory Num.Theory.
Set Implicit Arguments.
Unset Strict Implicit.
Unset Printing Implicit Defensive.
Local Open Scope ring_scope.

Section Run.
Variables (F n T : nat) (fl : R -> R) (svd : svd_t) (eig : eigh_t).
Notation spec := ('I_F -> 'M[Cx]_(n, T)).
Notation filt := ('I_F -> 'M[Cx]_n).
(** the contrast function of the norm and its derivatives *)
Variables (G dG ddG : 'I_n -> 'I_T -> R -> R).

(** iva.py:466-476 [_reset]: [whiten] of a complex spectrogram, whiten.py:55-67 *)
Definition white (X : spec) : option spec :=
  all_bins X (fun i => if whiten eig 3 true (X i) is Ok Z then Some Z else None).
(** iva.py:511-531 [compute_loss] *)
Definition fast_loss (Z : spec) (W : filt) : option R :=
  if T != 0%N then Some (\sum_s meanR (fun t => G s t (norms (separate_all Z W) s t))) else None.
(** base.py:24-77, [record_loss=True] *)
Definition fastiva_rec (Z : spec) k W := recorded (fastiva_step fl svd dG ddG Z) (fast_loss Z) k W.
Definition fasteriva_rec (Z : spec) k W := recorded (fasteriva_step fl svd dG eig Z) (fast_loss Z) k W.
(** iva.py:533-550 in every bin: the new filters *)
Definition fast_restore (X Z : spec) (r : 'I_n) (W : filt) : option filt :=
  all_bins W (fun i => omap snd (fast_apply_pb (X i) (Z i) (W i) r)).
(** iva.py:1102-1136 and 1306-1340 [__call__]: separated signals and losses *)
Definition fast_finish (X Z : spec) (r : 'I_n) (o : option (filt * seq R)) : option (spec * seq R) :=
  if o is Some (W, ls) then omap (fun W' => (separate_all Z W', ls)) (fast_restore X Z r W) else None.
Definition fastiva_call (X : spec) (r : 'I_n) k : option (spec * seq R) :=
  if white X is Some Z then fast_finish X Z r (fastiva_rec Z k (@eyes F n)) else None.
Definition fasteriva_call (X : spec) (r : 'I_n) k : option (spec * seq R) :=
  if white X is Some Z then fast_finish X Z r (fasteriva_rec Z k (@eyes F n)) else None.
End Run.
