(** Model of complete runs and calls of the time-domain methods of /repo/ssspy/bss/ica.py: GradICA,
    NaturalGradICA, GradLaplaceICA, NaturalGradLaplaceICA and FastICA, with [record_loss=True].
    The contrast and score functions given by the user act on each sample, as in all the examples
    of the file.  Signals are real.  [None] is an exception or a non-finite value. *)
From Coq Require Import Reals.
From mathcomp Require Import all_ssreflect all_algebra.
From Verif Require Import RStruct MxC CxR NpLin Eigh SpatialISS Scale AuxIVARun Gradient GradLoss GradRun.
Import Order.TTheory GRing.Theory Num.Theory.
Set Implicit Arguments.
Unset Strict Implicit.
Unset Printing Implicit Defensive.
Local Open Scope ring_scope.

(** ** Gradient methods; filters and signals are families over one bin, as in Gradient.v *)
Section Grad.
Variables (n T : nat) (d : descent) (holonomic : bool) (eta : R) (phi g : R -> R).
Notation spec := ('I_1 -> 'M[R]_(n, T)).
Notation filt := ('I_1 -> 'M[R]_n).
(** [score_fn] and [contrast_fn] *)
Definition each_score (Y : spec) : spec := fun i => map_mx phi (Y i).
Definition each_contrast (Y : spec) : 'M[R]_(n, T) := map_mx g (Y 0).
(** ica.py:506-554 and 661-707 [update_once] *)
Definition ica_once (X : spec) (W : filt) : option filt :=
  omap fst (match d with
            | Plain => gradient_step id each_score holonomic eta X W
            | Natural => natural_step id each_score holonomic eta X W
            end).
(** base.py:24-77 *)
Definition ica_run (X : spec) k W := recorded (ica_once X) (ica_loss each_contrast X) k W.
(** ica.py:59-87 [__call__] from the filter [W], the identity matrix by default (117-118):
    separated signals and losses *)
Definition ica_call (X : spec) k W : option (spec * seq R) := omap (fun p => (sep X p.1, p.2)) (ica_run X k W).
End Grad.
(** ica.py:901-905 (and 1030-1034), [np.sign] and [np.abs] *)
Definition np_sign (y : R) : R := if Rlt_dec 0 y then 1 else if Rlt_dec y 0 then -1 else 0.
Definition laplace_ica_call n T d holonomic eta (X : 'I_1 -> 'M[R]_(n, T)) k W :=
  ica_call d holonomic eta np_sign Rabs X k W.

(** ** FastICA *)
Section Fast.
Variables (n T : nat) (eig : eigh_t) (phi dphi g : R -> R).
(** whiten.py:40-52, a two-dimensional real array; [eigh] of a real symmetric matrix is real *)
Definition ica_white (X : 'M[R]_(n, T)) : option 'M[R]_(n, T) :=
  if whiten eig 2 false (map_mx c X) is Ok Z then Some (map_mx re Z) else None.
(** ica.py:383-403 [compute_loss] *)
Definition fastica_loss (Z : 'M[R]_(n, T)) (W : 'M[R]_n) : option R :=
  if T != 0%N then Some (\sum_s meanR (fun t => g ((W *m Z) s t))) else None.
(** base.py:24-77 *)
Definition fastica_rec (Z : 'M[R]_(n, T)) k W :=
  recorded (fun V => omap fst (fastica_step (map_mx phi) (map_mx dphi) Z V)) (fastica_loss Z) k W.
(** ica.py:248-278 [__call__] from the filter [W], the identity matrix by default (307-308) *)
Definition fastica_call (X : 'M[R]_(n, T)) k W : option ('M[R]_(n, T) * seq R) :=
  if ica_white X is Some Z then omap (fun p => (p.1 *m Z, p.2)) (fastica_rec Z k W) else None.
End Fast.
