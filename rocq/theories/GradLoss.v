(** Losses minimised by the gradient methods, and the Laplace and Gauss models of the library:
    /repo/ssspy/bss/ica.py, /repo/ssspy/bss/fdica.py, /repo/ssspy/bss/iva.py.
    The updates are in Gradient.v.  [None] is an exception or a non-finite value. *)
From Coq Require Import Reals.
From mathcomp Require Import all_ssreflect all_algebra.
From Verif Require Import RStruct MxC CxR NpLin Eigh SpatialISS AuxIVA Gradient.
Import Order.TTheory GRing.Theory Num.Theory.
Set Implicit Arguments.
Unset Strict Implicit.
Unset Printing Implicit Defensive.
Local Open Scope ring_scope.

(** ** Real signals.  Filters and signals are families over one bin, as in Gradient.v. *)
Section ICA.
Variables (n T : nat).
Notation spec := ('I_1 -> 'M[R]_(n, T)).
Notation filt := ('I_1 -> 'M[R]_n).
(** ica.py:156-189 [compute_loss] and [compute_logdet]: [sum(mean(G)) - logdet]; the contrast
    function is given by the user and maps the separated signals to an array of the same shape *)
Definition ica_loss (G : spec -> 'M[R]_(n, T)) (X : spec) (W : filt) : option R :=
  if (T != 0%N) && [forall i, W i \in unitmx] then
    Some (\sum_s meanR (fun t => G (sep X W) s t) - ln (Rabs (\det (W 0))))
  else None.
(** ica.py:901-905 (and 1030-1034), [np.abs] and [np.sign] *)
Definition laplace_contrast (Y : spec) : 'M[R]_(n, T) := \matrix_(s, t) Rabs (Y 0 s t).
Definition laplace_score (Y : spec) : spec := fun i =>
  \matrix_(s, t) (if Rlt_dec 0 (Y i s t) then 1 else if Rlt_dec (Y i s t) 0 then -1 else 0).
End ICA.

(** ** Complex spectrograms *)
Section IVA.
Variables (F n T : nat).
Notation spec := ('I_F -> 'M[Cx]_(n, T)).
Notation filt := ('I_F -> 'M[Cx]_n).
(** iva.py:200-236 [compute_loss] and [compute_logdet]: the contrast function gives one value for
    each source and frame *)
Definition iva_loss (G : spec -> 'M[R]_(n, T)) (X : spec) (W : filt) : option R :=
  if (T != 0%N) && [forall i, W i \in unitmx] then
    Some (\sum_s meanR (fun t => G (sep X W) s t) - (2 * (\sum_i ln (cabs (\det (W i)))))%coqR)
  else None.
(** fdica.py:199-241 [compute_loss] and [compute_logdet]: the contrast function gives one value for
    each source, bin and frame *)
Definition bins_loss (G : spec -> 'I_F -> 'M[R]_(n, T)) (X : spec) (W : filt) : option R :=
  if (T != 0%N) && [forall i, W i \in unitmx] then
    Some (\sum_i (\sum_s meanR (fun t => G (sep X W) i s t) - (2 * ln (cabs (\det (W i))))%coqR))
  else None.

Variable fl : R -> R.
(** fdica.py:1332-1355 (and 1473-1497) *)
Definition bins_laplace (Y : spec) : 'I_F -> 'M[R]_(n, T) := fun i => \matrix_(s, t) (2 * cabs (Y i s t))%coqR.
Definition bins_laplace_score (Y : spec) : spec := fun i => \matrix_(s, t) (Y i s t / c (fl (cabs (Y i s t)))).
(** iva.py:2417-2441 (and 2736-2760) *)
Definition iva_laplace (Y : spec) : 'M[R]_(n, T) := \matrix_(s, t) (2 * norms Y s t)%coqR.
Definition iva_laplace_score (Y : spec) : spec := fun i => \matrix_(s, t) (Y i s t / c (fl (norms Y s t))).
(** iva.py:2583-2612 (and 2905-2933): the variance is an attribute *)
Definition iva_gauss (a : 'M[R]_(n, T)) (Y : spec) : 'M[R]_(n, T) :=
  \matrix_(s, t) (INR F * ln (a s t) + norms Y s t ^ 2 / a s t)%coqR.
Definition iva_gauss_score (a : 'M[R]_(n, T)) (Y : spec) : spec := fun i => \matrix_(s, t) (Y i s t / c (a s t)).
End IVA.
