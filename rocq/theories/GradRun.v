(** Model of complete runs and calls of the gradient methods with the library's source models:
    /repo/ssspy/bss/iva.py: GradLaplaceIVA, NaturalGradLaplaceIVA, GradGaussIVA,
    NaturalGradGaussIVA; /repo/ssspy/bss/fdica.py: GradLaplaceFDICA, NaturalGradLaplaceFDICA with
    [permutation_alignment=False].  [scale_restoration=True] (projection back),
    [record_loss=True].  [None] is an exception or a non-finite value. *)
From Coq Require Import Reals.
From mathcomp Require Import all_ssreflect all_algebra.
From Verif Require Import RStruct MxC CxR NpLin Eigh SpatialISS Scale AuxIVA AuxIVARun AuxIVACall Gradient GradLoss.
Import Order.TTheory GRing.Theory Num.Theory.
Set Implicit Arguments.
Unset Strict Implicit.
Unset Printing Implicit Defensive.
Local Open Scope ring_scope.

(** the classes named Grad... and NaturalGrad... *)
Variant descent := Plain | Natural.

Section Run.
Variables (F n T : nat) (fl : R -> R) (d : descent) (holonomic : bool) (eta : R).
Notation spec := ('I_F -> 'M[Cx]_(n, T)).
Notation filt := ('I_F -> 'M[Cx]_n).

(** [update_once] of GradIVA and NaturalGradIVA, iva.py:764-818 and 936-988 (fdica.py:596-650,
    795-843), for a score function with finite values: the new filters *)
Definition descend (score : spec -> spec) (X : spec) (W : filt) : option filt :=
  omap fst (match d with
            | Plain => gradient_step conjC score holonomic (c eta) X W
            | Natural => natural_step conjC score holonomic (c eta) X W
            end).

(** iva.py:2430-2441 and 2749-2760: the floored norms divide the signals *)
Definition laplace_iva_once (X : spec) (W : filt) : option filt :=
  if [forall s, [forall t, fl (norms (sep X W) s t) != 0]] then
    descend (@iva_laplace_score F n T fl) X W
  else None.
(** fdica.py:1344-1355 and 1485-1497 *)
Definition laplace_fdica_once (X : spec) (W : filt) : option filt :=
  if [forall i, [forall s, [forall t, fl (cabs (sep X W i s t)) != 0]]] then
    descend (@bins_laplace_score F n T fl) X W
  else None.
(** iva.py:2640-2652 and 2962-2974 [update_once] and [update_source_model]: the state is the
    filters and the attribute [variance], which is not floored *)
Definition gauss_iva_once (X : spec) (s : filt * 'M[R]_(n, T)) : option (filt * 'M[R]_(n, T)) :=
  let v := source_variance (sep X s.1) in
  if (F != 0%N) && [forall s, [forall t, v s t != 0]] then
    omap (fun W' => (W', v)) (descend (@iva_gauss_score F n T v) X s.1)
  else None.
(** iva.py:200-236 with the contrast function 2583-2597 (2905-2919): logarithms of the variance *)
Definition gauss_iva_loss (X : spec) (s : filt * 'M[R]_(n, T)) : option R :=
  if [forall a, [forall t, Rltb 0 (s.2 a t)]] then iva_loss (@iva_gauss F n T s.2) X s.1 else None.

(** base.py:24-77, [record_loss=True] *)
Definition laplace_iva_run (X : spec) k W := recorded (laplace_iva_once X) (iva_loss (@iva_laplace F n T) X) k W.
Definition laplace_fdica_run (X : spec) k W := recorded (laplace_fdica_once X) (bins_loss (@bins_laplace F n T) X) k W.
Definition gauss_iva_run (X : spec) k s := recorded (gauss_iva_once X) (gauss_iva_loss X) k s.

(** iva.py:359-392 (fdica.py:402-437) [__call__] from the filters [W], identity matrices by
    default (143-169): separated signals and losses *)
Definition restored (X : spec) (r : 'I_n) (S : Type) (f : S -> filt) (o : option (S * seq R)) : option (spec * seq R) :=
  if o is Some (s, ls) then omap (fun Y => (Y, ls)) (restore_f X r (f s)) else None.
Definition laplace_iva_call (X : spec) (r : 'I_n) k W := restored X r id (laplace_iva_run X k W).
Definition laplace_fdica_call (X : spec) (r : 'I_n) k W := restored X r id (laplace_fdica_run X k W).
(** iva.py:2624-2638 (2946-2960): [_reset] sets the variance to ones *)
Definition gauss_iva_call (X : spec) (r : 'I_n) k W := restored X r fst (gauss_iva_run X k (W, const_mx 1%coqR)).
End Run.
