(** Model of the gradient and natural-gradient updates and of the fixed-point updates on whitened
    data:
    /repo/ssspy/bss/ica.py: GradICA, NaturalGradICA, FastICA;
    /repo/ssspy/bss/fdica.py: GradFDICA, NaturalGradFDICA;
    /repo/ssspy/bss/iva.py: GradIVA, NaturalGradIVA, FastIVA, FasterIVA.
    [None] is an exception or a non-finite value. *)
From Coq Require Import Reals.
From mathcomp Require Import all_ssreflect all_algebra.
From Verif Require Import RStruct MxC CxR NpLin Eigh SpatialISS Scale Prox AuxIVA.
Import Order.TTheory GRing.Theory Num.Theory.
Set Implicit Arguments.
Unset Strict Implicit.
Unset Printing Implicit Defensive.
Local Open Scope ring_scope.

(** ** Gradient descent.  The code of the three files is the same up to the number of bins (one
    for ica.py) and complex conjugation (absent in ica.py, whose signals are real), so the model is
    over a field [K] with a conjugation [cj]: ica.py is [K = R, cj = id, F = 1], the others are
    [K = Cx, cj = conjC]. *)
Section Gradient.
Variables (K : fieldType) (cj : K -> K) (F n T : nat).
Notation spec := ('I_F -> 'M[K]_(n, T)).
Notation filt := ('I_F -> 'M[K]_n).
(** the score function is given by the user: it maps the separated signals of all bins to an
    array of the same shape *)
Variables (score : spec -> spec) (holonomic : bool) (step_size : K).

(** iva.py:171-194, fdica.py:174-197, ica.py:133-154 [separate] *)
Definition sep (X : spec) (W : filt) : spec := fun i => W i *m X i.
(** iva.py:799-802 (and 971-974; fdica.py:632-635, 827-830; ica.py:538-539, 693-694) *)
Definition PhiY (Phi Y : 'M[K]_(n, T)) : 'M[K]_n :=
  \matrix_(a, b) ((T%:R)^-1 * \sum_t Phi a t * cj (Y b t)).
(** iva.py:805-810: [PhiY - eye], or [(1 - eye) * PhiY] *)
Definition direction (P : 'M[K]_n) : 'M[K]_n :=
  if holonomic then P - 1%:M else \matrix_(a, b) ((1 - (a == b)%:R) * P a b).
Definition directions (X : spec) (W : filt) : filt :=
  let Y := sep X W in let Phi := score Y in fun i => direction (PhiY (Phi i) (Y i)).
(** a mean over no frame is not a number *)
Definition has_frames : bool := T != 0%N.

(** iva.py:969-988 (fdica.py:824-843; ica.py:690-707) [update_once] of the natural gradient: new
    demixing filter and output *)
Definition natural_step (X : spec) (W : filt) : option (filt * spec) :=
  if has_frames then
    let W' i := W i - step_size *: (directions X W i *m W i) in Some (W', sep X W')
  else None.
(** iva.py:795-818 (fdica.py:629-650; ica.py:535-554) [update_once] of the plain gradient *)
Definition gradient_step (X : spec) (W : filt) : option (filt * spec) :=
  if has_frames && [forall i, W i \in unitmx] then
    let W' i := W i - step_size *: (directions X W i *m map_mx cj (invmx (W i))^T) in Some (W', sep X W')
  else None.
(** [n_iter] updates (base.py:24-77); the state is the demixing filter *)
Fixpoint run (step : spec -> filt -> option (filt * spec)) (k : nat) (X : spec) (W : filt) : option (filt * spec) :=
  if k is k'.+1 then if step X W is Some (W', _) then run step k' X W' else None else Some (W, sep X W).
End Gradient.

(** ** FastICA, real signals *)
Section FastICA.
Variables (n T : nat) (score dscore : 'rV[R]_T -> 'rV[R]_T).
Definition rmean (x : 'rV[R]_T) : R := ((T%:R)^-1 * \sum_t x 0 t)%R.
(** ica.py:824-828: new direction of source [s] *)
Definition ica_raw (Z : 'M[R]_(n, T)) (w : 'rV[R]_n) : 'rV[R]_n :=
  let y := w *m Z in
  rmean (dscore y) *: w - \row_k rmean (\row_t (score y 0 t * Z k t)).
(** ica.py:830-833: made orthogonal to the rows above, all projections being computed first *)
Definition deflate (W : 'M[R]_n) (s : 'I_n) (w : 'rV[R]_n) : 'rV[R]_n :=
  if (0 < s)%N then w - \sum_(i < n | (i < s)%N) (\sum_k W i k * w 0 k) *: row i W else w.
(** ica.py:835-836, [W[src_idx] = w_n / norm] in place *)
Definition set_row (W : 'M[R]_n) (s : 'I_n) (w : 'rV[R]_n) : 'M[R]_n :=
  \matrix_(i, k) (if i == s then w 0 k else W i k).
Definition ica_source (Z : 'M[R]_(n, T)) (W : 'M[R]_n) (s : 'I_n) : option 'M[R]_n :=
  let w := deflate W s (ica_raw Z (row s W)) in
  let norm := R_sqrt.sqrt (\sum_k w 0 k ^+ 2) in
  if norm == 0 then None else Some (set_row W s (norm^-1 *: w)).
(** ica.py:821-841 [update_once]: new demixing filter and output *)
Definition fastica_step (Z : 'M[R]_(n, T)) (W : 'M[R]_n) : option ('M[R]_n * 'M[R]_(n, T)) :=
  if T == 0%N then None else
  omap (fun W' => (W', W' *m Z))
    (foldl (fun o s => if o is Some V then ica_source Z V s else None) (Some W) (enum 'I_n)).
End FastICA.

(** ** FastIVA and FasterIVA *)
Section FastIVA.
Variables (F n T : nat) (fl : R -> R) (svd : svd_t).
Notation spec := ('I_F -> 'M[Cx]_(n, T)).
Notation filt := ('I_F -> 'M[Cx]_n).
(** derivatives of the contrast function of the norm, as in AuxIVA.v *)
Variables (dG ddG : 'I_n -> 'I_T -> R -> R).

(** [u @ v_Hermite] after [np.linalg.svd] *)
Definition polar_factor (W : 'M[Cx]_n) : 'M[Cx]_n := let: (u, _, v) := svd W in u *m v.
(** iva.py:1187-1199 in one bin: [varphi] are the weights, [YGG] the second-order weights *)
Definition fastiva_raw (varphi YGG : 'M[R]_(n, T)) (Z Y : 'M[Cx]_(n, T)) (W : 'M[Cx]_n) : 'M[Cx]_n :=
  \matrix_(s, k) (meanC (fun t => c (varphi s t) * ((W s k)^* - (Y s t)^* * Z k t))
                - meanC (fun t => (W s k)^* * c (YGG s t * cabs (Y s t) ^+ 2)))^*.
(** iva.py:1180-1207 [FastIVA.update_once] *)
Definition fastiva_step (Z : spec) (W : filt) : option filt :=
  let Y := separate_all Z W in
  let norm := norms Y in
  let varphi := weight fl dG norm in
  let YGG := \matrix_(s, t) ((2 * varphi s t - ddG s t (norm s t)) / fl (2 * norm s t))%coqR in
  if (T != 0%N) && [forall s, finite_weight fl norm s] then
    Some (fun i => polar_factor (fastiva_raw varphi YGG (Z i) (Y i) (W i)))
  else None.

(** iva.py:1381-1400 [FasterIVA.update_once]: eigenvector of the largest eigenvalue *)
Variable eig : eigh_t.
Definition fasteriva_raw (varphi : 'M[R]_(n, T)) (Z : 'M[Cx]_(n, T)) : 'M[Cx]_n :=
  \matrix_(s, k) (if insub n.-1 is Some l then ((eig (wcov varphi Z s)).2 k l)^* else 0).
Definition fasteriva_step (Z : spec) (W : filt) : option filt :=
  let norm := norms (separate_all Z W) in
  if (T != 0%N) && [forall s, finite_weight fl norm s] then
    Some (fun i => polar_factor (fasteriva_raw (weight fl dG norm) (Z i)))
  else None.
(** [n_iter] updates and the final separation, iva.py:1120-1137 without scale restoration *)
Fixpoint fast_run (step : spec -> filt -> option filt) (k : nat) (Z : spec) (W : filt) : option (filt * spec) :=
  if k is k'.+1 then if step Z W is Some W' then fast_run step k' Z W' else None
  else Some (W, separate_all Z W).
End FastIVA.
