(** Model, for one frequency bin, of /repo/ssspy/algorithm/projection_back.py,
    /repo/ssspy/algorithm/minimal_distortion_principle.py,
    /repo/ssspy/transform/whiten.py, /repo/ssspy/transform/pca.py and of the scale
    restoration methods of /repo/ssspy/bss/iva.py.

    A multichannel signal is a matrix with one row per channel and one column per
    frame.  [None] is an exception or a non-finite value.  The reference index is
    a valid non-negative index.  Batch axes and transpositions are not modelled. *)
From Coq Require Import Reals.
From mathcomp Require Import all_ssreflect all_algebra.
From Verif Require Import RStruct MxC CxR NpLin Eigh.
Import Order.TTheory GRing.Theory Num.Theory.
Set Implicit Arguments.
Unset Strict Implicit.
Unset Printing Implicit Defensive.
Local Open Scope ring_scope.

(** [A * s[:, np.newaxis]]: row i is multiplied by s_i *)
Definition scale_rows m n (s : 'rV[Cx]_m) (A : 'M[Cx]_(m, n)) : 'M[Cx]_(m, n) :=
  \matrix_(i, j) (A i j * s 0 i).

(** projection_back.py:87-99, demixing filter given; [reference_id=None] returns
    the results for all reference channels *)
Definition pb_filter n (W : 'M[Cx]_n) (r : 'I_n) : option 'M[Cx]_n :=
  if np_inv W is Some scale then Some (scale_rows (row r scale) W) else None.
Definition pb_filter_all n (W : 'M[Cx]_n) : option ('I_n -> 'M[Cx]_n) :=
  if np_inv W is Some scale then Some (fun r => scale_rows (row r scale) W) else None.

(** projection_back.py:100-121, spectrograms given *)
Definition pb_data n m T (Y : 'M[Cx]_(n, T)) (X : 'M[Cx]_(m, T)) (r : 'I_m) :
    option 'M[Cx]_(n, T) :=
  let Y_Hermite := Y^H in
  let XY_Hermite := X *m Y_Hermite in
  let YY_Hermite := Y *m Y_Hermite in
  if np_inv YY_Hermite is Some i then Some (scale_rows (row r (XY_Hermite *m i)) Y) else None.

(** minimal_distortion_principle.py:31-43; [reference=None] (the default) raises
    AttributeError on [reference.conj()] *)
Definition mdp n m T (Y : 'M[Cx]_(n, T)) (reference : option 'M[Cx]_(m, T)) (r : 'I_m) :
    option 'M[Cx]_(n, T) :=
  if reference is Some X then
    let num i := \sum_t Y i t * (X r t)^* in
    let denom i := \sum_t c (cabs (Y i t) ^+ 2) in
    if [forall i, denom i != 0] then
      Some (\matrix_(i, t) ((num i / denom i)^* * Y i t))
    else None
  else None.

(** iva.py:171-188 [separate] *)
Definition separate n T (X : 'M[Cx]_(n, T)) (W : 'M[Cx]_n) : 'M[Cx]_(n, T) := W *m X.

(** iva.py:259-267: new (output, demix_filter) *)
Definition apply_pb n T (X : 'M[Cx]_(n, T)) (W : 'M[Cx]_n) (r : 'I_n) :=
  if pb_filter W r is Some W_scaled then Some (separate X W_scaled, W_scaled) else None.
(** iva.py:277-280: filter recomputed by least squares *)
Definition refit n T (Y X : 'M[Cx]_(n, T)) : option 'M[Cx]_n :=
  if np_inv (X *m X^H) is Some i then Some (Y *m X^H *m i) else None.
(** iva.py:269-282 *)
Definition apply_mdp n T (X : 'M[Cx]_(n, T)) (W : 'M[Cx]_n) (r : 'I_n) :=
  if mdp (separate X W) (Some X) r is Some Y_scaled then
    if refit Y_scaled X is Some W_scaled then Some (Y_scaled, W_scaled) else None
  else None.

(** whiten.py:39-94 and pca.py:42-94 for one bin and one batch element.  Real
    signals are matrices with real entries; [T] frames. *)
Section Transform.
Variable eig : eigh_t.

Definition is_real m n (A : 'M[Cx]_(m, n)) : bool := map_mx conjC A == A.

(** sample covariance, complex: [mean(x x^H)]; real: [mean(x x^T)] *)
Definition covariance n T (X : 'M[Cx]_(n, T)) : 'M[Cx]_n := (T%:R)^-1 *: (X *m X^H).
Definition covariance_real n T (X : 'M[Cx]_(n, T)) : 'M[Cx]_n := (T%:R)^-1 *: (X *m X^T).

(** accepted (dimension, complex?) combinations *)
Definition accepted (ndim : nat) (iscomplex : bool) : bool :=
  if ndim == 2%N then ~~ iscomplex else if ndim == 3%N then true
  else if ndim == 4%N then iscomplex else false.

Definition whiten_bin n T (iscomplex : bool) (X : 'M[Cx]_(n, T)) : res 'M[Cx]_(n, T) :=
  if T == 0%N then LinAlgError else
  let: (W, V) := eig (if iscomplex then covariance X else covariance_real X) in
  if [forall i, Rltb 0 (W 0 i)] then
    let D_diag := rdiag (map_mx (fun w => 1 / R_sqrt.sqrt w)%coqR W) in
    Ok (D_diag *m (if iscomplex then V^H else V^T) *m X)
  else LinAlgError.
Definition whiten n T (ndim : nat) (iscomplex : bool) (X : 'M[Cx]_(n, T)) :=
  if accepted ndim iscomplex then whiten_bin iscomplex X else ValueError.

(** [V[..., ::-1]] *)
Definition flip n (V : 'M[Cx]_n) : 'M[Cx]_n := \matrix_(i, j) V i (rev_ord j).
Definition pca_bin n T (iscomplex ascend : bool) (X : 'M[Cx]_(n, T)) : res 'M[Cx]_(n, T) :=
  if T == 0%N then LinAlgError else
  let: (_, V) := eig (if iscomplex then covariance X else covariance_real X) in
  let V := if ascend then flip V else V in
  Ok ((X^T *m (if iscomplex then map_mx conjC V else V))^T).
Definition pca n T (ndim : nat) (iscomplex ascend : bool) (X : 'M[Cx]_(n, T)) :=
  if accepted ndim iscomplex then pca_bin iscomplex ascend X else ValueError.

(** FastIVA: iva.py:479-510 [separate] with whitening *)
Definition separate_white n T (X : 'M[Cx]_(n, T)) (W : 'M[Cx]_n) : res 'M[Cx]_(n, T) :=
  match whiten 3 true X with
  | Ok Z => Ok (separate Z W) | LinAlgError => LinAlgError | ValueError => ValueError
  end.
(** iva.py:533-551 *)
Definition fast_apply_pb n T (X Z : 'M[Cx]_(n, T)) (W : 'M[Cx]_n) (r : 'I_n) :=
  if pb_data (separate Z W) X r is Some Y_scaled then
    if refit Y_scaled Z is Some W_scaled then Some (Y_scaled, W_scaled) else None
  else None.
(** iva.py:269-282 inherited by FastIVABase, where [self.separate] whitens *)
Definition fast_apply_mdp n T (X : 'M[Cx]_(n, T)) (W : 'M[Cx]_n) (r : 'I_n) :=
  if separate_white X W is Ok Y then
    if mdp Y (Some X) r is Some Y_scaled then
      if refit Y_scaled X is Some W_scaled then Some (Y_scaled, W_scaled) else None
    else None
  else None.
End Transform.
