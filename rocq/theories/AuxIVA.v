(** Model of the auxiliary-function-based IVA classes of /repo/ssspy/bss/iva.py:
    AuxIVA, AuxLaplaceIVA, AuxGaussIVA, with spatial algorithms IP1, IP2, ISS1 and ISS2.

    A spectrogram is a family of (n_sources, n_frames) matrices indexed by the
    frequency bin.  [None] is an exception or a non-finite value.  Contrast
    functions are modelled as functions of the norm of a source vector, which may
    depend on source and frame (AuxGaussIVA uses a variance per source and frame);
    this is the documented form G(y) = G_R(||y||). *)
From Coq Require Import Reals.
From mathcomp Require Import all_ssreflect all_algebra.
From Verif Require Import RStruct MxC CxR NpLin Eigh.
From Verif Require Import SpatialIP SpatialISS SpatialIP2 SpatialISS2 Scale.
Import Order.TTheory GRing.Theory Num.Theory.
Set Implicit Arguments.
Unset Strict Implicit.
Unset Printing Implicit Defensive.
Local Open Scope ring_scope.

(** an operation applied to every bin; it fails if it fails in one bin *)
Definition all_bins F A (d : 'I_F -> A) (f : 'I_F -> option A) : option ('I_F -> A) :=
  if [forall i, isSome (f i)] then Some (fun i => odflt (d i) (f i)) else None.

Section Weights.
Variables (N T : nat).
(** iva.py:1767-1775, [U = np.mean(weight * XX_Hermite, axis=-1)] for source n, one bin *)
Definition wcov (phi : 'M[R]_(N, T)) (X : 'M[Cx]_(N, T)) (n : 'I_N) : 'M[Cx]_N :=
  \matrix_(a, b) meanC (fun t => c (phi n t) * (X a t * (X b t)^*)).
End Weights.

Section AuxIVA.
Variables (F N T : nat) (fl : R -> R).
Notation spec := ('I_F -> 'M[Cx]_(N, T)).
Notation filt := ('I_F -> 'M[Cx]_N).
Notation fn := ('I_N -> 'I_T -> R -> R).

(** iva.py:171-194, in every bin *)
Definition separate_all (X : spec) (W : filt) : spec := fun i => separate (X i) (W i).

(** [np.linalg.norm(Y, axis=1)]: over the bins *)
Definition norms (Y : spec) : 'M[R]_(N, T) :=
  \matrix_(n, t) R_sqrt.sqrt (\sum_i cabs (Y i n t) ^+ 2).

(** iva.py:1764-1766: [weight = d_contrast_fn(norm) / flooring_fn(2 * norm)] *)
Definition weight (dG : fn) (r : 'M[R]_(N, T)) : 'M[R]_(N, T) :=
  \matrix_(n, t) (dG n t (r n t) / fl (2 * r n t))%coqR.
Definition finite_weight (r : 'M[R]_(N, T)) (n : 'I_N) : bool :=
  [forall t, fl (2 * r n t)%coqR != 0].

(** iva.py:1755-1777 [update_once_ip1] *)
Definition update_once_ip1 (dG : fn) (X : spec) (W : filt) : option filt :=
  let norm := norms (separate_all X W) in
  if (T != 0%N) && [forall n, finite_weight norm n] then
    all_bins W (fun i => ip1 fl (wcov (weight dG norm) (X i)) (W i))
  else None.

(** iva.py:1893-1915 [update_once_ip2]; [self.pair_selector(n_sources)] yields [ps].
    Only the weights of the two sources of the pair are computed. *)
Section IP2.
Variables (eig : eigh_t) (chol : chol_t).
Definition iva_ip2_step (dG : fn) (X : spec) (W : filt) (p : 'I_N * 'I_N) : option filt :=
  let norm := norms (separate_all X W) in
  if [&& T != 0%N, finite_weight norm p.1 & finite_weight norm p.2] then
    all_bins W (fun i => ip2_step eig chol fl (wcov (weight dG norm) (X i)) (W i) p)
  else None.
Definition update_once_ip2 (dG : fn) (X : spec) (ps : seq ('I_N * 'I_N)) (W : filt) : option filt :=
  foldl (fun o p => if o is Some V then iva_ip2_step dG X V p else None) (Some W) ps.

(** iva.py:2037-2051 [update_once_iss2] *)
Definition of_rows (s : seq 'rV[Cx]_T) : 'M[Cx]_(N, T) := \matrix_(n, t) nth 0 s n 0 t.
Definition to_rows A (Y : 'M[A]_(N, T)) : seq 'rV[A]_T := [seq row i Y | i <- enum 'I_N].
Definition update_once_iss2 (dG : fn) (ps : seq (nat * nat)) (Y : spec) : option spec :=
  let r := norms Y in
  if [forall n, finite_weight r n] then
    all_bins Y (fun i => omap of_rows (iss2 eig chol fl (to_rows (weight dG r)) ps (to_rows (Y i))))
  else None.
End IP2.

(** iva.py:1961-1968 [update_once_iss1] *)
Definition update_once_iss1 (dG : fn) (Y : spec) : option spec :=
  let r := norms Y in
  if [forall n, finite_weight r n] then all_bins Y (fun i => iss1 fl (weight dG r) (Y i)) else None.

(** iva.py:215-222 and 224-236: [sum_n mean_j G - 2 sum_i logdet]; [slogdet] of a
    singular matrix is -inf *)
Definition compute_loss (G : fn) (X : spec) (W : filt) : option R :=
  if (T != 0%N) && [forall i, W i \in unitmx] then
    let r := norms (separate_all X W) in
    Some (\sum_n meanR (fun t => G n t (r n t)) - (2 * (\sum_i ln (cabs (\det (W i)))))%coqR)
  else None.

(** iva.py:2179-2190, loss when [demix_filter is None] *)
Definition compute_loss_output (G : fn) (X Y : spec) : option R :=
  if all_bins (fun _ => 0) (fun i => refit (Y i) (X i)) is Some W then
    if (T != 0%N) && [forall i, W i \in unitmx] then
      Some (\sum_n meanR (fun t => G n t (norms Y n t)) - (2 * (\sum_i ln (cabs (\det (W i)))))%coqR)
    else None
  else None.

(** ** AuxLaplaceIVA, iva.py:3093-3110 *)
Definition laplace : fn := fun _ _ r => (2 * r)%coqR.
Definition d_laplace : fn := fun _ _ _ => 2%coqR.

(** ** AuxGaussIVA, iva.py:3256-3289 and 3465-3473 *)
Definition gauss (variance : 'M[R]_(N, T)) : fn := fun n t r =>
  (INR F * ln (variance n t) + r ^ 2 / variance n t)%coqR.
Definition d_gauss (variance : 'M[R]_(N, T)) : fn := fun n t r => (2 * r / variance n t)%coqR.
(** [self.variance = np.mean(np.abs(Y) ** 2, axis=1)] *)
Definition source_variance (Y : spec) : 'M[R]_(N, T) :=
  \matrix_(n, t) meanR (fun i : 'I_F => cabs (Y i n t) ^+ 2).
(** iva.py:3319-3337, [update_once] with IP1: new (filter, variance); a division by a zero
    variance is not finite *)
Definition gauss_update_ip1 (X : spec) (W : filt) : option (filt * 'M[R]_(N, T)) :=
  let v := source_variance (separate_all X W) in
  if [forall n, [forall t, v n t != 0]] then
    omap (fun W' => (W', v)) (update_once_ip1 (d_gauss v) X W)
  else None.
(** the same with ISS1, on the separated signals *)
Definition gauss_update_iss1 (Y : spec) : option (spec * 'M[R]_(N, T)) :=
  let v := source_variance Y in
  if [forall n, [forall t, v n t != 0]] then
    omap (fun Y' => (Y', v)) (update_once_iss1 (d_gauss v) Y)
  else None.
End AuxIVA.
