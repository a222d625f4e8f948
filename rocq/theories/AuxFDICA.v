(** Model of AuxFDICA and AuxLaplaceFDICA, /repo/ssspy/bss/fdica.py:846-1245 and 1527-1653,
    with spatial algorithms IP1 and IP2.  A spectrogram is one (n_sources, n_frames) matrix per
    frequency bin.  The contrast function is a function of the modulus, its documented form.
    [None] is an exception or a non-finite value. *)
From Coq Require Import Reals.
From mathcomp Require Import all_ssreflect all_algebra.
From Verif Require Import RStruct MxC CxR NpLin Eigh.
From Verif Require Import SpatialIP SpatialISS SpatialIP2 Scale AuxIVA AuxIVARun.
Import Order.TTheory GRing.Theory Num.Theory.
Set Implicit Arguments.
Unset Strict Implicit.
Unset Printing Implicit Defensive.
Local Open Scope ring_scope.

Section AuxFDICA.
Variables (F N T : nat) (fl : R -> R) (eig : eigh_t) (chol : chol_t).
Notation spec := ('I_F -> 'M[Cx]_(N, T)).
Notation filt := ('I_F -> 'M[Cx]_N).

(** fdica.py:1109-1111 and 1231-1233, one bin: [varphi = d_contrast_fn(|Y|) / flooring_fn(2 |Y|)] *)
Definition fweight (dG : R -> R) (Y : 'M[Cx]_(N, T)) : 'M[R]_(N, T) :=
  \matrix_(n, t) (dG (cabs (Y n t)) / fl (2 * cabs (Y n t)))%coqR.
(** the divisors of the weights of one source *)
Definition fdiv_ok (Y : 'M[Cx]_(N, T)) (n : 'I_N) : bool :=
  [forall t, fl (2 * cabs (Y n t))%coqR != 0].

(** fdica.py:1104-1116 [update_once_ip1] *)
Definition fdica_ip1 (dG : R -> R) (X : spec) (W : filt) : option filt :=
  all_bins W (fun i =>
    let Y := separate (X i) (W i) in
    if (T != 0%N) && [forall n, fdiv_ok Y n] then ip1 fl (wcov (fweight dG Y) (X i)) (W i) else None).

(** fdica.py:1227-1243, the body of the loop over the pairs *)
Definition fdica_ip2_step (dG : R -> R) (X : spec) (W : filt) (p : 'I_N * 'I_N) : option filt :=
  all_bins W (fun i =>
    let Y := separate (X i) (W i) in
    if [&& T != 0%N, fdiv_ok Y p.1 & fdiv_ok Y p.2] then
      ip2_step eig chol fl (wcov (fweight dG Y) (X i)) (W i) p
    else None).
(** fdica.py:1221-1245 [update_once_ip2]; [self.pair_selector(n_sources)] yields [ps] *)
Definition fdica_ip2 (dG : R -> R) (X : spec) (ps : seq ('I_N * 'I_N)) (W : filt) : option filt :=
  foldl (fun o p => if o is Some V then fdica_ip2_step dG X V p else None) (Some W) ps.
(** fdica.py:1056-1063 [update_once] *)
Definition fdica_once (a : falg N) (dG : R -> R) (X : spec) (W : filt) : option filt :=
  match a with
  | FIP1 => fdica_ip1 dG X W
  | FIP2 ps => fdica_ip2 dG X ps W
  end.

(** fdica.py:216-223: [sum_i (sum_n mean_j G - 2 logdet)]; the logarithm of a zero determinant is not finite *)
Definition fdica_loss (G : R -> R) (X : spec) (W : filt) : option R :=
  if (T != 0%N) && [forall i, W i \in unitmx] then
    Some (\sum_i (\sum_n meanR (fun t => G (cabs (separate (X i) (W i) n t))) -
                  (2 * ln (cabs (\det (W i))))%coqR))
  else None.
(** a run with [record_loss=True], before permutation alignment and scale restoration *)
Definition fdica_run a (G dG : R -> R) X k W := recorded (fdica_once a dG X) (fdica_loss G X) k W.
End AuxFDICA.

(** fdica.py:1618-1640, AuxLaplaceFDICA *)
Definition fdica_laplace (r : R) : R := (2 * r)%coqR.
Definition fdica_d_laplace (_ : R) : R := 2%coqR.
