(** Model of the masking function of harmonic vector analysis,
    /repo/ssspy/bss/hva.py:81-115 and (identical text) 202-236: one frame.
    [M + 1] is the number of frequency bins. *)
From Coq Require Import Reals.
From mathcomp Require Import all_ssreflect all_algebra.
From Verif Require Import RStruct MxC CxR NpLin.
Import Order.TTheory GRing.Theory Num.Theory.
Set Implicit Arguments.
Unset Strict Implicit.
Unset Printing Implicit Defensive.
Local Open Scope ring_scope.

Section Irfft.
Variable M : nat.
(** hva.py:102 and 109: the first [n_bins] samples of [np.fft.irfft] of a real array of
    [n_bins = M + 1] values, whose length is [2 * M]; the real part of the Hermitian
    extension is a cosine series.  [norm="forward"] is the bare sum. *)
Definition rwt (i : nat) : R := if (i == 0%N) || (i == M) then 1%coqR else 2%coqR.
Definition irfft_forward (x : 'I_M.+1 -> R) (k : 'I_M.+1) : R :=
  \sum_(i < M.+1) (rwt i * x i * cos (PI * INR (i * k)%N / INR M))%coqR.
(** [norm="backward"] divides by the length *)
Definition irfft_backward (x : 'I_M.+1 -> R) (k : 'I_M.+1) : R :=
  (irfft_forward x k / INR (2 * M)%N)%coqR.
End Irfft.

(** hva.py:104-107: [varsigma] *)
Definition cosine_shrink (x : R) : R := ((1 - cos (PI * x)) / 2)%coqR.
Definition varsigma (mask_iter : nat) (nu : R) : R := iter mask_iter cosine_shrink (Rmin 1 nu).

Section Mask.
Variables (N M : nat) (fl : R -> R) (mask_iter : nat).
Notation frame := ('I_N -> 'I_M.+1 -> Cx).
(** hva.py:98-103 *)
Definition zeta (y : frame) n i : R := ln (fl (cabs (y n i))).
Definition zeta_mean (y : frame) n : R := ((\sum_i zeta y n i)%R / INR M.+1)%coqR.
Definition rho (y : frame) n i : R := (zeta y n i - zeta_mean y n)%coqR.
Definition nu (y : frame) n : 'I_M.+1 -> R := irfft_backward (rho y n).
(** hva.py:104-112 *)
Definition xi (y : frame) n : 'I_M.+1 -> R :=
  irfft_forward (fun k => (varsigma mask_iter (nu y n k) * nu y n k)%coqR).
Definition vpow (y : frame) n i : R := exp (2 * (xi y n i + zeta_mean y n))%coqR.
(** hva.py:113 *)
Definition hva_mask (gamma : R) (y : frame) n i : R :=
  Rpower (vpow y n i / (\sum_m vpow y m i)%R)%coqR gamma.

(** hva.py:91-115: a call.  [att] is the attribute [attenuation]; it is replaced by
    [1 / n_sources] when it is None and stays so afterwards.  [None]: [irfft] of a single bin
    (transform length 0) raises ValueError, the logarithm of a non-positive number or the
    division 1 / 0 is not finite. *)
Definition mask_fn (att : option R) (y : frame) : option (('I_N -> 'I_M.+1 -> R) * option R) :=
  let gamma := if att is Some g then g else (1 / INR N)%coqR in
  if (M != 0%N) && (N != 0%N) && [forall n, [forall i, Rltb 0 (fl (cabs (y n i)))]] then
    Some (hva_mask gamma y, Some gamma)
  else None.
End Mask.
