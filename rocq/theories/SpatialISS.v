(** Model of the iterative source steering updates
    /repo/ssspy/bss/_update_spatial_model.py:146-314.  One frequency bin:
    [Y] is the (n_sources, n_frames) slice of the spectrogram and [phi] the
    corresponding slice of the weights.  [None] stands for a non-finite result
    (mean over zero frames, division by zero, square root of a negative number). *)
From Coq Require Import Reals.
From mathcomp Require Import all_ssreflect all_algebra.
From Verif Require Import RStruct MxC CxR NpLin.
Import Order.TTheory GRing.Theory Num.Theory.
Set Implicit Arguments.
Unset Strict Implicit.
Unset Printing Implicit Defensive.
Local Open Scope ring_scope.

(** [np.mean(..., axis=-1)] over the frames *)
Definition meanR T (f : 'I_T -> R) : R := ((T%:R)^-1 * \sum_t f t)%R.
Definition meanC T (f : 'I_T -> Cx) : Cx := c (T%:R)^-1 * \sum_t f t.

Section ISS1.
Variables (N T : nat) (fl : R -> R).
Implicit Types (Y : 'M[Cx]_(N, T)) (phi : 'M[R]_(N, T)).

(** _update_spatial_model.py:181-185: numerators and floored denominators *)
Definition iss_num phi Y (n k : 'I_N) : Cx :=
  meanC (fun t => c (phi k t) * (Y k t * (Y n t)^*)).
Definition iss_den phi Y (n k : 'I_N) : R :=
  meanR (fun t => (phi k t * cabs (Y n t) ^+ 2)%R).

(** _update_spatial_model.py:186-189: the steering vector *)
Definition iss_v phi Y (n k : 'I_N) : Cx :=
  if k == n then 1 - c (/ R_sqrt.sqrt (fl (iss_den phi Y n n)))%coqR
  else iss_num phi Y n k / c (fl (iss_den phi Y n k)).

(** the values for which numpy yields finite numbers *)
Definition iss_ok phi Y (n : 'I_N) : bool :=
  [&& (0 < T)%N, [forall k, fl (iss_den phi Y n k) != 0] & Rltb 0 (fl (iss_den phi Y n n))].

(** _update_spatial_model.py:178-191, the loop body of [update_by_iss1]:
    [Y = Y - v_n * Y_n] *)
Definition iss1_step phi Y (n : 'I_N) : option 'M[Cx]_(N, T) :=
  if iss_ok phi Y n then Some (\matrix_(k, t) (Y k t - iss_v phi Y n k * Y n t)) else None.

(** _update_spatial_model.py:177-194 *)
Definition iss1_loop phi (s : seq 'I_N) Y : option 'M[Cx]_(N, T) :=
  foldl (fun o n => if o is Some Z then iss1_step phi Z n else None) (Some Y) s.
Definition iss1 phi Y := iss1_loop phi (enum 'I_N) Y.

End ISS1.
