(** Model of [update_by_ipa], /repo/ssspy/bss/_update_spatial_model.py:398-513, for at
    least two sources (n_sources = m + 2).  A frequency bin is the pair of the slice of
    the weights and the slice of the spectrogram; the bins share the calls of [lqpqm2].
    [None] stands for an exception or a non-finite number; the boolean collects the
    UserWarnings of [lqpqm2]. *)
From Coq Require Import Reals.
From mathcomp Require Import all_ssreflect all_algebra.
From Verif Require Import RStruct MxC CxR NpLin Eigh SpatialISS Cubic Lqpqm Lqpqm2.
Import Order.TTheory GRing.Theory Num.Theory.
Set Implicit Arguments.
Unset Strict Implicit.
Unset Printing Implicit Defensive.
Local Open Scope ring_scope.

Section Ipa.
Variables (eig : eigh_t) (m T : nat).
Notation N := m.+2.
Definition ipabin := ('M[R]_(N, T) * 'M[Cx]_(N, T))%type.
Variables (fl : R -> R) (normalization : bool) (max_iter : nat).

(** _update_spatial_model.py:444-446: [U_tilde[i, k]] before [to_psd] *)
Definition ipa_cov (b : ipabin) (k : 'I_N) : 'M[Cx]_N :=
  \matrix_(i, j) meanC (fun t => c (b.1 k t) * (b.2 i t * (b.2 j t)^*)).
(** _update_spatial_model.py:447 *)
Definition ipa_U (b : ipabin) (k : 'I_N) : 'M[Cx]_N := to_psd eig fl (ipa_cov b k).

(** The product with [E_n] (lines 449-450) removes the entry of the current source:
    entry [i] of the result is entry [lift n i].
    Lines 452-480: the numbers a_n, b_n and the triple (H_n, v_n, z_n) handed to
    [lqpqm2].  [None]: division by zero, square root of a negative number, singular
    system. *)
Record ipa_prep := IpaPrep { ip_a : 'I_m.+1 -> R; ip_b : 'I_m.+1 -> Cx; ip_lq : lqin m }.
Definition ipa_a (U : 'I_N -> 'M[Cx]_N) (n : 'I_N) (i : 'I_m.+1) : R := re (U (lift n i) n n).
Definition ipa_b (U : 'I_N -> 'M[Cx]_N) (n : 'I_N) (i : 'I_m.+1) : Cx := U (lift n i) n (lift n i).
Definition ipa_C (Uinv : 'M[Cx]_N) (n : 'I_N) : 'M[Cx]_m.+1 := \matrix_(i, j) (Uinv (lift n i) (lift n j))^*.
Definition ipa_d (Uinv : 'M[Cx]_N) (n : 'I_N) : 'cV[Cx]_m.+1 := \col_i (Uinv (lift n i) n)^*.
Definition ipa_H0 (a : 'I_m.+1 -> R) (C : 'M[Cx]_m.+1) : 'M[Cx]_m.+1 :=
  \matrix_(i, j) (C i j / (c (R_sqrt.sqrt (a i)) * c (R_sqrt.sqrt (a j)))).
Definition ipa_v (a : 'I_m.+1 -> R) (b : 'I_m.+1 -> Cx) (Cd : 'cV[Cx]_m.+1) : 'cV[Cx]_m.+1 :=
  \col_i (- b i / c (R_sqrt.sqrt (a i)) - c (R_sqrt.sqrt (a i)) * Cd i 0).
Definition ipa_z (Uinv : 'M[Cx]_N) (n : 'I_N) (d Cd : 'cV[Cx]_m.+1) : R :=
  (re (Uinv n n) - re (\sum_i (d i 0)^* * Cd i 0))%R.
Definition ipa_pre (U : 'I_N -> 'M[Cx]_N) (n : 'I_N) : option ipa_prep :=
  if psd_inv eig fl (U n) is Some Uinv then
    let a := ipa_a U n in let b := ipa_b U n in
    let C := ipa_C Uinv n in let d := ipa_d Uinv n in
    if solve C d is Some Cd then
      if [forall i, Rltb 0 (a i)] then
        let z := ipa_z Uinv n d Cd in
        let H := ipa_H0 a C in let v := ipa_v a b Cd in
        if normalization then
          let trace := re (\tr H) in
          if trace == 0 then None
          else Some (IpaPrep a b ((c trace)^-1 *: H, v, z / trace)%R)
        else Some (IpaPrep a b (H, v, z))
      else None
    else None
  else None.

(** _update_spatial_model.py:491-513: the new spectrogram for the answer [qc] of [lqpqm2].
    [ipa_Eq] is q_n^* E_n^T. *)
Definition ipa_q (a : 'I_m.+1 -> R) (b : 'I_m.+1 -> Cx) (qc : 'cV[Cx]_m.+1) (i : 'I_m.+1) : Cx :=
  qc i 0 / c (R_sqrt.sqrt (a i)) - b i / c (a i).
Definition ipa_Eq (q : 'I_m.+1 -> Cx) (n : 'I_N) : 'cV[Cx]_N :=
  \col_j (if unlift n j is Some i then (q i)^* else 0).
Definition ipa_out (U : 'I_N -> 'M[Cx]_N) (n : 'I_N) (r : ipa_prep) (qc : 'cV[Cx]_m.+1)
    (Y : 'M[Cx]_(N, T)) : option 'M[Cx]_(N, T) :=
  let Eq := ipa_Eq (ipa_q (ip_a r) (ip_b r) qc) n in
  let q_tilde : 'cV[Cx]_N := delta_mx n 0 - Eq in
  if solve (U n) q_tilde is Some Uq then
    let qUq := re (\sum_j (q_tilde j 0)^* * Uq j 0) in
    let denom := fl (R_sqrt.sqrt (Rmax qUq 0)) in
    if divs Uq denom is Some p then
      Some (\matrix_(k, t) (Y k t + (delta_mx n 0 : 'cV[Cx]_N) k 0 * (\sum_j (p j 0)^* * Y j t - Y n t)
                            + Eq k 0 * Y n t))
    else None
  else None.

(** _update_spatial_model.py:443-513: the loop body for one source *)
Definition ipa_step (n : 'I_N) (bins : seq ipabin) : option (seq 'M[Cx]_(N, T) * bool) :=
  if T == 0%N then None else
  if oseq [seq ipa_pre (ipa_U b) n | b <- bins] is Some rs then
    if lqpqm2 eig fl (sing_floor fl) max_iter [seq ip_lq r | r <- rs] is Some (qs, w) then
      if oseq [seq ipa_out (ipa_U x.1) n x.2.1 x.2.2 x.1.2 | x <- zip bins (zip rs qs)] is Some Ys
      then Some (Ys, w) else None
    else None
  else None.

(** _update_spatial_model.py:442-513 *)
Definition ipa_loop (phis : seq 'M[R]_(N, T)) (s : seq 'I_N) (Ys : seq 'M[Cx]_(N, T)) :
    option (seq 'M[Cx]_(N, T) * bool) :=
  foldl (fun o n => if o is Some (Zs, w) then
                      if ipa_step n (zip phis Zs) is Some (Zs', w') then Some (Zs', w || w') else None
                    else None) (Some (Ys, false)) s.
Definition update_by_ipa phis Ys := ipa_loop phis (enum 'I_N) Ys.

End Ipa.
