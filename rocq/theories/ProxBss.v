(** Model of the updates of /repo/ssspy/bss/pdsbss.py, admmbss.py and of the loss of proxbss.py.
    A spectrogram is one matrix (sources x frames) per frequency bin, a demixing filter one square
    matrix per bin; penalty functions, proximal operators, masks and the singular value
    decomposition are arbitrary functions.  [None] is an exception or a non-finite value. *)
From Coq Require Import Reals.
From mathcomp Require Import all_ssreflect all_algebra.
From Verif Require Import RStruct MxC CxR NpLin Eigh Prox.
Import Order.TTheory GRing.Theory Num.Theory.
Set Implicit Arguments.
Unset Strict Implicit.
Unset Printing Implicit Defensive.
Local Open Scope ring_scope.

(** evaluate a computation for every index; fails when one of them fails *)
Definition for_all (I : finType) (A : zmodType) (f : I -> option A) : option (I -> A) :=
  if [forall i, f i != None] then Some (fun i => odflt 0 (f i)) else None.
Definition for_all_in (I : finType) J m n (f : I -> option (J -> 'M[Cx]_(m, n))) : option (I -> J -> 'M[Cx]_(m, n)) :=
  if [forall i, isSome (f i)] then Some (fun i => odflt (fun _ => 0) (f i)) else None.

Section ProxBss.
Variables (svd : svd_t) (F n T Q : nat).
Notation spec := ('I_F -> 'M[Cx]_(n, T)).
Notation filt := ('I_F -> 'M[Cx]_n).
Implicit Types (X : spec) (W : filt).
Definition addT (A B : spec) : spec := fun i => A i + B i.
Definition subT (A B : spec) : spec := fun i => A i - B i.
Definition scaleT (a : R) (A : spec) : spec := fun i => c a *: A i.
Definition addW (A B : filt) : filt := fun i => A i + B i.
Definition subW (A B : filt) : filt := fun i => A i - B i.
Definition scaleW (a : R) (A : filt) : filt := fun i => c a *: A i.
(** elementwise product of a mask with a spectrogram *)
Definition maskT (m A : spec) : spec := fun i => \matrix_(a, t) (m i a t * A i a t).

(** proxbss.py:147-170 *)
Definition separate X W : spec := fun i => W i *m X i.
(** proxbss.py:172-203; [penalty_fn] is [None] (TypeError) or a list *)
Definition compute_loss (pens : option ('I_Q -> spec -> R)) X W : option R :=
  if pens is Some pen then
    if [forall i, \det (W i) != 0] then Some (\sum_q pen q (separate X W) - \sum_i ln (cabs (\det (W i))))
    else None
  else None.
(** prox.neg_logdet applied to a stack of filters *)
Definition neg_logdet W (mu : R) : option filt := for_all (fun i => prox_neg_logdet svd (W i) mu).

(** ** PDS *)
Definition prox_t := spec -> R -> option spec.
Record pds_state := PdsState { demix_filter : filt; dual : 'I_Q -> spec }.
(** pdsbss.py:197-219; np.stack of an empty list raises *)
Definition pds_update (mu1 mu2 alpha : R) (prox : 'I_Q -> prox_t) X (s : pds_state) : option pds_state :=
  let W := demix_filter s in let Y := dual s in
  let Y_sum : spec := fun i => \sum_q Y q i in
  let XY : filt := fun i => Y_sum i *m (X i)^H in
  if neg_logdet (subW W (scaleW (mu1 * mu2) XY)) mu1 is Some W_tilde then
    let XW := separate X (subW (scaleW 2 W_tilde) W) in
    if (Q == 0%N) || (mu2 == 0) then None else
    let Z q := addT (Y q) XW in
    if for_all_in (fun q => prox q (Z q) (1 / mu2)%R) is Some P then
      let Y_tilde q := subT (Z q) (P q) in
      Some (PdsState (addW (scaleW alpha W_tilde) (scaleW (1 - alpha) W))
                     (fun q => addT (scaleT alpha (Y_tilde q)) (scaleT (1 - alpha) (Y q))))
    else None
  else None.
Fixpoint pds_run mu1 mu2 alpha prox X (k : nat) s : option pds_state :=
  if k is k'.+1 then if pds_update mu1 mu2 alpha prox X s is Some s' then pds_run mu1 mu2 alpha prox X k' s' else None
  else Some s.
(** pdsbss.py:173-195 and proxbss.py:128-139, first call without keywords *)
Definition pds_init : pds_state := PdsState (fun _ => 1%:M) (fun _ _ => 0).

Record mpds_state := MPdsState { m_demix_filter : filt; m_dual : spec }.
(** pdsbss.py:396-412 [MaskingPDSBSS.update_once] *)
Definition mpds_update (mu1 mu2 alpha : R) (mask_fn : spec -> spec) X (s : mpds_state) : option mpds_state :=
  let W := m_demix_filter s in let Y := m_dual s in
  let XY : filt := fun i => Y i *m (X i)^H in
  if neg_logdet (subW W (scaleW (mu1 * mu2) XY)) mu1 is Some W_tilde then
    let XW := separate X (subW (scaleW 2 W_tilde) W) in
    let Z := addT Y XW in
    let Y_tilde := subT Z (maskT (mask_fn Z) Z) in
    Some (MPdsState (addW (scaleW alpha W_tilde) (scaleW (1 - alpha) W))
                    (addT (scaleT alpha Y_tilde) (scaleT (1 - alpha) Y)))
  else None.
Fixpoint mpds_run mu1 mu2 alpha mask_fn X (k : nat) s : option mpds_state :=
  if k is k'.+1 then if mpds_update mu1 mu2 alpha mask_fn X s is Some s' then mpds_run mu1 mu2 alpha mask_fn X k' s' else None
  else Some s.

(** ** ADMM *)
(** admmbss.py:230-236: the demixing filter of one bin from VY = V - Y and the VY_tilde_q *)
Definition admm_filter (X : 'M[Cx]_(n, T)) (VY : 'M[Cx]_n) (VYt : 'I_Q -> 'M[Cx]_(n, T)) : option 'M[Cx]_n :=
  let XX := map_mx conjC X *m X^T in
  let XVY_tilde := map_mx conjC X *m (\sum_q VYt q)^T in
  solve (Q%:R *: XX + 1%:M) (VY + XVY_tilde^T).
Record admm_state := AdmmState { a_filter : filt; auxiliary1 : filt; auxiliary2 : 'I_Q -> spec; dual1 : filt; dual2 : 'I_Q -> spec }.
(** admmbss.py:220-257 *)
Definition admm_update (rho alpha : R) (prox : 'I_Q -> prox_t) X (s : admm_state) : option admm_state :=
  let V := auxiliary1 s in let V_tilde := auxiliary2 s in
  let Y := dual1 s in let Y_tilde := dual2 s in
  if for_all (fun i => admm_filter (X i) (V i - Y i) (fun q => V_tilde q i - Y_tilde q i)) is Some W then
    let XW := separate X W in
    let U := addW (scaleW alpha W) (scaleW (1 - alpha) V) in
    let U_tilde q := addT (scaleT alpha XW) (scaleT (1 - alpha) (V_tilde q)) in
    if (rho == 0) || (Q == 0%N) then None else
    if neg_logdet (addW U Y) (1 / rho)%R is Some V' then
      if for_all_in (fun q => prox q (addT (U_tilde q) (Y_tilde q)) (1 / rho)%R) is Some V_tilde' then
        Some (AdmmState W V' V_tilde' (subW (addW Y U) V') (fun q => subT (addT (Y_tilde q) (U_tilde q)) (V_tilde' q)))
      else None
    else None
  else None.
Fixpoint admm_run rho alpha prox X (k : nat) s : option admm_state :=
  if k is k'.+1 then if admm_update rho alpha prox X s is Some s' then admm_run rho alpha prox X k' s' else None
  else Some s.
(** admmbss.py:168-218, first call without keywords *)
Definition admm_init : admm_state := AdmmState (fun _ => 1%:M) (fun _ => 0) (fun _ _ => 0) (fun _ => 0) (fun _ _ => 0).

Record madmm_state := MAdmmState { ma_filter : filt; m_auxiliary1 : filt; m_auxiliary2 : spec; m_dual1 : filt; m_dual2 : spec }.
(** admmbss.py:424-430 *)
Definition madmm_filter (X : 'M[Cx]_(n, T)) (VY : 'M[Cx]_n) (VYt : 'M[Cx]_(n, T)) : option 'M[Cx]_n :=
  let XX := map_mx conjC X *m X^T in
  let XVY_tilde := map_mx conjC X *m VYt^T in
  solve (XX + 1%:M) (VY + XVY_tilde^T).
(** admmbss.py:415-442 [MaskingADMMBSS.update_once] *)
Definition madmm_update (rho alpha : R) (mask_fn : spec -> spec) X (s : madmm_state) : option madmm_state :=
  let V := m_auxiliary1 s in let V_tilde := m_auxiliary2 s in
  let Y := m_dual1 s in let Y_tilde := m_dual2 s in
  if for_all (fun i => madmm_filter (X i) (V i - Y i) (V_tilde i - Y_tilde i)) is Some W then
    let XW := separate X W in
    let U := addW (scaleW alpha W) (scaleW (1 - alpha) V) in
    let U_tilde := addT (scaleT alpha XW) (scaleT (1 - alpha) V_tilde) in
    if rho == 0 then None else
    if neg_logdet (addW U Y) (1 / rho)%R is Some V' then
      let V_tilde' := maskT (mask_fn (addT U_tilde Y_tilde)) (addT U_tilde Y_tilde) in
      Some (MAdmmState W V' V_tilde' (subW (addW Y U) V') (subT (addT Y_tilde U_tilde) V_tilde'))
    else None
  else None.
Fixpoint madmm_run rho alpha mask_fn X (k : nat) s : option madmm_state :=
  if k is k'.+1 then if madmm_update rho alpha mask_fn X s is Some s' then madmm_run rho alpha mask_fn X k' s' else None
  else Some s.
End ProxBss.
