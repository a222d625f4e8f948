(** Model of whole calls of GaussMNMF, /repo/ssspy/bss/mnmf.py.
    [None] is an exception or a non-finite value. *)
From Coq Require Import Reals.
From mathcomp Require Import all_ssreflect all_algebra.
From Verif Require Import RStruct MxC CxR NpLin NmfReal Eigh.
From Verif Require Import SpatialIP SpatialISS SpatialIP2 Scale AuxIVA AuxIVARun AuxIVACall Ilrma Mnmf.
Import Order.TTheory GRing.Theory Num.Theory.
Set Implicit Arguments.
Unset Strict Implicit.
Unset Printing Implicit Defensive.
Local Open Scope ring_scope.

Section Run.
Variables (N M F T K : nat) (fl : R -> R) (eig : eigh_t) (chol : chol_t).
Notation state := (gauss_state N M F T K).
Notation spec := ('I_F -> 'M[Cx]_(M, T)).
Notation spat := ('I_N -> 'I_F -> 'M[Cx]_M).
Notation covs := ('I_F -> 'I_T -> 'M[Cx]_M).

(** [compute_loss] and [separate] on the attributes, mnmf.py:741-803 *)
Definition mnmf_loss (XX : covs) (s : state) : option R :=
  gauss_loss fl eig XX (recon (gs_B s) (gs_V s)) (gs_H s).
Definition mnmf_separate (X : spec) (r : 'I_M) (s : state) :=
  gauss_separate fl eig X (recon (gs_B s) (gs_V s)) (gs_H s) r.
(** the loop with [record_loss=True]; [instant_covariance] is computed once, mnmf.py:162 *)
Definition mnmf_run nrm (X : spec) k s :=
  recorded (gauss_once fl eig chol nrm (inst_cov fl eig X)) (mnmf_loss (inst_cov fl eig X)) k s.
(** mnmf.py:109-117 [__call__] from the given attributes, [record_loss=True]; 165 [_reset]
    separates once before the iterations *)
Definition mnmf_call nrm (X : spec) (r : 'I_M) k s :=
  if mnmf_separate X r s is Some _ then
    if mnmf_run nrm X k s is Some (s', ls) then
      omap (fun Y => (Y, ls)) (mnmf_separate X r s')
    else None
  else None.

(** [partitioning=True] *)
Notation pbasis := ('I_F -> 'I_K -> R).
Notation pactiv := ('I_K -> 'I_T -> R).
Notation latent := ('I_N -> 'I_K -> R).
Record pgauss := PGauss { pg_H : spat; pg_Z : latent; pg_C : pbasis; pg_A : pactiv }.
(** mnmf.py:823-838 [update_once] *)
Definition pmnmf_step (normalization : bool) (XX : covs) (s : pgauss) : option pgauss :=
  let: PGauss H Z C A := s in
  if gauss_pbasis fl eig XX H Z C A is Some C1 then
    if gauss_pactivation fl eig XX H Z C1 A is Some A1 then
      if gauss_spatial fl eig chol XX (recon_lat Z C1 A1) H is Some H1 then
        if (if normalization then gauss_pnorm H1 else Some H1) is Some H2 then
          omap (fun Z1 => PGauss H2 Z1 C1 A1) (gauss_latent fl eig XX H2 Z C1 A1)
        else None
      else None
    else None
  else None.
Definition pmnmf_loss (XX : covs) (s : pgauss) : option R :=
  gauss_loss fl eig XX (recon_lat (pg_Z s) (pg_C s) (pg_A s)) (pg_H s).
Definition pmnmf_separate (X : spec) (r : 'I_M) (s : pgauss) :=
  gauss_separate fl eig X (recon_lat (pg_Z s) (pg_C s) (pg_A s)) (pg_H s) r.
Definition pmnmf_run nrm (X : spec) k s :=
  recorded (pmnmf_step nrm (inst_cov fl eig X)) (pmnmf_loss (inst_cov fl eig X)) k s.
Definition pmnmf_call nrm (X : spec) (r : 'I_M) k s :=
  if pmnmf_separate X r s is Some _ then
    if pmnmf_run nrm X k s is Some (s', ls) then
      omap (fun Y => (Y, ls)) (pmnmf_separate X r s')
    else None
  else None.
End Run.
