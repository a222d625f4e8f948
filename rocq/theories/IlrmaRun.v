(** Model of whole runs of GaussILRMA, TILRMA and GGDILRMA, /repo/ssspy/bss/ilrma.py:
    every spatial update but IPA, every normalisation, with and without partitioning.
    [None] is an exception or a non-finite value. *)
From Coq Require Import Reals.
From mathcomp Require Import all_ssreflect all_algebra.
From Verif Require Import RStruct MxC CxR NpLin NmfReal Eigh.
From Verif Require Import SpatialIP SpatialISS SpatialIP2 SpatialISS2 Scale AuxIVA AuxIVARun AuxIVACall Ilrma.
Import Order.TTheory GRing.Theory Num.Theory.
Set Implicit Arguments.
Unset Strict Implicit.
Unset Printing Implicit Defensive.
Local Open Scope ring_scope.

(** the argument [normalization]: [None] or [False], ["power"] or [True], ["projection_back"]
    with the attribute [reference_id] (ilrma.py:352-363) *)
Variant norm_opt N := NoNorm | Power | ProjBack of 'I_N.
Arguments NoNorm {N}.
Arguments Power {N}.

Section Run.
Variables (N F T K : nat) (m : model) (alg : source_alg) (fl : R -> R) (eig : eigh_t) (chol : chol_t).
Notation spec := ('I_F -> 'M[Cx]_(N, T)).
Notation filt := ('I_F -> 'M[Cx]_N).
Notation cells := ('I_N -> 'I_F -> 'I_T -> R).
Notation basis := ('I_N -> 'I_F -> 'I_K -> R).
Notation activ := ('I_N -> 'I_K -> 'I_T -> R).
Notation latent := ('I_N -> 'I_K -> R).
Notation pbasis := ('I_F -> 'I_K -> R).
Notation pactiv := ('I_K -> 'I_T -> R).

(** ilrma.py:1425-1438, 2829-2861, 3907-3939 [update_spatial_model], with demixing filters *)
Definition spatial_f (a : falg N) (X : spec) (W : filt) (q : cells) : option filt :=
  match a with
  | FIP1 => spatial_ip1 m fl X W q
  | FIP2 ps => spatial_ip2 m fl eig chol X ps W q
  end.
(** the same without *)
Definition spatial_o (a : oalg N) (Y : spec) (q : cells) : option spec :=
  match a with
  | OISS1 => spatial_iss1 m fl Y q
  | OISS2 ps => spatial_iss2 m fl eig chol [seq (val p.1, val p.2) | p <- ps] Y q
  end.

(** ilrma.py:333-363 [normalize], called if the option is set (921-922) *)
Definition norm_f (o : norm_opt N) (X : spec) (W : filt) (B : basis) : option (filt * basis) :=
  match o with
  | NoNorm => Some (W, B)
  | Power => norm_power m fl X W B
  | ProjBack r => norm_pb m r W B
  end.
Definition norm_o (o : norm_opt N) (X Y : spec) (B : basis) : option (spec * basis) :=
  match o with
  | NoNorm => Some (Y, B)
  | Power => norm_power_output m fl Y B
  | ProjBack r => norm_pb_output m r X Y B
  end.

(** ilrma.py:900-922 [update_once], 943-1005 [update_source_model], without partitioning *)
Definition source_step (Y : spec) (B : basis) (V : activ) : option (basis * activ) :=
  if update_basis m alg fl Y B V is Some B1 then
    omap (fun V1 => (B1, V1)) (update_activation m alg fl Y B1 V)
  else None.
Definition once_f (a : falg N) (o : norm_opt N) (X : spec) (s : state_w N F T K) : option (state_w N F T K) :=
  let: StateW W B V := s in
  if source_step (separate_all X W) B V is Some (B1, V1) then
    if spatial_f a X W (recon B1 V1) is Some W1 then
      omap (fun p : filt * basis => StateW p.1 p.2 V1) (norm_f o X W1 B1)
    else None
  else None.
Definition once_o (a : oalg N) (o : norm_opt N) (X : spec) (s : state_y N F T K) : option (state_y N F T K) :=
  let: StateY Y B V := s in
  if source_step Y B V is Some (B1, V1) then
    if spatial_o a Y (recon B1 V1) is Some Y1 then
      omap (fun p : spec * basis => StateY p.1 p.2 V1) (norm_o o X Y1 B1)
    else None
  else None.

(** with partitioning function: the latent variables first (974-978); projection back is not
    implemented (484-487) *)
Record part := Part { pt_Z : latent; pt_C : pbasis; pt_A : pactiv }.
Definition psource_step (Y : spec) (s : part) : option part :=
  let: Part Z C A := s in
  if update_latent m alg Y Z C A is Some Z1 then
    if update_pbasis m alg fl Y Z1 C A is Some C1 then
      omap (fun A1 => Part Z1 C1 A1) (update_pactivation m alg fl Y Z1 C1 A)
    else None
  else None.
Definition precon (s : part) : cells := recon_lat (pt_Z s) (pt_C s) (pt_A s).
(** 422-430, without demixing filters *)
Definition norm_power_latent_output (Y : spec) (Z : latent) (C : pbasis) : option (spec * latent * pbasis) :=
  let Zp n k := (Z n k / pw (psi fl Y n) (domain m))%coqR in
  let scale k := \sum_n Zp n k in
  if psi_ok fl Y && [forall k, scale k != 0] then
    Some (fun i => div_rows (psi fl Y) (Y i), fun n k => (Zp n k / scale k)%coqR, fun i k => C i k * scale k)
  else None.
Definition pnorm_f (o : norm_opt N) (X : spec) (W : filt) (s : part) : option (filt * part) :=
  match o with
  | NoNorm => Some (W, s)
  | Power => omap (fun p : filt * latent * pbasis => (p.1.1, Part p.1.2 p.2 (pt_A s)))
               (norm_power_latent m fl X W (pt_Z s) (pt_C s))
  | ProjBack _ => None
  end.
Definition pnorm_o (o : norm_opt N) (Y : spec) (s : part) : option (spec * part) :=
  match o with
  | NoNorm => Some (Y, s)
  | Power => omap (fun p : spec * latent * pbasis => (p.1.1, Part p.1.2 p.2 (pt_A s)))
               (norm_power_latent_output Y (pt_Z s) (pt_C s))
  | ProjBack _ => None
  end.
Definition ponce_f (a : falg N) (o : norm_opt N) (X : spec) (s : filt * part) : option (filt * part) :=
  if psource_step (separate_all X s.1) s.2 is Some p then
    if spatial_f a X s.1 (precon p) is Some W1 then pnorm_f o X W1 p else None
  else None.
Definition ponce_o (a : oalg N) (o : norm_opt N) (s : spec * part) : option (spec * part) :=
  if psource_step s.1 s.2 is Some p then
    if spatial_o a s.1 (precon p) is Some Y1 then pnorm_o o Y1 p else None
  else None.

(** runs with [record_loss=True], before the restoration of the scale *)
Definition ilrma_run_f a o X k s :=
  recorded (once_f a o X) (fun s => loss_filter m X (st_W s) (recon (st_B s) (st_V s))) k s.
Definition ilrma_run_o a o X k s :=
  recorded (once_o a o X) (fun s => loss_output m X (st_Y s) (recon (st_yB s) (st_yV s))) k s.
Definition pilrma_run_f a o X k s :=
  recorded (ponce_f a o X) (fun s => loss_filter m X s.1 (precon s.2)) k s.
Definition pilrma_run_o a o X k s :=
  recorded (ponce_o a o) (fun s => loss_output m X s.1 (precon s.2)) k s.

(** [__call__] without loss recording, [scale_restoration=True], from the given initial
    filters and NMF parameters: ilrma.py:820-855; restoration 557-565, 1969-1979 *)
Definition ilrma_call_f a o (r : 'I_N) X k s : option spec :=
  if iterate (once_f a o X) k s is Some s' then restore_f X r (st_W s') else None.
Definition ilrma_call_o a o (r : 'I_N) X k (B : basis) (V : activ) : option spec :=
  if iterate (once_o a o X) k (StateY (separate_all X (@eyes F N)) B V) is Some s' then restore_o X r (st_Y s') else None.
End Run.
