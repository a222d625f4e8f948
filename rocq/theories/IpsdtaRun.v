(** Model of complete calls of GaussIPSDTA and TIPSDTA of /repo/ssspy/bss/ipsdta.py
    ([source_algorithm="MM"], [spatial_algorithm="VCD"], [record_loss=True]), from given filters,
    bases and activations, e.g. the attributes an earlier call leaves.  The arrays are split into blocks
    as in Ipsdta.v; [None] is an exception or a non-finite value. *)
From Coq Require Import Reals.
From mathcomp Require Import all_ssreflect all_algebra.
From Verif Require Import RStruct MxC CxR NpLin Eigh SpatialISS Scale AuxIVA AuxIVARun AuxIVACall Vcd Ipsdta.
Import Order.TTheory GRing.Theory Num.Theory.
Set Implicit Arguments.
Unset Strict Implicit.
Unset Printing Implicit Defensive.
Local Open Scope ring_scope.

Section Call.
Variables (N T K B : nat) (d : 'I_B -> nat) (hi : 'I_B -> bool).
Variables (eig : eigh_t) (chol : chol_t) (fl0 fl : R -> R).
Notation spec := (forall b, 'I_(d b) -> 'M[Cx]_(N, T)).
Notation filt := (forall b, 'I_(d b) -> 'M[Cx]_N).
Notation basis := ('I_N -> 'I_K -> forall b, 'M[Cx]_(d b)).
Notation activ := ('I_N -> 'I_K -> 'I_T -> R).
Notation state := (state N T K d).

(** ipsdta.py:572-575: the end of [_init_block_decomposition_psdtf], the parameters are
    normalised before the first loss if [source_normalization] is true *)
Definition psdta_init (nrm : bool) (s : state) : option state :=
  if nrm then omap (fun p => State (st_W s) p.1 p.2) (psdtf_norm (st_T s) (st_V s)) else Some s.

(** ipsdta.py:341-369 [restore_scale], projection back to channel [r] or, with
    [scale_restoration=False], no rescaling; then the separation of line 120 *)
Definition psdta_output (r : option 'I_N) (X : spec) (W : filt) : option spec :=
  match r with
  | Some r =>
    if [forall b, isSome (restore_f (X b) r (W b))] then
      Some (fun b => odflt (X b) (restore_f (X b) r (W b)))
    else None
  | None => Some (fun b i => W b i *m X b i)
  end.

(** ipsdta.py:96-121 [__call__] and base.py:24-77: [n_iter] updates, the loss before the first
    and after each of them; the separated signals, the bases and activations, the losses *)
Definition psdta_call (once : spec -> state -> option state) (loss : spec -> state -> option R)
    (nrm : bool) (r : option 'I_N) (X : spec) (k : nat) (s : state) : 
    option (spec * (basis * activ) * seq R) :=
  if psdta_init nrm s is Some s0 then
    if recorded (once X) (loss X) k s0 is Some (s1, ls) then
      omap (fun Y => (Y, (st_T s1, st_V s1), ls)) (psdta_output r X (st_W s1))
    else None
  else None.
Definition gauss_psdta_call nrm r X k s :=
  psdta_call (gauss_once eig chol fl0 fl nrm) (gauss_loss hi eig fl0) nrm r X k s.
Definition t_psdta_call (nu : R) nrm r X k s :=
  psdta_call (t_once eig fl0 fl nu nrm) (t_loss eig fl0 nu) nrm r X k s.
End Call.
