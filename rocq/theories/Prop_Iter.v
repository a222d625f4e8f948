(** Properties C01-C03: iteration protocol (ssspy/bss/base.py). *)
From Coq Require Import List Arith Lia.
From Verif Require Import Iter IterProofs.
Import ListNotations.

Section Statements.
Context {S L E : Type}.
Variable update_once : S -> action_result S E.
Variable compute_loss : S -> L + E.

(** C01.  On a freshly constructed object a call that does not raise performs
    exactly the documented schedule of actions: the trace of actions is the
    schedule, every event is what the user code computes on the state reached
    at that moment ([chain]), and the loss attribute is the list of exactly
    the losses computed, in order (None when loss recording is off). *)
Theorem C01_protocol :
  forall cbs record s0 n_iter initial_call m' tr,
    let m := init cbs record s0 in
    call update_once compute_loss n_iter initial_call m = (m', tr, None) ->
    let ncb := length (cb_list m) in
    map (@kind S L) tr = schedule n_iter initial_call record ncb /\
    chain update_once compute_loss (cb_list m) s0 (loss m) tr (st m') /\
    loss m' = (if record then Some (losses_of tr) else None).
Proof.
  intros cbs record s0 n_iter initial_call m' tr m H ncb.
  destruct (call_ok update_once compute_loss n_iter initial_call m (init_wf _ _ _) _ _ _ H)
    as (_ & _ & _ & Hl & Hk & Hc).
  split; [exact Hk|]. split; [exact Hc|]. rewrite Hl. destruct record; reflexivity.
Qed.

(** C01, counts: n_iter updates, n_iter (+1) losses, each callback n_iter (+1)
    times, whatever the previous history of the object. *)
Theorem C01_counts :
  forall m n_iter initial_call m' tr, wf m ->
    call update_once compute_loss n_iter initial_call m = (m', tr, None) ->
    count AUpdate (map (@kind S L) tr) = n_iter /\
    loss m' = extend_loss (loss m) (losses_of tr) /\
    length (losses_of tr) = (if record_loss m then n_iter + b2n initial_call else 0) /\
    (forall i, i < length (cb_list m) ->
       count (ACallback i) (map (@kind S L) tr) = n_iter + b2n initial_call).
Proof.
  intros m n_iter initial_call m' tr Hwf H.
  destruct (call_ok update_once compute_loss n_iter initial_call m Hwf _ _ _ H)
    as (_ & _ & _ & Hl & Hk & _).
  rewrite losses_length, Hk.
  split; [apply schedule_updates|]. split; [exact Hl|]. split; [apply schedule_losses|].
  intros i Hi. apply schedule_callbacks; exact Hi.
Qed.

(** C02: a run of a+b iterations is a run of a iterations followed by a run of
    b iterations with initial_call=False (states, losses, trace, exceptions). *)
Theorem C02_split_run :
  forall a b initial_call m,
    call update_once compute_loss (a + b) initial_call m =
    seq_then (call update_once compute_loss a initial_call m)
             (call update_once compute_loss b false).
Proof. intros a b initial_call m. exact (call_split update_once compute_loss a b initial_call m). Qed.

(** C03: if the call raises, what was executed is a proper prefix of the
    schedule, the exception is the one raised by the very next scheduled
    action in the state reached, nothing after it was executed, and the loss
    attribute holds exactly the previously recorded losses plus the ones
    completed before the failure. *)
Theorem C03_exception :
  forall m n_iter initial_call m' tr x, wf m ->
    call update_once compute_loss n_iter initial_call m = (m', tr, Some x) ->
    exists e a rest s,
      x = UserExn e /\
      schedule n_iter initial_call (record_loss m) (length (cb_list m)) =
        map (@kind S L) tr ++ a :: rest /\
      chain update_once compute_loss (cb_list m) (st m) (loss m) tr s /\
      fails update_once compute_loss (cb_list m) s (loss m') a e (st m') /\
      loss m' = extend_loss (loss m) (losses_of tr).
Proof.
  intros m n_iter initial_call m' tr x Hwf H.
  destruct (call_ok update_once compute_loss n_iter initial_call m Hwf _ _ _ H)
    as (_ & _ & _ & Hl & Hx).
  destruct x as [e|]; [|contradiction].
  destruct Hx as (a & rest & s & Hp & Hc & Hf).
  exists e, a, rest, s. auto.
Qed.

(** the invariant used above holds initially and is kept by every call,
    failing or not *)
Theorem C03_object_stays_usable :
  forall cbs record s0, wf (@init S L E cbs record s0) /\
    forall m n_iter initial_call m' tr x, wf m ->
      call update_once compute_loss n_iter initial_call m = (m', tr, x) ->
      wf m' /\ callbacks m' = callbacks m /\ record_loss m' = record_loss m.
Proof.
  intros cbs record s0. split; [apply init_wf|].
  intros m n_iter initial_call m' tr x Hwf H.
  destruct (call_ok update_once compute_loss n_iter initial_call m Hwf _ _ _ H)
    as (Hcb & Hr & Hwf' & _). auto.
Qed.
End Statements.

(** Non-vacuity: a counter with two callbacks, one of them mutating the state,
    and an update that raises when the state reaches 7. *)
Definition ex_update (s : nat) : action_result nat nat :=
  if Nat.eqb s 7 then (s, Some 99) else (s + 1, None).
Definition ex_loss (s : nat) : nat + nat := inl (10 * s).
Definition ex_cbs : callbacks_arg nat nat nat :=
  CbList [ (fun s _ => (s, None)); (fun s ls => (s + 1, None)) ].
Definition ex_m := init ex_cbs true 0.

Example C01_nonvacuous :
  exists m' tr, call ex_update ex_loss 2 true ex_m = (m', tr, None) /\
                loss m' = Some [0; 20; 40] /\ st m' = 5.
Proof. vm_compute. eauto. Qed.

Example C03_nonvacuous :
  exists m' tr, call ex_update ex_loss 5 true ex_m = (m', tr, Some (UserExn 99)) /\
                loss m' = Some [0; 20; 40; 60].
Proof. vm_compute. eauto. Qed.

Print Assumptions C01_protocol.
Print Assumptions C01_counts.
Print Assumptions C02_split_run.
Print Assumptions C03_exception.
Print Assumptions C03_object_stays_usable.
