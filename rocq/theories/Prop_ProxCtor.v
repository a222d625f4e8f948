(** Property C58: recording of the loss by the proximal methods. *)
From Coq Require Import List Bool Arith Lia.
From Verif Require Import Iter IterProofs Prop_Iter ProxCtor.
Import ListNotations.
Set Implicit Arguments.

Section C58.
Variables (S L : Type) (value : S -> L) (update : S -> S).
Notation run := (run value update).
Lemma run_default_none o s k ic : o_record o = false -> exists m tr, run o s k ic = (m, tr, None) /\ loss m = None.
Proof.
  intros h. unfold ProxCtor.run.
  assert (G : forall k m, record_loss m = false -> loss m = None -> callbacks m = None ->
    exists m' tr, iterations (fun s => (update s, @None ctor_error)) (loss_of value o) k m = (m', tr, None) /\ loss m' = None).
  { induction k0 as [|k0 IH]; intros m h1 h2 h3; [exists m, []; auto|].
    simpl. unfold one_iteration, do_update, do_loss, do_callbacks; simpl. rewrite h1; simpl. rewrite h3; simpl.
    destruct (IH (set_st m (update (st m)))) as [m' [tr [-> h']]]; auto. exists m'; eexists; split; [reflexivity|auto]. }
  unfold call. rewrite h.
  destruct (G k (init CbNone false s)) as [m' [tr [E h']]]; auto.
  assert (e0 : seq_then (do_loss (loss_of value o) (init CbNone false s)) (@do_callbacks S L ctor_error) = (init CbNone false s, [], None)) by reflexivity.
  exists m', tr; destruct ic; [rewrite e0|]; unfold seq_then; rewrite E; auto.
Qed.
(** With record_loss=True, the losses of all iterations are recorded: one value per update and one
    for the initial state. *)
Theorem C58_recorded a o s k ic : prox_init a = inl o -> a_record a = Some true ->
  exists m tr ls, run o s k ic = (m, tr, None) /\ loss m = Some ls /\ length ls = k + (if ic then 1 else 0).
Proof.
  intros h1 h2.
  assert (R : o_record o = true /\ exists n, o_penalty o = FnList n).
  { unfold prox_init in h1; rewrite h2 in h1.
    destruct (a_penalty a), (a_prox a); simpl in h1; try discriminate;
      destruct (check_reference a); try discriminate; destruct (check_alpha a); try discriminate;
      repeat match goal with H : context[match ?x with _ => _ end] |- _ => destruct x; try discriminate end;
      injection h1 as <-; simpl; eauto. }
  destruct R as [R [n Pn]].
  unfold ProxCtor.run. rewrite R. destruct (call _ _ _ _ _) as [[m tr] x] eqn:E.
  destruct x as [x|].
  - exfalso. apply C03_exception in E; [|apply init_wf].
    destruct E as [e [a' [rest [s' [_ [_ [_ [F _]]]]]]]].
    inversion F; subst; unfold loss_of in *; rewrite ?Pn in *; try discriminate.
    match goal with H : nth_error _ ?i = Some _ |- _ => destruct i; discriminate end.
  - apply C01_counts in E; [|apply init_wf]. destruct E as [_ [E [E2 _]]]. simpl in E, E2.
    exists m, tr, (losses_of tr). split; [reflexivity|]. split; [exact E|]. rewrite E2. destruct ic; reflexivity.
Qed.
(** The constructors resolve the default record_loss=None to True when a penalty function is given,
    and the documentation of the masking classes promises that default; the resolved value is
    never stored and nothing is recorded. *)
Theorem C58_default a o s k ic : prox_init a = inl o \/ masking_init a = inl o -> a_record a = None ->
  exists m tr, run o s k ic = (m, tr, None) /\ loss m = None.
Proof.
  intros h h2. apply run_default_none.
  assert (e : o_record o = truth (a_record a)); [|rewrite e, h2; reflexivity].
  destruct h as [h|h].
  - unfold prox_init in h; rewrite h2 in *.
    destruct (a_penalty a), (a_prox a); simpl in h; try discriminate;
      repeat match goal with H : context[if ?x then _ else _] |- _ => destruct x; try discriminate end;
      injection h as <-; reflexivity.
  - unfold masking_init in h; rewrite h2 in *.
    destruct (a_penalty a), (a_prox a); simpl in h; try discriminate;
      repeat match goal with H : context[if ?x then _ else _] |- _ => destruct x; try discriminate end;
      injection h as <-; reflexivity.
Qed.
(** A masking object that does record fails at the first loss: the single penalty function is not
    put into a list. *)
Theorem C58_masking a o s k ic : masking_init a = inl o -> a_record a = Some true -> (ic = true \/ 0 < k) ->
  exists m tr, run o s k ic = (m, tr, Some (UserExn TypeErr)).
Proof.
  intros h h2 h3.
  assert (R : o_record o = true /\ o_penalty o = FnCallable).
  { unfold masking_init in h; rewrite h2 in *.
    destruct (a_penalty a), (a_prox a); simpl in h; try discriminate;
      repeat match goal with H : context[if ?x then _ else _] |- _ => destruct x; try discriminate end;
      injection h as <-; auto. }
  destruct R as [R Pn]. unfold ProxCtor.run. rewrite R.
  destruct ic.
  - unfold call, do_loss, loss_of; simpl. rewrite Pn; simpl. eauto.
  - destruct k as [|k]; [destruct h3; [discriminate|lia]|].
    unfold call; simpl. unfold one_iteration, do_update, do_loss, loss_of; simpl. rewrite Pn; simpl. eauto.
Qed.
(** record_loss=False never records and never fails *)
Theorem C58_off a o s k ic : prox_init a = inl o \/ masking_init a = inl o -> a_record a = Some false ->
  exists m tr, run o s k ic = (m, tr, None) /\ loss m = None.
Proof.
  intros h h2. apply run_default_none.
  assert (e : o_record o = truth (a_record a)); [|rewrite e, h2; reflexivity].
  destruct h as [h|h].
  - unfold prox_init in h; rewrite h2 in *.
    destruct (a_penalty a), (a_prox a); simpl in h; try discriminate;
      repeat match goal with H : context[if ?x then _ else _] |- _ => destruct x; try discriminate end;
      injection h as <-; reflexivity.
  - unfold masking_init in h; rewrite h2 in *.
    destruct (a_penalty a), (a_prox a); simpl in h; try discriminate;
      repeat match goal with H : context[if ?x then _ else _] |- _ => destruct x; try discriminate end;
      injection h as <-; reflexivity.
Qed.
End C58.

(** which argument combinations are accepted *)
Definition nonempty_fn (f : fn_arg) : Prop := f <> FnNone.
Definition fn_len (f : fn_arg) : nat := match f with FnNone => 0 | FnCallable => 1 | FnList n => n end.
Theorem C58_accepts a : (exists o, prox_init a = inl o) <->
  a_prox a <> FnNone /\ (a_penalty a = FnNone -> a_record a <> Some true) /\
  (a_penalty a <> FnNone -> fn_len (a_penalty a) = fn_len (a_prox a)) /\
  (a_reference a = None -> a_scale a = false) /\ (a_alpha a = true -> a_relaxation_is_1 a = true).
Proof.
  unfold prox_init, check_reference, check_alpha.
  destruct a as [pf px sc rc rf al re]; simpl.
  split.
  - intros [o h].
    destruct pf, px, rc as [[]|], rf, sc, al, re; simpl in *; try discriminate;
    repeat match goal with H : context[if ?x then _ else _] |- _ => destruct x eqn:?; try discriminate end;
    repeat split; try congruence; intros; try congruence;
    repeat match goal with H : (_ =? _) = true |- _ => apply Nat.eqb_eq in H end;
    repeat match goal with H : match ?x with _ => _ end = true |- _ => destruct x; try discriminate end; congruence.
  - intros (h1 & h2 & h3 & h4 & h5).
    assert (e : pf = FnNone \/ fn_len pf = fn_len px) by (destruct pf; [left; reflexivity|right; apply h3; discriminate|right; apply h3; discriminate]).
    destruct pf as [| |np], px as [| |nx]; simpl in *; try congruence;
    destruct rc as [[]|]; try (exfalso; apply h2; reflexivity); simpl;
    destruct rf; simpl; try (rewrite h4 by reflexivity; simpl);
    destruct al; simpl; try (rewrite h5 by reflexivity; simpl);
    try (destruct e as [e|e]; [discriminate e|]; subst; rewrite ?Nat.eqb_refl); simpl; eauto;
    destruct nx as [|[]]; try discriminate; simpl; eauto.
Qed.

(** the masking classes take a single mask and at most a single penalty function *)
Theorem C58_masking_accepts a : (exists o, masking_init a = inl o) <->
  a_prox a = FnCallable /\ (a_penalty a = FnCallable \/ a_penalty a = FnNone /\ a_record a <> Some true) /\
  (a_reference a = None -> a_scale a = false) /\ (a_alpha a = true -> a_relaxation_is_1 a = true).
Proof.
  unfold masking_init, check_reference, check_alpha.
  destruct a as [pf px sc rc rf al re]; simpl.
  split.
  - intros [o h].
    destruct pf, px, rc as [[]|], rf, sc, al, re; simpl in *; try discriminate;
    repeat split; try congruence; try (left; congruence); right; split; congruence.
  - intros (h1 & h2 & h3 & h4). subst px.
    destruct h2 as [-> | [-> h2]];
    destruct rc as [[]|]; try (exfalso; apply h2; reflexivity); simpl;
    destruct rf; simpl; try (rewrite h3 by reflexivity; simpl);
    destruct al; simpl; try (rewrite h4 by reflexivity; simpl); eauto.
Qed.

(** PDSBSS with a penalty function and default arguments; a masking object asked to record *)
Example C58_instance :
  let a := Args FnCallable FnCallable true None (Some 0) false true in
  let b := Args FnCallable FnCallable true (Some true) (Some 0) false true in
  (exists o, prox_init a = inl o) /\ (exists o, prox_init b = inl o) /\ exists o, masking_init b = inl o.
Proof. repeat split; eexists; reflexivity. Qed.
(** hence the documented default fails for some constructible object *)
Theorem C58_refuted : exists a o, a_penalty a = FnCallable /\ a_record a = None /\ masking_init a = inl o /\
  forall k ic, exists m tr, run (fun s : nat => s) S o 0 k ic = (m, tr, None) /\ loss m = None.
Proof.
  exists (Args FnCallable FnCallable true None (Some 0) false true). eexists. repeat split.
  intros k ic. eapply C58_default with (a := Args FnCallable FnCallable true None (Some 0) false true); [right; reflexivity|reflexivity].
Qed.
Print Assumptions C58_recorded.
Print Assumptions C58_default.
Print Assumptions C58_masking.
Print Assumptions C58_off.
Print Assumptions C58_accepts.
Print Assumptions C58_masking_accepts.
Print Assumptions C58_refuted.
