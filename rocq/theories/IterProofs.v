(** Proofs about the iteration protocol model [Iter]. *)
From Coq Require Import List Arith Lia Bool.
From Verif Require Import Iter.
Import ListNotations.

Section IterProofs.
Context {S L E : Type}.
Variable update_once : S -> action_result S E.
Variable compute_loss : S -> L + E.
Notation method := (@Iter.method S L E).
Notation event := (@Iter.event S L).
Notation exn := (@Iter.exn E).
Notation callback := (@Iter.callback S L E).
Notation do_update := (@Iter.do_update S L E update_once).
Notation do_loss := (@Iter.do_loss S L E compute_loss).
Notation do_callbacks := (@Iter.do_callbacks S L E).
Notation one_iteration := (@Iter.one_iteration S L E update_once compute_loss).
Notation iterations := (@Iter.iterations S L E update_once compute_loss).
Notation call := (@Iter.call S L E update_once compute_loss).
Notation chain := (@Iter.chain S L E update_once compute_loss).
Notation fails := (@Iter.fails S L E update_once compute_loss).
Notation run_ok := (@Iter.run_ok S L E update_once compute_loss).
Implicit Types (m : method) (tr t : list event) (r : outcome S L E).

(* ------------------------------------------------------------------ *)
(** * Proofs *)

Lemma losses_of_app t1 t2 : losses_of (t1 ++ t2) = losses_of t1 ++ losses_of t2.
Proof. unfold losses_of. apply flat_map_app. Qed.

Lemma extend_loss_app (o : option (list L)) l1 l2 : extend_loss (extend_loss o l1) l2 = extend_loss o (l1 ++ l2).
Proof. destruct o as [l0|]; simpl; [rewrite app_assoc|]; reflexivity. Qed.

Lemma chain_app cs t1 t2 s1 s2 s3 ls :
  chain cs s1 ls t1 s2 -> chain cs s2 (extend_loss ls (losses_of t1)) t2 s3 ->
  chain cs s1 ls (t1 ++ t2) s3.
Proof.
  intros H; revert t2 s3; induction H as [s ls|s s' ls tr s'' Hu Hc IH|s l ls tr s'' Hl Hc IH
    |i c s s' ls tr s'' Hn Hcb Hc IH]; intros t2 s3 H2; simpl in *.
  - destruct ls as [l0|]; simpl in H2; [rewrite app_nil_r in H2|]; exact H2.
  - apply chain_update; auto.
  - apply chain_loss; auto. apply IH. simpl. rewrite <- app_assoc. exact H2.
  - eapply chain_callback; eauto.
Qed.

Lemma run_ok_seq m plan1 plan2 r (k : method -> outcome S L E) :
  (forall m1 t1 x1, r = (m1, t1, x1) -> run_ok m m1 t1 x1 plan1) ->
  (forall m1, wf m1 -> callbacks m1 = callbacks m -> record_loss m1 = record_loss m ->
     forall m2 t2 x2, k m1 = (m2, t2, x2) -> run_ok m1 m2 t2 x2 plan2) ->
  forall m' t x, seq_then r k = (m', t, x) -> run_ok m m' t x (plan1 ++ plan2).
Proof.
  intros H1 H2 m' t x Heq. destruct r as [[m1 t1] x1]. specialize (H1 _ _ _ eq_refl).
  destruct H1 as (Hcb & Hrec & Hwf & Hloss & Hx).
  destruct x1 as [x1|]; simpl in Heq.
  - injection Heq as <- <- <-. repeat split; auto.
    destruct x1 as [e|]; [|exact Hx].
    destruct Hx as (a & rest & s & Hp & Hc & Hf).
    exists a, (rest ++ plan2), s. split; [|split; assumption].
    rewrite Hp, <- app_assoc. reflexivity.
  - destruct (k m1) as [[m2 t2] x2] eqn:Hk. injection Heq as <- <- <-.
    specialize (H2 m1 Hwf Hcb Hrec _ _ _ Hk).
    destruct H2 as (Hcb2 & Hrec2 & Hwf2 & Hloss2 & Hx2). destruct Hx as [Hp1 Hc1].
    assert (Hcl : cb_list m1 = cb_list m) by (unfold cb_list; rewrite Hcb; reflexivity).
    repeat split; try congruence; auto.
    + rewrite Hloss2, Hloss, extend_loss_app, losses_of_app. reflexivity.
    + destruct x2 as [[e|]|].
      * destruct Hx2 as (a & rest & s & Hp & Hc & Hf).
        exists a, rest, s. rewrite Hcl in *. repeat split.
        -- rewrite map_app, Hp1, Hp, app_assoc. reflexivity.
        -- eapply chain_app; [exact Hc1|]. rewrite <- Hloss. exact Hc.
        -- exact Hf.
      * exact Hx2.
      * destruct Hx2 as [Hp2 Hc2]. split.
        -- rewrite map_app, Hp1, Hp2. reflexivity.
        -- eapply chain_app; [exact Hc1|]. rewrite <- Hloss, <- Hcl. exact Hc2.
Qed.

Lemma wf_set_st m s : wf m -> wf (set_st m s).
Proof. unfold wf, set_st; simpl; auto. Qed.

Lemma extend_nil (o : option (list L)) : extend_loss o [] = o.
Proof. destruct o; simpl; rewrite ?app_nil_r; reflexivity. Qed.

Lemma do_update_ok m : wf m -> forall m' t x, do_update m = (m', t, x) -> run_ok m m' t x [AUpdate].
Proof.
  intros Hwf m' t x H. unfold do_update in H.
  destruct (update_once (st m)) as [s' [e|]] eqn:Hu; injection H as <- <- <-.
  - repeat split; auto using wf_set_st; [simpl; rewrite extend_nil; reflexivity|].
    exists AUpdate, [], (st m). split; [reflexivity|]. split; [apply chain_nil|].
    apply fails_update. exact Hu.
  - repeat split; auto using wf_set_st; [simpl; rewrite extend_nil; reflexivity|].
    simpl. apply chain_update; [exact Hu|apply chain_nil].
Qed.

Lemma do_loss_ok m : wf m -> forall m' t x, do_loss m = (m', t, x) ->
  run_ok m m' t x (if record_loss m then [ALoss] else []).
Proof.
  intros Hwf m' t x H. unfold do_loss in H. pose proof Hwf as Hwf'. unfold wf in Hwf'.
  destruct (record_loss m) eqn:Hr.
  - destruct Hwf' as [ls Hls]. rewrite Hls in H.
    destruct (compute_loss (st m)) as [l|e] eqn:Hl; injection H as <- <- <-.
    + unfold run_ok; simpl. rewrite Hls. repeat split; auto.
      * unfold wf; simpl; rewrite Hr; eauto.
      * apply chain_loss; [exact Hl|apply chain_nil].
    + unfold run_ok; simpl. rewrite extend_nil. repeat split; auto.
      exists ALoss, [], (st m). split; [reflexivity|]. split; [apply chain_nil|].
      apply fails_loss; exact Hl.
  - injection H as <- <- <-. unfold run_ok; simpl. rewrite extend_nil. repeat split; auto.
    apply chain_nil.
Qed.

Lemma do_callback_list_ok m cs i : wf m -> cb_list m = firstn i (cb_list m) ++ cs ->
  i + length cs = length (cb_list m) ->
  forall m' t x, do_callback_list i cs m = (m', t, x) ->
  run_ok m m' t x (map ACallback (seq i (length cs))).
Proof.
  revert m i. induction cs as [|c cs IH]; intros m i Hwf Hcs Hlen m' t x H; cbn [do_callback_list] in H.
  - injection H as <- <- <-. unfold run_ok; simpl. rewrite extend_nil. repeat split; auto.
    apply chain_nil.
  - simpl in Hlen.
    assert (Hnth : nth_error (cb_list m) i = Some c).
    { rewrite Hcs, nth_error_app2; rewrite firstn_length_le by lia; [|lia].
      rewrite Nat.sub_diag. reflexivity. }
    destruct (c (st m) (loss m)) as [s' [e|]] eqn:Hc.
    + injection H as <- <- <-. unfold run_ok; simpl. rewrite extend_nil.
      repeat split; auto using wf_set_st.
      exists (ACallback i), (map ACallback (seq (Datatypes.S i) (length cs))), (st m).
      split; [reflexivity|]. split; [apply chain_nil|].
      eapply fails_callback; eauto.
    + change (map ACallback (seq i (length (c :: cs))))
        with ([ACallback i] ++ map ACallback (seq (Datatypes.S i) (length cs))).
      eapply run_ok_seq; [| |exact H].
      * intros m1 t1 x1 H1. injection H1 as <- <- <-. unfold run_ok; simpl.
        rewrite extend_nil. repeat split; auto using wf_set_st.
        eapply chain_callback; eauto. apply chain_nil.
      * intros m1 Hwf1 Hcb1 _ m2 t2 x2 H2.
        assert (Hcl : cb_list m1 = cb_list m) by (unfold cb_list; rewrite Hcb1; reflexivity).
        replace (Datatypes.S i) with (i + 1) by lia.
        apply IH; auto; rewrite ?Hcl; [|lia].
        rewrite Hcs at 1.
        replace (firstn (i + 1) (cb_list m)) with (firstn i (cb_list m) ++ [c]);
          [rewrite <- app_assoc; reflexivity|].
        rewrite Hcs at 2. rewrite firstn_app, firstn_firstn.
        replace (Nat.min (i + 1) i) with i by lia.
        rewrite firstn_length_le by lia.
        replace (i + 1 - i) with 1 by lia. reflexivity.
Qed.

Lemma do_callbacks_ok m : wf m -> forall m' t x, do_callbacks m = (m', t, x) ->
  run_ok m m' t x (map ACallback (seq 0 (length (cb_list m)))).
Proof.
  intros Hwf m' t x H. unfold do_callbacks in H. unfold cb_list.
  destruct (callbacks m) as [cs|] eqn:Hcb.
  - apply do_callback_list_ok; auto; unfold cb_list; rewrite Hcb; reflexivity.
  - injection H as <- <- <-. unfold run_ok; simpl. rewrite extend_nil. repeat split; auto.
    apply chain_nil.
Qed.

Lemma cb_list_eq m1 m : callbacks m1 = callbacks m -> cb_list m1 = cb_list m.
Proof. unfold cb_list; intros ->; reflexivity. Qed.

Lemma report_ok m : wf m -> forall m' t x,
  seq_then (do_loss m) do_callbacks = (m', t, x) ->
  run_ok m m' t x (report_schedule (record_loss m) (length (cb_list m))).
Proof.
  intros Hwf m' t x H. unfold report_schedule. eapply run_ok_seq; [| |exact H].
  - intros m1 t1 x1 H1. apply do_loss_ok; assumption.
  - intros m1 Hwf1 Hcb _ m2 t2 x2 H2. rewrite <- (cb_list_eq _ _ Hcb).
    apply do_callbacks_ok; assumption.
Qed.

Lemma seq_then_assoc r (k1 k2 : method -> outcome S L E) :
  seq_then (seq_then r k1) k2 = seq_then r (fun m => seq_then (k1 m) k2).
Proof.
  destruct r as [[m t] [x|]]; simpl; [reflexivity|].
  destruct (k1 m) as [[m1 t1] [x1|]]; simpl; [reflexivity|].
  destruct (k2 m1) as [[m2 t2] x2]. rewrite app_assoc. reflexivity.
Qed.

Lemma one_iteration_ok m : wf m -> forall m' t x, one_iteration m = (m', t, x) ->
  run_ok m m' t x (AUpdate :: report_schedule (record_loss m) (length (cb_list m))).
Proof.
  intros Hwf m' t x H. unfold one_iteration in H. rewrite seq_then_assoc in H.
  change (AUpdate :: ?l) with ([AUpdate] ++ l).
  eapply run_ok_seq; [| |exact H].
  - intros m1 t1 x1 H1. apply do_update_ok; assumption.
  - intros m1 Hwf1 Hcb Hrec m2 t2 x2 H2. cbv beta in H2.
    rewrite <- (cb_list_eq _ _ Hcb), <- Hrec. apply report_ok; assumption.
Qed.

Lemma iterations_ok n m : wf m -> forall m' t x, iterations n m = (m', t, x) ->
  run_ok m m' t x
    (concat (repeat (AUpdate :: report_schedule (record_loss m) (length (cb_list m))) n)).
Proof.
  revert m. induction n as [|n IH]; intros m Hwf m' t x H; cbn [iterations repeat concat] in *.
  - injection H as <- <- <-. unfold run_ok; simpl. rewrite extend_nil. repeat split; auto.
    apply chain_nil.
  - eapply run_ok_seq; [| |exact H].
    + intros m1 t1 x1 H1. apply one_iteration_ok; assumption.
    + intros m1 Hwf1 Hcb Hrec m2 t2 x2 H2.
      rewrite <- (cb_list_eq _ _ Hcb), <- Hrec. apply IH; assumption.
Qed.

Lemma call_ok n ini m : wf m -> forall m' t x, call n ini m = (m', t, x) ->
  run_ok m m' t x (schedule n ini (record_loss m) (length (cb_list m))).
Proof.
  intros Hwf m' t x H. unfold call in H. unfold schedule.
  eapply run_ok_seq; [| |exact H].
  - intros m1 t1 x1 H1. destruct ini.
    + apply report_ok; assumption.
    + injection H1 as <- <- <-. unfold run_ok; simpl. rewrite extend_nil. repeat split; auto.
      apply chain_nil.
  - intros m1 Hwf1 Hcb Hrec m2 t2 x2 H2.
    rewrite <- (cb_list_eq _ _ Hcb), <- Hrec. apply iterations_ok; assumption.
Qed.

Lemma init_wf (cbs : callbacks_arg S L E) record s : wf (init cbs record s).
Proof. unfold wf, init; simpl. destruct record; eauto. Qed.

Lemma count_app a l1 l2 : count a (l1 ++ l2) = count a l1 + count a l2.
Proof. unfold count. rewrite filter_app, app_length. reflexivity. Qed.

Lemma count_concat_repeat a l n : count a (concat (repeat l n)) = n * count a l.
Proof. induction n as [|n IH]; simpl; [reflexivity|]. rewrite count_app, IH. reflexivity. Qed.

Lemma count_cb_other a l : (forall i, a <> ACallback i) -> count a (map ACallback l) = 0.
Proof.
  intros Ha. induction l as [|i l IH]; [reflexivity|]. unfold count in *; simpl.
  destruct a; simpl; try exact IH. exfalso. eapply Ha; reflexivity.
Qed.

Lemma count_cb i b n : count (ACallback i) (map ACallback (seq b n)) =
  if andb (b <=? i) (i <? b + n) then 1 else 0.
Proof.
  revert b. induction n as [|n IH]; intros b; simpl.
  - destruct (Nat.leb_spec b i), (Nat.ltb_spec i (b + 0)); simpl; try reflexivity; lia.
  - unfold count in *. simpl. destruct (Nat.eqb_spec i b) as [->|Hne]; simpl; rewrite IH.
    + destruct (Nat.leb_spec (Datatypes.S b) b), (Nat.ltb_spec b (Datatypes.S b + n)),
        (Nat.leb_spec b b), (Nat.ltb_spec b (b + Datatypes.S n)); simpl; try reflexivity; lia.
    + destruct (Nat.leb_spec (Datatypes.S b) i), (Nat.ltb_spec i (Datatypes.S b + n)),
        (Nat.leb_spec b i), (Nat.ltb_spec i (b + Datatypes.S n)); simpl; try reflexivity; lia.
Qed.


Lemma schedule_updates n ini (r : bool) k : count AUpdate (schedule n ini r k) = n.
Proof.
  unfold schedule, report_schedule. rewrite count_app, count_concat_repeat.
  change (AUpdate :: ?l) with ([AUpdate] ++ l). rewrite !count_app.
  rewrite count_cb_other by congruence.
  destruct ini, r; rewrite ?count_app, ?count_cb_other by congruence; cbn; lia.
Qed.

Lemma schedule_losses n ini (r : bool) k :
  count ALoss (schedule n ini r k) = if r then n + b2n ini else 0.
Proof.
  unfold schedule, report_schedule. rewrite count_app, count_concat_repeat.
  change (AUpdate :: ?l) with ([AUpdate] ++ l). rewrite !count_app.
  rewrite count_cb_other by congruence.
  destruct ini, r; rewrite ?count_app, ?count_cb_other by congruence; cbn; lia.
Qed.

Lemma schedule_callbacks n ini (r : bool) k i :
  i < k -> count (ACallback i) (schedule n ini r k) = n + b2n ini.
Proof.
  intros Hi. unfold schedule, report_schedule. rewrite count_app, count_concat_repeat.
  change (AUpdate :: ?l) with ([AUpdate] ++ l). rewrite !count_app, count_cb.
  destruct (Nat.leb_spec 0 i), (Nat.ltb_spec i (0 + k)); simpl; try lia.
  destruct ini, r; rewrite ?count_app, ?count_cb; cbn [b2n];
    destruct (Nat.leb_spec 0 i), (Nat.ltb_spec i (0 + k)); cbn; try lia.
Qed.

Lemma losses_length tr : length (losses_of tr) = count ALoss (map (@kind S L) tr).
Proof.
  induction tr as [|e tr IH]; [reflexivity|].
  change (losses_of (e :: tr)) with
    (match e with EvLoss _ l => [l] | _ => [] end ++ losses_of tr).
  rewrite app_length, IH. destruct e; unfold count; simpl; try lia.
Qed.

(** splitting *)
Lemma seq_then_nil m (k : method -> outcome S L E) : seq_then (m, [], None) k = k m.
Proof. simpl. destruct (k m) as [[m' t] x]. reflexivity. Qed.

Lemma seq_then_ext r (k1 k2 : method -> outcome S L E) : (forall m, k1 m = k2 m) -> seq_then r k1 = seq_then r k2.
Proof. intros H. destruct r as [[m t] [x|]]; simpl; [|rewrite H]; reflexivity. Qed.

Lemma iterations_add a b m : iterations (a + b) m = seq_then (iterations a m) (iterations b).
Proof.
  revert m. induction a as [|a IH]; intros m; cbn [iterations plus].
  - rewrite seq_then_nil. reflexivity.
  - rewrite seq_then_assoc. apply seq_then_ext, IH.
Qed.

Lemma call_split a b ini m :
  call (a + b) ini m = seq_then (call a ini m) (call b false).
Proof.
  unfold call. rewrite seq_then_assoc. apply seq_then_ext. intros m1.
  rewrite iterations_add. apply seq_then_ext. intros m2. rewrite seq_then_nil. reflexivity.
Qed.

End IterProofs.
