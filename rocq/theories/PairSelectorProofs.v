(** Proofs about the pair selectors. *)
From Coq Require Import List ZArith Lia Bool Sorting.Sorted.
From Verif Require Import PairSelector.
Import ListNotations.
Local Open Scope Z_scope.
Ltac Zify.zify_post_hook ::= Z.div_mod_to_equations.

Lemma seq_yield_map n sort ms : n <> 0 ->
  seq_yield n sort ms =
  (map (fun m => sort_pair sort (m mod n, (m + 1) mod n)) ms, None).
Proof.
  intros Hn. induction ms as [|m ms IH]; [reflexivity|]. cbn [seq_yield map].
  destruct (Z.eqb_spec n 0); [contradiction|]. rewrite IH. reflexivity.
Qed.

Lemma range_len_spec stop step : 0 < step -> 0 <= stop ->
  let k := Z.of_nat (range_len stop step) in step * (k - 1) < stop <= step * k.
Proof.
  intros Hs Hst. unfold range_len. destruct (Z.ltb_spec 0 step); [|lia].
  rewrite Z2Nat.id; [nia|]. apply Z.div_pos; lia.
Qed.

Lemma in_py_range stop step x : 0 < step ->
  In x (py_range stop step) <-> exists k, 0 <= k /\ x = step * k /\ x < stop.
Proof.
  intros Hs. unfold py_range. rewrite in_map_iff. split.
  - intros (k & <- & Hk). apply in_seq in Hk. exists (Z.of_nat k). split; [lia|]. split; [reflexivity|].
    destruct (Z.ltb_spec stop 0) as [Hneg|Hpos].
    + exfalso. unfold range_len in Hk. destruct (Z.ltb_spec 0 step); [|lia].
      assert ((stop + step - 1) / step <= 0); [|lia].
      apply Z.lt_succ_r. apply Z.div_lt_upper_bound; lia.
    + pose proof (range_len_spec stop step Hs Hpos). cbv zeta in *. nia.
  - intros (k & Hk & -> & Hlt). exists (Z.to_nat k). split; [rewrite Z2Nat.id by lia; reflexivity|].
    apply in_seq. split; [lia|].
    assert (0 <= stop) by nia.
    pose proof (range_len_spec stop step Hs ltac:(lia)). cbv zeta in *. nia.
Qed.

Lemma py_range_length stop step : length (py_range stop step) = range_len stop step.
Proof. unfold py_range. rewrite map_length, seq_length. reflexivity. Qed.

(** unordered pair *)
Definition same_pair (p q : Z * Z) : Prop :=
  (fst p = fst q /\ snd p = snd q) \/ (fst p = snd q /\ snd p = fst q).

Lemma sort_pair_same sort p : same_pair (sort_pair sort p) p.
Proof.
  destruct p as [m n]. unfold sort_pair, same_pair. destruct sort; [|auto].
  destruct (Z.ltb_spec n m); simpl; auto.
Qed.

Lemma sort_pair_sorted p : fst p <> snd p -> fst (sort_pair true p) < snd (sort_pair true p).
Proof. destruct p as [m n]; simpl. intros H. destruct (Z.ltb_spec n m); simpl; lia. Qed.

Lemma succ_mod_neq m n : 2 <= n -> m mod n <> (m + 1) mod n.
Proof.
  intros Hn H. pose proof (Z.mod_pos_bound m n ltac:(lia)).
  assert (Hm : (m + 1 - m) mod n = 0).
  { rewrite Zminus_mod, <- H, Z.sub_diag. apply Z.mod_0_l. lia. }
  replace (m + 1 - m) with 1 in Hm by lia. rewrite Z.mod_1_l in Hm by lia. lia.
Qed.

Definition valid_pair (n : Z) (p : Z * Z) : Prop :=
  0 <= fst p < n /\ 0 <= snd p < n /\ fst p <> snd p.

Lemma sequential_ok n stop step sort ys x : 2 <= n -> 0 < step ->
  sequential_pair_selector n stop step sort = (ys, x) ->
  x = None /\
  length ys = range_len (match stop with None => n | Some s => s end) step /\
  Forall (valid_pair n) ys /\
  (sort = true -> Forall (fun p => fst p < snd p) ys) /\
  Forall2 same_pair ys
    (fst (sequential_pair_selector n stop step false)) /\
  (forall k, (k < length ys)%nat ->
     same_pair (nth k ys (0, 0)) ((step * Z.of_nat k) mod n, (step * Z.of_nat k + 1) mod n)).
Proof.
  intros Hn Hs H. unfold sequential_pair_selector in *.
  set (stp := match stop with None => n | Some s => s end) in *.
  destruct (Z.eqb_spec step 0); [lia|]. rewrite seq_yield_map in * by lia.
  injection H as <- <-. split; [reflexivity|].
  split; [rewrite map_length, py_range_length; reflexivity|].
  assert (Hv : forall m, valid_pair n (sort_pair sort (m mod n, (m + 1) mod n))).
  { intros m. destruct (sort_pair_same sort (m mod n, (m + 1) mod n)) as [[H1 H2]|[H1 H2]];
      unfold valid_pair; rewrite H1, H2; simpl;
      pose proof (Z.mod_pos_bound m n ltac:(lia));
      pose proof (Z.mod_pos_bound (m + 1) n ltac:(lia));
      pose proof (succ_mod_neq m n Hn); intuition lia. }
  split; [apply Forall_map, Forall_forall; intros m _; apply Hv|].
  split.
  { intros ->. apply Forall_map, Forall_forall; intros m _. apply sort_pair_sorted.
    simpl. apply succ_mod_neq; exact Hn. }
  split.
  { cbn [fst]. generalize (py_range stp step) as l. induction l as [|m l IH]; constructor; auto.
    apply sort_pair_same. }
  intros k Hk. rewrite map_length in Hk.
  assert (Hnth : nth k (py_range stp step) 0 = step * Z.of_nat k).
  { unfold py_range. rewrite py_range_length in Hk.
    rewrite nth_indep with (d' := step * Z.of_nat 0) by (rewrite map_length, seq_length; lia).
    rewrite map_nth with (f := fun k => step * Z.of_nat k), seq_nth by lia. reflexivity. }
  rewrite nth_indep with (d' := sort_pair sort (0 mod n, (0 + 1) mod n)) by (rewrite map_length; lia).
  rewrite map_nth with (f := fun m => sort_pair sort (m mod n, (m + 1) mod n)) (d := 0).
  rewrite Hnth. apply sort_pair_same.
Qed.

Lemma range_len_one n : 0 <= n -> range_len n 1 = Z.to_nat n.
Proof. intros Hn. unfold range_len. simpl. rewrite Z.div_1_r. f_equal. lia. Qed.

Lemma sequential_default n sort ys x : 2 <= n ->
  sequential_pair_selector n None 1 sort = (ys, x) ->
  Z.of_nat (length ys) = n /\
  (forall s, 0 <= s < n -> exists p, In p ys /\ fst p = s \/ In p ys /\ snd p = s).
Proof.
  intros Hn H. destruct (sequential_ok n None 1 sort ys x Hn ltac:(lia) H)
    as (_ & Hlen & _ & _ & _ & Hnth). cbv match in Hlen. rewrite range_len_one in Hlen by lia.
  split; [lia|]. intros s Hs. exists (nth (Z.to_nat s) ys (0, 0)).
  assert (Hk : (Z.to_nat s < length ys)%nat) by lia.
  pose proof (nth_In ys (0, 0) Hk) as Hin.
  specialize (Hnth _ Hk). rewrite Z2Nat.id in Hnth by lia. rewrite Z.mul_1_l in Hnth.
  destruct Hnth as [[H1 H2]|[H1 H2]]; simpl in *; rewrite (Z.mod_small s n) in * by lia; auto.
Qed.

(* ------------------------------------------------------------------ *)
Lemma in_combinations2 l p :
  In p (combinations2 l) <->
  exists i j, (i < j < length l)%nat /\ p = (nth i l 0, nth j l 0).
Proof.
  induction l as [|x l IH]; simpl.
  - split; [tauto|]. intros (i & j & Hij & _). lia.
  - rewrite in_app_iff, in_map_iff, IH. split.
    + intros [(y & <- & Hy)|(i & j & Hij & ->)].
      * destruct (In_nth _ _ 0 Hy) as (j & Hj & <-). exists 0%nat, (S j). split; [lia|]. reflexivity.
      * exists (S i), (S j). split; [lia|]. reflexivity.
    + intros (i & j & Hij & ->). destruct j as [|j]; [lia|]. destruct i as [|i].
      * left. exists (nth j l 0). split; [reflexivity|]. apply nth_In. lia.
      * right. exists i, j. split; [lia|]. reflexivity.
Qed.

Definition lex (p q : Z * Z) : Prop := fst p < fst q \/ (fst p = fst q /\ snd p < snd q).

Lemma combinations2_sorted l : StronglySorted Z.lt l -> StronglySorted lex (combinations2 l).
Proof.
  induction 1 as [|x l Hl IH Hx]; simpl; [constructor|].
  assert (Happ : forall a b : list (Z * Z), StronglySorted lex a -> StronglySorted lex b ->
            (forall p q, In p a -> In q b -> lex p q) -> StronglySorted lex (a ++ b)).
  { induction 1 as [|p a Ha IHa Hp]; intros Hb Hab; simpl; [exact Hb|].
    constructor.
    - apply IHa; [exact Hb|]. intros p' q Hp' Hq. apply Hab; [right|]; assumption.
    - apply Forall_app. split; [exact Hp|]. apply Forall_forall. intros q Hq.
      apply Hab; [left; reflexivity|exact Hq]. }
  apply Happ; [| exact IH |].
  - clear -Hl. induction Hl as [|y l Hl IH Hy]; simpl; constructor; [exact IH|].
    apply Forall_map. eapply Forall_impl; [|exact Hy]. intros z Hz. right. simpl. lia.
  - intros p q Hp Hq. apply in_map_iff in Hp. destruct Hp as (y & <- & Hy).
    apply in_combinations2 in Hq. destruct Hq as (i & j & Hij & ->). left. simpl.
    rewrite Forall_forall in Hx. apply Hx. apply nth_In. lia.
Qed.

Lemma lex_sorted_nodup l : StronglySorted lex l -> NoDup l.
Proof.
  induction 1 as [|p l Hl IH Hp]; constructor; [|exact IH].
  intros Hin. rewrite Forall_forall in Hp. specialize (Hp _ Hin). unfold lex in Hp. lia.
Qed.

Lemma combinations2_length l :
  (2 * length (combinations2 l) = length l * (length l - 1))%nat.
Proof.
  induction l as [|x l IH]; [reflexivity|]. cbn [combinations2 length].
  rewrite app_length, map_length. nia.
Qed.

Lemma py_range_sorted n : StronglySorted Z.lt (py_range n 1).
Proof.
  unfold py_range. generalize (range_len n 1) as k. generalize 0%nat as b.
  intros b k. revert b. induction k as [|k IH]; intros b; cbn [seq map]; constructor; [apply IH|].
  apply Forall_map, Forall_forall. intros y Hy. apply in_seq in Hy. lia.
Qed.

Lemma py_range_nth n i : (i < length (py_range n 1))%nat -> nth i (py_range n 1) 0 = Z.of_nat i.
Proof.
  intros Hi. unfold py_range. rewrite py_range_length in Hi.
  rewrite nth_indep with (d' := 1 * Z.of_nat 0) by (rewrite map_length, seq_length; lia).
  rewrite map_nth with (f := fun k => 1 * Z.of_nat k), seq_nth by lia. lia.
Qed.

Lemma combination_unsorted n sort :
  combination_pair_selector n sort = combinations2 (py_range n 1).
Proof.
  unfold combination_pair_selector.
  rewrite <- map_id. apply map_ext_in. intros [a b] Hin.
  apply in_combinations2 in Hin. destruct Hin as (i & j & Hij & Heq).
  rewrite !py_range_nth in Heq by lia. injection Heq as -> ->.
  destruct sort; simpl; [|reflexivity]. destruct (Z.ltb_spec (Z.of_nat j) (Z.of_nat i)); [lia|reflexivity].
Qed.

Lemma combination_ok n sort : 0 <= n ->
  (forall a b, In (a, b) (combination_pair_selector n sort) <-> 0 <= a < b /\ b < n) /\
  NoDup (combination_pair_selector n sort) /\
  StronglySorted lex (combination_pair_selector n sort) /\
  2 * Z.of_nat (length (combination_pair_selector n sort)) = n * (n - 1).
Proof.
  intros Hn. rewrite combination_unsorted.
  assert (Hlen : length (py_range n 1) = Z.to_nat n)
    by (rewrite py_range_length; apply range_len_one; lia).
  split; [|split; [|split]].
  - intros a b. rewrite in_combinations2. split.
    + intros (i & j & Hij & Heq). rewrite !py_range_nth in Heq by lia. injection Heq as -> ->. lia.
    + intros Hab. exists (Z.to_nat a), (Z.to_nat b). split; [lia|].
      rewrite !py_range_nth by lia. rewrite !Z2Nat.id by lia. reflexivity.
  - apply lex_sorted_nodup, combinations2_sorted, py_range_sorted.
  - apply combinations2_sorted, py_range_sorted.
  - pose proof (combinations2_length (py_range n 1)) as H. rewrite Hlen in H. nia.
Qed.
