(** Properties C17, C18, C19, C20: softmax, logsumexp, flooring functions and
    their choice. *)
From Coq Require Import Reals String List Lra Lia.
From Verif Require Import Special SpecialProofs NpLin.
Import ListNotations.
Open Scope R_scope.

(** C17 *)
Theorem C17_formula l : l <> [] -> softmax l = Some (map (fun x => exp x / sumR (map exp l)) l).
Proof. exact (softmax_formula l). Qed.
Theorem C17_empty : softmax [] = None.
Proof. reflexivity. Qed.
Theorem C17_distribution l r : softmax l = Some r ->
  length r = length l /\ (forall y, In y r -> 0 < y <= 1) /\ sumR r = 1.
Proof.
  intros E. assert (H : l <> []) by (intros ->; cbn in E; discriminate).
  rewrite softmax_formula in E by assumption. injection E as <-. pose proof (sumexp_pos l H) as P.
  rewrite map_length. repeat split.
  - apply in_map_iff in H0 as (x & <- & _). apply Rdiv_lt_0_compat; [apply exp_pos|assumption].
  - apply in_map_iff in H0 as (x & <- & I). apply (Rmult_le_reg_r (sumR (map exp l))); [assumption|].
    unfold Rdiv. rewrite Rmult_assoc, Rinv_l, Rmult_1_r, Rmult_1_l by lra. apply sumexp_ge, I.
  - rewrite sum_div. field. lra.
Qed.
Theorem C17_shift l k : softmax (map (fun x => x + k) l) = softmax l.
Proof.
  destruct l as [|x l]; [reflexivity|].
  assert (H : x :: l <> []) by congruence.
  rewrite !softmax_formula; [|exact H|apply map_nonnil, H].
  f_equal. rewrite map_map. apply map_ext. intros y. rewrite shift_sum, exp_plus.
  pose proof (sumexp_pos _ H). pose proof (exp_pos k). field. lra.
Qed.
(** the order of the entries is preserved *)
Theorem C17_order l r i j d : softmax l = Some r -> (i < length l)%nat -> (j < length l)%nat ->
  nth i l d < nth j l d <-> nth i r d < nth j r d.
Proof.
  intros E Hi Hj. assert (H : l <> []) by (intros ->; cbn in E; discriminate).
  rewrite softmax_formula in E by assumption. injection E as <-. pose proof (sumexp_pos l H) as P.
  rewrite !(nth_indep (map _ _) d (exp d / sumR (map exp l))) by (rewrite map_length; assumption).
  rewrite !(map_nth (fun x => exp x / sumR (map exp l))).
  pose proof (Rinv_0_lt_compat _ P). unfold Rdiv. split; intros L.
  - apply Rmult_lt_compat_r; [assumption|]. apply exp_increasing, L.
  - apply exp_lt_inv. eapply Rmult_lt_reg_r; eassumption.
Qed.
Example C17_instance : exists r, softmax [0; 1; -3] = Some r /\ sumR r = 1.
Proof.
  destruct (softmax [0; 1; -3]) as [r|] eqn:E; [|discriminate].
  exists r. split; [reflexivity|]. apply (C17_distribution _ _ E).
Qed.

(** C18 *)
(** No overflow: an exponential that is only right for non-positive arguments (and may overflow for
    all others) is enough, for inputs of any magnitude. *)
Theorem C17_no_overflow ex l : (forall x, x <= 0 -> ex x = Some (exp x)) -> softmax_with ex l = softmax l.
Proof.
  intros H. unfold softmax, softmax_with. destruct (np_max l) as [m|] eqn:E; [|reflexivity]. cbv zeta.
  rewrite np_exp_exact, np_exp_agree; [reflexivity|].
  intros y Hy. apply in_map_iff in Hy as (x & <- & Hx). apply H. pose proof (np_max_ge _ _ E _ Hx). lra.
Qed.
Theorem C18_no_overflow ex l : (forall x, x <= 0 -> ex x = Some (exp x)) -> logsumexp_with ex l = logsumexp l.
Proof.
  intros H. unfold logsumexp, logsumexp_with. destruct (np_max l) as [m|] eqn:E; [|reflexivity].
  rewrite np_exp_exact, np_exp_agree; [reflexivity|].
  intros y Hy. apply in_map_iff in Hy as (x & <- & Hx). apply H. pose proof (np_max_ge _ _ E _ Hx). lra.
Qed.
(** an exponential which overflows beyond 709, as the one of binary64, meets the hypothesis *)
Example C17_no_overflow_instance :
  forall x, x <= 0 -> (fun x => if Rle_dec x 709 then Some (exp x) else None) x = Some (exp x).
Proof. intros x H. cbv beta. destruct (Rle_dec x 709); [reflexivity|lra]. Qed.

Theorem C18_formula l : l <> [] -> logsumexp l = Some (ln (sumR (map exp l))).
Proof. exact (logsumexp_formula l). Qed.
Theorem C18_empty : logsumexp [] = None.
Proof. reflexivity. Qed.
Theorem C18_bounds l v m : logsumexp l = Some v -> In m l -> (forall x, In x l -> x <= m) ->
  m <= v <= m + ln (INR (length l)).
Proof.
  intros E I M. assert (H : l <> []) by (intros ->; cbn in E; discriminate).
  rewrite logsumexp_formula in E by assumption. injection E as <-. pose proof (sumexp_pos l H) as P.
  assert (L : 0 < INR (length l)) by (apply lt_0_INR; destruct l; [congruence|cbn; lia]).
  split.
  - rewrite <- (ln_exp m) at 1. destruct (sumexp_ge l m I) as [h|h].
    + apply Rlt_le, ln_increasing; [apply exp_pos|exact h].
    + rewrite h. lra.
  - rewrite <- (ln_exp m) at 1. rewrite <- ln_mult by (try apply exp_pos; assumption).
    rewrite Rmult_comm. destruct (sumexp_le l m M) as [h|h].
    + apply Rlt_le, ln_increasing; assumption.
    + rewrite h. lra.
Qed.
Theorem C18_shift l k v : logsumexp l = Some v -> logsumexp (map (fun x => x + k) l) = Some (v + k).
Proof.
  intros E. assert (H : l <> []) by (intros ->; cbn in E; discriminate).
  rewrite logsumexp_formula in E by assumption. injection E as <-. pose proof (sumexp_pos l H) as P.
  rewrite logsumexp_formula by (apply map_nonnil, H). f_equal.
  rewrite shift_sum, ln_mult, ln_exp by (try apply exp_pos; assumption). lra.
Qed.
(** both functions agree: log softmax(x) = x - logsumexp(x) *)
Theorem C18_log_softmax l r v i d : softmax l = Some r -> logsumexp l = Some v -> (i < length l)%nat ->
  ln (nth i r d) = nth i l d - v.
Proof.
  intros E F Hi. assert (H : l <> []) by (intros ->; cbn in E; discriminate).
  rewrite softmax_formula in E by assumption. rewrite logsumexp_formula in F by assumption.
  injection E as <-. injection F as <-. pose proof (sumexp_pos l H) as P.
  rewrite (nth_indep (map _ _) d (exp d / sumR (map exp l))) by (rewrite map_length; assumption).
  rewrite (map_nth (fun x => exp x / sumR (map exp l))). unfold Rdiv.
  rewrite ln_mult, ln_Rinv, ln_exp; [lra|assumption|apply exp_pos|apply Rinv_0_lt_compat, P].
Qed.
Example C18_instance : exists v, logsumexp [0; 1; -3] = Some v /\ 1 <= v <= 1 + ln 3.
Proof.
  destruct (logsumexp [0; 1; -3]) as [v|] eqn:E; [|discriminate]. exists v. split; [reflexivity|].
  replace 3 with (INR (length [0; 1; -3])) by (simpl; lra).
  apply (C18_bounds _ _ _ E); cbn; [auto|]. intros x [<-|[<-|[<-|[]]]]; lra.
Qed.

(** C19 *)
Theorem C19_max_least eps x :
  x <= max_flooring eps x /\ eps <= max_flooring eps x /\
  forall y, x <= y -> eps <= y -> max_flooring eps x <= y.
Proof.
  unfold max_flooring. repeat split; [apply Rmax_l|apply Rmax_r|]. intros y. apply Rmax_lub.
Qed.
Theorem C19_max_idempotent eps x : max_flooring eps (max_flooring eps x) = max_flooring eps x.
Proof. unfold max_flooring. apply Rmax_left, Rmax_r. Qed.
Theorem C19_max_monotone eps x y : x <= y -> max_flooring eps x <= max_flooring eps y.
Proof. unfold max_flooring. intros H. apply Rle_max_compat_r, H. Qed.
(** flooring is active exactly below the floor *)
Theorem C19_max_fixed eps x : max_flooring eps x = x <-> eps <= x.
Proof.
  unfold max_flooring. split; intros H; [rewrite <- H; apply Rmax_r|apply Rmax_left, H].
Qed.
Theorem C19_add eps x y : add_flooring eps x - x = eps /\
  (0 < eps -> 0 <= x -> eps <= add_flooring eps x) /\
  (x <= y <-> add_flooring eps x <= add_flooring eps y).
Proof. unfold add_flooring. cbn. repeat split; intros; lra. Qed.
Theorem C19_identity x : identity_fl x = x.
Proof. reflexivity. Qed.
Example C19_instance : max_flooring (1/2) (1/4) = 1/2 /\ max_flooring (1/2) 1 = 1.
Proof. unfold max_flooring. split; [apply Rmax_right|apply Rmax_left]; lra. Qed.

(** C20 *)
Open Scope string_scope.
(** what the documentation promises: None is the identity function, "self" the
    flooring function of the method object, a callable itself *)
Definition documented (a : fl_arg) (m : fl_method) : option (R -> R) :=
  match a, m with
  | ANone, _ => Some (fun x => x)
  | AFun f, _ => Some f
  | AStr s, Attr (AFun f) => if String.eqb s "self" then Some f else None
  | AStr s, (NoMethod | NoAttr) => if String.eqb s "self" then Some (fun x => x) else None
  | _, _ => None
  end.

Theorem C20_documented_choice a m : (a <> ANone \/ m = NoMethod) ->
  choose_flooring_fn a m = match documented a m with Some f => FlFun f | None => FlAssertion end.
Proof.
  intros H. destruct a as [|s|f|]; destruct m as [| |[|s'|g|]]; cbn; try reflexivity;
    try (destruct H; congruence); destruct (String.eqb s "self"); reflexivity.
Qed.
(** every call from an update method passes [method=self]; None then raises *)
Theorem C20_none_refuted : exists m f, documented ANone m = Some f /\
  choose_flooring_fn ANone m = FlAssertion.
Proof. exists (Attr (AFun (fun x => x))), (fun x => x). split; reflexivity. Qed.
Theorem C20_none_always_fails m : m <> NoMethod -> choose_flooring_fn ANone m = FlAssertion.
Proof. destruct m; cbn; congruence. Qed.
Example C20_instance : choose_flooring_fn (AStr "self") (Attr (AFun (fun x => x + 1))) = FlFun (fun x => x + 1).
Proof. reflexivity. Qed.

Print Assumptions C17_distribution.
Print Assumptions C17_shift.
Print Assumptions C17_order.
Print Assumptions C18_formula.
Print Assumptions C18_bounds.
Print Assumptions C18_shift.
Print Assumptions C18_log_softmax.
Print Assumptions C19_max_least.
Print Assumptions C19_add.
Print Assumptions C20_documented_choice.
Print Assumptions C20_none_refuted.
