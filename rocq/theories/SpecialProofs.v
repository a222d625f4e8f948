From Coq Require Import Reals String List Lra Lia.
From Verif Require Import Special.
Import ListNotations.
Open Scope R_scope.

Lemma sumR_map_scale (k : R) l : sumR (map (fun x => k * x) l) = k * sumR l.
Proof. induction l as [|x l IH]; cbn; [|rewrite IH]; lra. Qed.
Lemma sumR_pos l : (forall x, In x l -> 0 <= x) -> 0 <= sumR l.
Proof.
  induction l as [|x l IH]; cbn; intros H; [lra|].
  assert (0 <= x) by (apply H; auto). assert (0 <= sumR l) by (apply IH; auto). lra.
Qed.
Lemma sumexp_pos l : l <> [] -> 0 < sumR (map exp l).
Proof.
  destruct l as [|x l]; intros H; [congruence|]. cbn. pose proof (exp_pos x).
  assert (0 <= sumR (map exp l)).
  { apply sumR_pos. intros y Hy. apply in_map_iff in Hy as (z & <- & _). apply Rlt_le, exp_pos. }
  lra.
Qed.
Lemma exp_shift l v : map (fun x => exp (x - v)) l = map (fun y => exp (- v) * y) (map exp l).
Proof.
  rewrite map_map. apply map_ext. intros x. rewrite <- exp_plus. f_equal. lra.
Qed.
Lemma sumexp_shift l v : sumR (map (fun x => exp (x - v)) l) = exp (- v) * sumR (map exp l).
Proof. rewrite exp_shift, sumR_map_scale. reflexivity. Qed.

Lemma np_exp_exact l : np_exp (fun x => Some (exp x)) l = Some (map exp l).
Proof. induction l as [|x l IH]; cbn; [|rewrite IH]; reflexivity. Qed.
Lemma np_exp_agree ex l : (forall x, In x l -> ex x = Some (exp x)) -> np_exp ex l = Some (map exp l).
Proof.
  induction l as [|x l IH]; cbn; intros H; [reflexivity|]. rewrite H by auto. rewrite IH by auto. reflexivity.
Qed.
Lemma fold_max_ge r x : x <= fold_left Rmax r x /\ (forall y, In y r -> y <= fold_left Rmax r x).
Proof.
  revert x. induction r as [|z r IH]; cbn; intros x; [split; [lra|easy]|].
  destruct (IH (Rmax x z)) as [H1 H2]. pose proof (Rmax_l x z). pose proof (Rmax_r x z). split; [lra|].
  intros y [<-|Hy]; [lra|auto].
Qed.
Lemma np_max_ge l m : np_max l = Some m -> forall x, In x l -> x <= m.
Proof.
  destruct l as [|x l]; cbn; intros E; [discriminate|]. injection E as <-.
  destruct (fold_max_ge l x) as [H1 H2]. intros y [<-|Hy]; auto.
Qed.

Lemma softmax_formula l : l <> [] ->
  softmax l = Some (map (fun x => exp x / sumR (map exp l)) l).
Proof.
  intros H. unfold softmax, softmax_with. destruct (np_max l) as [v|] eqn:E.
  2:{ destruct l; cbn in E; congruence. }
  cbv zeta. rewrite np_exp_exact.
  f_equal. rewrite !map_map. rewrite sumexp_shift. apply map_ext. intros x.
  pose proof (sumexp_pos l H). pose proof (exp_pos (- v)).
  replace (x - v) with (- v + x) by lra. rewrite exp_plus. field. lra.
Qed.
Lemma logsumexp_formula l : l <> [] -> logsumexp l = Some (ln (sumR (map exp l))).
Proof.
  intros H. unfold logsumexp, logsumexp_with. destruct (np_max l) as [v|] eqn:E.
  2:{ destruct l; cbn in E; congruence. }
  rewrite np_exp_exact, map_map.
  f_equal. rewrite sumexp_shift. pose proof (sumexp_pos l H). pose proof (exp_pos (- v)).
  rewrite ln_mult, ln_exp by assumption. lra.
Qed.
Lemma map_nonnil (A B : Type) (f : A -> B) l : l <> [] -> map f l <> [].
Proof. destruct l; cbn; congruence. Qed.
Lemma sum_div l s : sumR (map (fun x => exp x / s) l) = sumR (map exp l) / s.
Proof. induction l as [|x l IH]; cbn; [|rewrite IH]; unfold Rdiv; lra. Qed.
Lemma shift_sum l k : sumR (map exp (map (fun x => x + k) l)) = exp k * sumR (map exp l).
Proof.
  rewrite map_map. rewrite <- sumR_map_scale, map_map. f_equal. apply map_ext. intros x.
  rewrite exp_plus. lra.
Qed.
Lemma sumexp_ge l x : In x l -> exp x <= sumR (map exp l).
Proof.
  induction l as [|y l IH]; cbn; [easy|]. intros [->|H].
  - assert (0 <= sumR (map exp l)).
    { apply sumR_pos. intros y Hy. apply in_map_iff in Hy as (z & <- & _). apply Rlt_le, exp_pos. }
    lra.
  - specialize (IH H). pose proof (exp_pos y). lra.
Qed.
Lemma sumexp_le l m : (forall x, In x l -> x <= m) -> sumR (map exp l) <= INR (length l) * exp m.
Proof.
  induction l as [|y l IH]; intros H; cbn [map sumR length]; [simpl; lra|].
  rewrite S_INR.
  assert (exp y <= exp m).
  { destruct (H y (or_introl eq_refl)) as [L| ->]; [apply Rlt_le, exp_increasing, L|lra]. }
  assert (sumR (map exp l) <= INR (length l) * exp m) by (apply IH; intros; apply H; cbn; auto).
  lra.
Qed.
