(** C75: the losses recorded in a run of AuxIVA, AuxLaplaceIVA and AuxGaussIVA. *)
From Coq Require Import Reals Lra Psatz.
From mathcomp Require Import all_ssreflect all_algebra.
From mathcomp Require Import ring.
From Verif Require Import RStruct MxC CxR NpLin RealLemmas SuperGauss Eigh EighProofs.
From Verif Require Import SpatialIP SpatialIPProofs Prop_IP1 SpatialISS SpatialISSProofs Prop_ISS1.
From Verif Require Import SpatialIP2 SpatialIP2Proofs Prop_IP2 SpatialISS2 SpatialISS2Proofs Prop_ISS2.
From Verif Require Import Scale ScaleProofs AuxIVA AuxIVAProofs Prop_AuxIVA Prop_AuxIVAFloor AuxIVARun.
Import Order.TTheory GRing.Theory Num.Theory.
Set Implicit Arguments.
Unset Strict Implicit.
Unset Printing Implicit Defensive.
Local Open Scope ring_scope.

(** consecutive entries grow by at most [d] *)
Definition within (d : R) (ls : seq R) : Prop :=
  forall i, (i.+1 < size ls)%N -> (nth 0%R ls i.+1 <= nth 0%R ls i + d)%coqR.
Definition non_increasing (ls : seq R) : Prop :=
  forall i j, (i <= j)%N -> (j < size ls)%N -> (nth 0%R ls j <= nth 0%R ls i)%coqR.
Lemma within0 ls : within 0%coqR ls -> non_increasing ls.
Proof.
move=> h i j; elim: j => [|j IH]; first by rewrite leqn0 => /eqP-> _; apply: Rle_refl.
rewrite leq_eqVlt => /orP[/eqP->|ij] hj; first exact: Rle_refl.
have := IH ij (ltnW hj); have := h j hj; move: (nth _ _ _) (nth _ _ _) (nth _ _ _) => x y z; lra.
Qed.

Section Recorded.
Variables (S : Type) (step : S -> option S) (loss : S -> option R) (d : R) (Inv : S -> Prop).
(** [Q s] holds at every state from which an iteration of the run starts *)
Fixpoint along (Q : S -> Prop) (k : nat) (s : S) : Prop :=
  if k is k'.+1 then Q s /\ forall s1, step s = Some s1 -> along Q k' s1 else True.

Lemma alongT k s : along (fun _ => True) k s.
Proof. by elim: k s => //= k IH s; split=> // s1 _; apply: IH. Qed.
Lemma recorded_along (Q : S -> Prop) :
  (forall s, Inv s -> exists l, loss s = Some l) ->
  (forall s, Inv s -> Q s -> exists s' l l', [/\ step s = Some s', Inv s', loss s = Some l,
     loss s' = Some l' & (l' <= l + d)%coqR]) ->
  forall k s, Inv s -> along Q k s ->
  exists s' ls, [/\ recorded step loss k s = Some (s', ls), Inv s', size ls = k.+1 & within d ls].
Proof.
move=> hl hs k s Is hk.
suff [s' [ls [l [e Is' sz [el w]]]]] : exists s' ls l, [/\ recorded step loss k s = Some (s', l :: ls), Inv s',
    size ls = k & loss s = Some l /\ within d (l :: ls)].
  by exists s', (l :: ls); split=> //=; rewrite sz.
elim: k s Is hk => [|k IH] s Is /=.
  by move=> _; have [l el] := hl s Is; exists s, [::], l; rewrite el; split.
case=> q hk; have [s1 [l [l1 [es Is1 el el1 le]]]] := hs s Is q.
have [s' [ls [l1' [e Is' sz [el1' w]]]]] := IH s1 Is1 (hk _ es).
exists s', (l1' :: ls), l; rewrite el es e; split=> //=; first by rewrite sz.
split=> //; case=> [|i] /=; last by move=> hi; apply: (w i hi).
by rewrite el1 in el1'; case: el1' => <-.
Qed.
Lemma recorded_some : (forall s, Inv s -> exists l, loss s = Some l) ->
  (forall s s', Inv s -> step s = Some s' -> Inv s' /\ exists l l', [/\ loss s = Some l,
     loss s' = Some l' & (l' <= l + d)%coqR]) ->
  forall k s s' ls, Inv s -> recorded step loss k s = Some (s', ls) ->
  [/\ Inv s', size ls = k.+1 & within d ls].
Proof.
move=> hl hs k s s' ls Is e.
have h : along (fun s => step s <> None) k s.
  elim: k s s' ls Is e => //= k IH s s' ls Is.
  case: (loss s) => // l; case es: (step s) => [s1|//].
  case e: (recorded _ _ _ _) => [[sf ls']|//] _; split=> // s2 [<-].
  by apply: IH e; have [] := hs _ _ Is es.
have [|s2 [ls2 [e2 Is2 sz w]]] := recorded_along hl _ Is h.
  move=> s0 I0; case es: (step s0) => [s1|//] _.
  by have [I1 [l [l' [? ? ?]]]] := hs _ _ I0 es; exists s1, l, l'.
by move: e2; rewrite e => -[-> ->].
Qed.
End Recorded.

(** C43 without flooring: a sweep that stays finite never increases the auxiliary cost. *)
Theorem C43_sweep_identity N T (phi : 'M[R]_(N, T)) (W : 'M[Cx]_N) (X : 'M[Cx]_(N, T)) Y :
  (forall k t, (0 <= phi k t)%coqR) -> W \in unitmx -> iss1 identity_fl phi (W *m X) = Some Y ->
  exists W', [/\ Y = W' *m X, W' \in unitmx & (iss_cost phi Y W' <= iss_cost phi (W *m X) W)%coqR].
Proof.
move=> p0; rewrite /iss1 /iss1_loop; move: (enum 'I_N) => s.
elim: s W => [|n s IH] W uW /=.
  by move=> [<-]; exists W; split=> //; apply: Rle_refl.
case es: (iss1_step identity_fl phi (W *m X) n) => [Z|]; last by elim: s {IH}.
move: es; rewrite /iss1_step; case: ifP => // ok [<-].
rewrite -/(steer (iss_v identity_fl phi (W *m X) n) n (W *m X)) steerE mulmxA.
set D := steer_mx _ _; have d0 := iss_ok_pos ok.
have uD : D \in unitmx.
  apply: steer_unit; rewrite iss_scale // c_eq0; apply/eqP.
  by have := Rinv_0_lt_compat _ (sqrt_lt_R0 _ d0); toR; lra.
have uDW : D *m W \in unitmx by rewrite unitmx_mul uD.
move=> e; have [W' [eY uW' le]] := IH (D *m W) uDW e.
exists W'; split=> //; apply: Rle_trans le _.
have h : (iss_den phi (W *m X) n n / iss_den phi (W *m X) n n + ln (iss_den phi (W *m X) n n) <=
    iss_den phi (W *m X) n n)%coqR.
  have := iss_real_self 1 _ d0 Rlt_0_1; rewrite ln_1 /identity_fl; move: d0; rewrite /identity_fl.
  by move: (iss_den _ _ _ _) => x *; lra.
have := @iss_step_cost N T identity_fl phi (W *m X) n p0 ok (fun k => Rle_refl _) h.
rewrite steerE mulmxA -/D /iss_cost det_mulmx cabsM [ln (cabs (\det D) * _)]ln_mult.
- by toR; move: (ln _) (ln _) (wpower _ _) (wpower _ _) => a b x y; lra.
- by apply: cabs_gt0; rewrite -unitfE -unitmxE.
- by apply: cabs_gt0; rewrite -unitfE -unitmxE.
Qed.

Section C75.
Variables (F N T : nat).
Notation spec := ('I_F -> 'M[Cx]_(N, T)).
Notation filt := ('I_F -> 'M[Cx]_N).
Notation fn := ('I_N -> 'I_T -> R -> R).
Implicit Types (v : 'M[R]_(N, T)) (X Y : spec) (W : filt) (G dG : fn).

Definition unitf W := forall i, W i \in unitmx.
(** the separated signals are obtained from the mixture by invertible filters *)
Definition separated X Y := exists2 W, unitf W & forall i, Y i = W i *m X i.
Definition distinct (ps : seq ('I_N * 'I_N)) := all (fun p => p.1 != p.2) ps.
Definition distinct_f (a : falg N) := if a is FIP2 ps then distinct ps else true.
Definition distinct_o (a : oalg N) := if a is OISS2 ps then distinct ps else true.

Lemma fin_norms (r : 'M[R]_(N, T)) n : (forall t, (0 <= r n t)%coqR) ->
  finite_weight identity_fl r n -> forall t, (0 < r n t)%coqR.
Proof.
move=> r0 /forallP h t; have := h t; rewrite /identity_fl => /eqP h1.
by have [//|e] := r0 t; case: h1; rewrite -e Rmult_0_r.
Qed.

Section Identity.
Variables (eig : eigh_t) (chol : chol_t).
Hypotheses (He : eigh_contract eig) (Hc : chol_contract chol).

Lemma once_f a G dG X W W' : (0 < T)%N -> sg G dG -> distinct_f a -> (forall i, row_free (X i)) ->
  unitf W -> update_once_f identity_fl eig chol a dG X W = Some W' ->
  unitf W' /\ exists l l', [/\ compute_loss G X W = Some l, compute_loss G X W' = Some l' & (l' <= l)%coqR].
Proof.
case: a => [|ps] T0 hG ds fX uW e; last exact: C45_ip2 hG ds uW fX e.
have r0 n t : (0 < norms (separate_all X W) n t)%coqR.
  move: e; rewrite /= /update_once_ip1; case: ifP => // /andP[_ /forallP h] _.
  by apply: fin_norms => // t'; apply: norms_ge0.
have [W1 [l [l' [e1 u1 el el' le]]]] := C45_ip1_no_flooring T0 hG uW fX r0.
by move: e; rewrite /= e1 => -[<-]; split=> //; exists l, l'.
Qed.

Lemma iss1_once G dG X W Y Y' : (0 < T)%N -> sg G dG -> (forall i, row_free (X i)) ->
  unitf W -> (forall i, Y i = W i *m X i) -> update_once_iss1 identity_fl dG Y = Some Y' ->
  exists W' l l', [/\ unitf W', forall i, Y' i = W' i *m X i, compute_loss_output G X Y = Some l,
    compute_loss_output G X Y' = Some l' & (l' <= l)%coqR].
Proof.
move=> T0 hG fX uW eY; rewrite /update_once_iss1; case: ifP => // /forallP fin /all_binsP.
have r0 n t : (0 < norms Y n t)%coqR by apply: fin_norms => // t'; apply: norms_ge0.
set phi := weight _ _ _ => hY'.
have pos k t : (0 < phi k t)%coqR by apply: weight_gt0 hG _ _.
have [W' hW'] : exists W' : filt, forall i, [/\ Y' i = W' i *m X i, W' i \in unitmx &
    (iss_cost phi (Y' i) (W' i) <= iss_cost phi (Y i) (W i))%coqR].
  apply: (@fin_all_exists _ (fun _ => 'M[Cx]_N) (fun i V => [/\ Y' i = V *m X i, V \in unitmx &
    (iss_cost phi (Y' i) V <= iss_cost phi (Y i) (W i))%coqR])) => i.
  have := hY' i; rewrite eY; apply: C43_sweep_identity => // k t; exact: Rlt_le.
have uW' : unitf W' by move=> i; have [] := hW' i.
have eW' i : Y' i = W' i *m X i by have [] := hW' i.
exists W'; do 2 eexists; split=> //.
- exact: (compute_loss_outputE _ T0 uW fX eY).
- exact: (compute_loss_outputE _ T0 uW' fX eW').
- have := @majorise F N T G phi (fun _ _ _ => 0%coqR) Y Y' W W'.
  rewrite no_gap => h; rewrite -[X in (_ <= X)%coqR]Rplus_0_r; apply: h => [k t|i].
    by apply: weight_major.
  by have [] := hW' i.
Qed.

Lemma once_o a G dG X Y Y' : (0 < T)%N -> sg G dG -> distinct_o a -> (forall i, row_free (X i)) ->
  separated X Y -> update_once_o identity_fl eig chol a dG Y = Some Y' ->
  separated X Y' /\ exists l l', [/\ compute_loss_output G X Y = Some l,
    compute_loss_output G X Y' = Some l' & (l' <= l)%coqR].
Proof.
move=> T0 hG; case: a => [_|ps ds] fX [W uW eY] e.
  have [W' [l [l' [uW' eW' el el' le]]]] := iss1_once T0 hG fX uW eY e.
  by split; [exists W'|exists l, l'].
have r0 n t : (0 < norms Y n t)%coqR.
  move: e; rewrite /= /update_once_iss2; case: ifP => // /forallP h _.
  by apply: fin_norms => // t'; apply: norms_ge0.
have [Y1 [W' [l [l' [e1 uW' el el' le]]]]] := C45_iss2 He Hc T0 hG ds uW fX eY r0.
move: e; rewrite /= e1 => -[<-]; split; last by exists l, l'.
by exists W' => i; have [] := uW' i.
Qed.

(** C75: without flooring, for every super-Gaussian contrast and every spatial algorithm, the
    losses recorded by a run of any length that stays finite never increase *)
Theorem C75_filter_run a G dG X k W W' ls : (0 < T)%N -> sg G dG -> distinct_f a ->
  (forall i, row_free (X i)) -> (forall i, W i \in unitmx) ->
  aux_run_f identity_fl eig chol a G dG X k W = Some (W', ls) ->
  [/\ forall i, W' i \in unitmx, size ls = k.+1 & non_increasing ls].
Proof.
move=> T0 hG ds fX uW e.
have [||u sz w] := @recorded_some _ _ _ 0%coqR unitf _ _ k W W' ls uW e.
- by move=> V uV; rewrite (compute_lossE G X T0 uV); eexists.
- move=> V V' uV eV; have [uV' [l [l' [? ? le]]]] := once_f T0 hG ds fX uV eV.
  by split=> //; exists l, l'; split=> //; lra.
by split=> //; apply: within0.
Qed.
Theorem C75_output_run a G dG X k Y Y' ls : (0 < T)%N -> sg G dG -> distinct_o a ->
  (forall i, row_free (X i)) -> separated X Y ->
  aux_run_o identity_fl eig chol a G dG X k Y = Some (Y', ls) ->
  [/\ separated X Y', size ls = k.+1 & non_increasing ls].
Proof.
move=> T0 hG ds fX sY e.
have [||u sz w] := @recorded_some _ _ _ 0%coqR (separated X) _ _ k Y Y' ls sY e.
- by move=> Z [W uW eZ]; rewrite (compute_loss_outputE G T0 uW fX eZ); eexists.
- move=> Z Z' sZ eZ; have [uV' [l [l' [? ? le]]]] := once_o T0 hG ds fX sZ eZ.
  by split=> //; exists l, l'; split=> //; lra.
by split=> //; apply: within0.
Qed.

(** AuxGaussIVA *)
Lemma variance_pos Y : [forall n, [forall t, source_variance Y n t != 0]] ->
  (forall n t, (0 < source_variance Y n t)%coqR) /\ forall n t, (0 < norms Y n t)%coqR.
Proof.
move=> /forallP h.
have F0 (n : 'I_N) (t : 'I_T) : (0 < F)%N.
  have /forallP/(_ t) := h n; rewrite mxE lt0n; apply: contra => /eqP F0; rewrite /meanR big1 ?mulr0 // => i _.
  by move: (ltn_ord i); rewrite {2}F0.
have IF (n : 'I_N) (t : 'I_T) : (0 < INR F)%coqR by apply: lt_0_INR; apply/ssrnat.ltP; exact: F0 n t.
have p n t : (0 < norms Y n t)%coqR.
  have [//|e] := norms_ge0 Y n t; have /forallP/(_ t)/eqP := h n; case.
  by rewrite source_varianceE ?(F0 n t) // -e /Rdiv pow_i ?Rmult_0_l //; lia.
split=> // n t; rewrite source_varianceE ?(F0 n t) //.
by apply: Rdiv_lt_0_compat; [apply: pow_lt|exact: IF n t].
Qed.
Theorem C75_gauss_filter_run a X k W W' v' ls : (0 < T)%N -> distinct_f a ->
  (forall i, row_free (X i)) -> (forall i, W i \in unitmx) ->
  gauss_run_f identity_fl eig chol a X k W = Some (W', v', ls) ->
  [/\ (forall i, W' i \in unitmx) /\ (forall n t, (0 < v' n t)%coqR), size ls = k.+1 & non_increasing ls].
Proof.
move=> T0 ds fX uW e.
pose I (s : filt * 'M[R]_(N, T)) := unitf s.1 /\ forall n t, (0 < s.2 n t)%coqR.
have [|||[u v0] sz w] := @recorded_some _ _ _ 0%coqR I _ _ k _ (W', v') ls _ e.
- by move=> [V v] [uV _]; rewrite (compute_lossE _ X T0 uV); eexists.
- move=> [V v] [V1 v1] [/= uV v0]; rewrite /gauss_once_f /=; case: ifP => // hv.
  have [p0 r0] := variance_pos hv.
  case eV: (update_once_f _ _ _ _ _ _ _) => [V2|//] [<- <-] {V1 v1}.
  have [_ [l [l1 [El El1 le1]]]] := gauss_variance T0 uV v0 r0.
  have [uV' [l1' [l' [El1' El' le]]]] := once_f T0 (gauss_sg F p0) ds fX uV eV.
  split; first by split.
  exists l, l'; split=> //; rewrite El1 in El1'; case: El1' le1 => ->; lra.
- by split=> //= n t; rewrite mxE; lra.
by split=> //; apply: within0.
Qed.
Theorem C75_gauss_output_run a X k Y Y' v' ls : (0 < T)%N -> distinct_o a ->
  (forall i, row_free (X i)) -> separated X Y ->
  gauss_run_o identity_fl eig chol a X k Y = Some (Y', v', ls) ->
  [/\ separated X Y' /\ (forall n t, (0 < v' n t)%coqR), size ls = k.+1 & non_increasing ls].
Proof.
move=> T0 ds fX sY e.
pose I (s : spec * 'M[R]_(N, T)) := separated X s.1 /\ forall n t, (0 < s.2 n t)%coqR.
have [|||[u v0] sz w] := @recorded_some _ _ _ 0%coqR I _ _ k _ (Y', v') ls _ e.
- by move=> [Z v] [[V uV eZ] _]; rewrite (compute_loss_outputE _ T0 uV fX eZ); eexists.
- move=> [Z v] [Z1 v1] [/= sZ v0]; rewrite /gauss_once_o /=; case: ifP => // hv.
  have [p0 r0] := variance_pos hv.
  case eZ: (update_once_o _ _ _ _ _ _) => [Z2|//] [<- <-] {Z1 v1}.
  have [sZ' [l1 [l' [El1 El' le]]]] := once_o T0 (gauss_sg F p0) ds fX sZ eZ.
  split; first by split.
  have [V uV eV] := sZ.
  have sE := separateE eV.
  have [|_ [l [l2 [El El2 le1]]]] := @gauss_variance F N T v X V T0 uV v0 _; first by rewrite sE.
  have svE : source_variance (separate_all X V) = source_variance Z.
    by apply/matrixP => n t; rewrite !mxE; apply: eq_meanR => i; rewrite eV.
  have lE u : compute_loss (@gauss F N T u) X V = compute_loss_output (@gauss F N T u) X Z.
    by rewrite (compute_lossE _ _ T0 uV) (compute_loss_outputE _ T0 uV fX eV) /lossY sE.
  rewrite svE !lE in El El2.
  exists l, l'; split=> //; rewrite El1 in El2; case: El2 le1 => <-; lra.
- by split=> //= n t; rewrite mxE; lra.
by split=> //; apply: within0.
Qed.
End Identity.

(** with the default flooring; [eig] and [chol] are not used by IP1 and ISS1 *)
Section Floored.
Variables (eig : eigh_t) (chol : chol_t) (eps : R).
Hypothesis he : (0 < eps <= 1)%coqR.
Notation fl := (max_flooring eps).

(** C75: AuxLaplaceIVA with IP1 or ISS1: every run is defined, whatever the signals, and no
    iteration adds more than [n_sources * eps / 2] to the loss *)
Theorem C75_laplace_ip1 X k W : (0 < T)%N -> (forall i, row_free (X i)) -> (forall i, W i \in unitmx) ->
  exists W' ls, [/\ aux_run_f fl eig chol (FIP1 N) (@laplace N T) (@d_laplace N T) X k W = Some (W', ls),
    forall i, W' i \in unitmx, size ls = k.+1 &
    forall i, (i < k)%N -> (nth 0%R ls i.+1 <= nth 0%R ls i + INR N * eps / 2)%coqR].
Proof.
move=> T0 fX uW.
have [|||W' [ls [e uW' sz w]]] := @recorded_along _ (update_once_f fl eig chol (FIP1 N) (@d_laplace N T) X)
   (compute_loss (@laplace N T) X) (INR N * eps / 2)%coqR unitf (fun _ => True) _ _ k W uW.
- by move=> V uV; rewrite (compute_lossE _ X T0 uV); eexists.
- move=> V uV _; have [V' [l [l' [? ? ? ? ?]]]] := C45_laplace_ip1 he T0 uV fX.
  by exists V', l, l'.
- exact: alongT.
by exists W', ls; split=> // i ik; apply: w; rewrite sz.
Qed.
Theorem C75_laplace_iss1 X k Y : (0 < T)%N -> (forall i, row_free (X i)) -> separated X Y ->
  exists Y' ls, [/\ aux_run_o fl eig chol (OISS1 N) (@laplace N T) (@d_laplace N T) X k Y = Some (Y', ls),
    separated X Y', size ls = k.+1 &
    forall i, (i < k)%N -> (nth 0%R ls i.+1 <= nth 0%R ls i + INR N * eps / 2)%coqR].
Proof.
move=> T0 fX sY.
have [|||Y' [ls [e sY' sz w]]] := @recorded_along _ (update_once_o fl eig chol (OISS1 N) (@d_laplace N T))
   (compute_loss_output (@laplace N T) X) (INR N * eps / 2)%coqR (separated X) (fun _ => True) _ _ k Y sY.
- by move=> Z [V uV eZ]; rewrite (compute_loss_outputE _ T0 uV fX eZ); eexists.
- move=> Z [V uV eZ] _; have [Z' [V' [l [l' [? h ? ? ?]]]]] := C45_laplace_iss1 he T0 uV fX eZ.
  by exists Z', l, l'; split=> //; exists V' => i; have [] := h i.
- exact: alongT.
by exists Y', ls; split=> // i ik; apply: w; rewrite sz.
Qed.

(** C75: every super-Gaussian contrast with IP1 or ISS1: as long as every iteration starts from
    signals on which the floor does not act, the run is defined and the losses never increase *)
Definition unfloored Y := forall n t, (eps <= 2 * norms Y n t)%coqR.
Theorem C75_ip1_floor G dG X k W : (0 < T)%N -> sg G dG -> (forall i, row_free (X i)) ->
  (forall i, W i \in unitmx) ->
  along (update_once_ip1 fl dG X) (fun V => unfloored (separate_all X V)) k W ->
  exists W' ls, [/\ aux_run_f fl eig chol (FIP1 N) G dG X k W = Some (W', ls),
    forall i, W' i \in unitmx, size ls = k.+1 & non_increasing ls].
Proof.
move=> T0 hG fX uW h.
have [||W' [ls [e uW' sz w]]] := @recorded_along _ _ (compute_loss G X) 0%coqR unitf _ _ _ k W uW h.
- by move=> V uV; rewrite (compute_lossE _ X T0 uV); eexists.
- move=> V uV hV; have [V' [l [l' [? ? ? ? ?]]]] := C45_ip1 he T0 hG uV fX hV.
  by exists V', l, l'; split=> //; lra.
by exists W', ls; split=> //; apply: within0.
Qed.
Theorem C75_iss1_floor G dG X k Y : (0 < T)%N -> sg G dG -> (forall i, row_free (X i)) -> separated X Y ->
  along (update_once_iss1 fl dG) unfloored k Y ->
  exists Y' ls, [/\ aux_run_o fl eig chol (OISS1 N) G dG X k Y = Some (Y', ls),
    separated X Y', size ls = k.+1 & non_increasing ls].
Proof.
move=> T0 hG fX sY h.
have [||Y' [ls [e sY' sz w]]] := @recorded_along _ _ (compute_loss_output G X) 0%coqR (separated X) _ _ _ k Y sY h.
- by move=> Z [V uV eZ]; rewrite (compute_loss_outputE _ T0 uV fX eZ); eexists.
- move=> Z [V uV eZ] hZ; have [Z' [V' [l [l' [? h' ? ? ?]]]]] := C45_iss1 he T0 hG uV fX eZ hZ.
  by exists Z', l, l'; split=> //; [exists V' => i; have [] := h' i|lra].
by exists Y', ls; split=> //; apply: within0.
Qed.
Theorem C75_gauss_ip1_floor X k W : (0 < T)%N -> (forall i, row_free (X i)) -> (forall i, W i \in unitmx) ->
  along (gauss_once_f fl eig chol (FIP1 N) X) (fun s => unfloored (separate_all X s.1)) k (W, unit_variance N T) ->
  exists W' v' ls, [/\ gauss_run_f fl eig chol (FIP1 N) X k W = Some (W', v', ls),
    (forall i, W' i \in unitmx) /\ (forall n t, (0 < v' n t)%coqR), size ls = k.+1 & non_increasing ls].
Proof.
move=> T0 fX uW h.
pose I (s : filt * 'M[R]_(N, T)) := unitf s.1 /\ forall n t, (0 < s.2 n t)%coqR.
have [|||[W' v'] [ls [e uW' sz w]]] := @recorded_along _ _ (fun s => compute_loss (@gauss F N T s.2) X s.1)
   0%coqR I _ _ _ k _ _ h.
- by move=> [V v] [uV _]; rewrite (compute_lossE _ X T0 uV); eexists.
- move=> [V v] [/= uV v0] hV; have [V' [v1 [l [l' [ev h1 ? ? ?]]]]] := C45_gauss_ip1 he T0 uV fX v0 hV.
  by exists (V', v1), l, l'; split=> //; lra.
- by split=> //= n t; rewrite mxE; lra.
by exists W', v', ls; split=> //; apply: within0.
Qed.
Theorem C75_gauss_iss1_floor X k Y : (0 < T)%N -> (forall i, row_free (X i)) -> separated X Y ->
  along (gauss_once_o fl eig chol (OISS1 N)) (fun s => unfloored s.1) k (Y, unit_variance N T) ->
  exists Y' v' ls, [/\ gauss_run_o fl eig chol (OISS1 N) X k Y = Some (Y', v', ls),
    separated X Y' /\ (forall n t, (0 < v' n t)%coqR), size ls = k.+1 & non_increasing ls].
Proof.
move=> T0 fX sY h.
pose I (s : spec * 'M[R]_(N, T)) := separated X s.1 /\ forall n t, (0 < s.2 n t)%coqR.
have [|||[Y' v'] [ls [e sY' sz w]]] := @recorded_along _ _ (fun s => compute_loss_output (@gauss F N T s.2) X s.1)
   0%coqR I _ _ _ k _ _ h.
- by move=> [Z v] [[V uV eZ] _]; rewrite (compute_loss_outputE _ T0 uV fX eZ); eexists.
- move=> [Z v] [/= [V uV eZ] v0] hZ.
  have [Z' [V' [v1 [l [l' [ev [h1 h2] ? ? ?]]]]]] := C45_gauss_iss1 he T0 uV fX eZ v0 hZ.
  exists (Z', v1), l, l'; split=> //; last lra.
  by split=> //; exists V' => i; have [] := h1 i.
- by split=> //= n t; rewrite mxE; lra.
by exists Y', v', ls; split=> //; apply: within0.
Qed.
End Floored.
End C75.

(** ** Instances *)
(** Two orthogonal sources of unit power in one bin: AuxGaussIVA with the default kind of
    floor stays at the identity filter, so runs of every length meet the hypotheses. *)
Definition hX (i : 'I_1) : 'M[Cx]_2 := \matrix_(n, t) (if (n == 1) && (t == 1) then -1 else 1).
Lemma ip1_one N fl : fl 1%coqR = 1%coqR -> ip1 fl (fun _ : 'I_N => 1%:M) (1%:M : 'M[Cx]_N) = Some 1%:M.
Proof.
move=> f1; rewrite /ip1 /ip1_loop; elim: (enum _) => //= n s IH.
have q1 : ipq 1%:M 1%:M n = 1%coqR.
  by rewrite /ipq !invmx1 mul1mx /form mulmx1 ctr_delta mul_delta_mx mxE !eqxx /= -cR1 rec.
have := @ip1_stepE N fl (fun _ => 1%:M) 1%:M n (@pd1 _ N) (unitmx1 _ N); cbv zeta.
rewrite q1 sqrt_1 f1 => -> //; last by rewrite R1E oner_eq0.
rewrite !invmx1 !mul1mx ctr_delta.
have -> : setrow n ((c 1)^-1 *: delta_mx 0 n) (1%:M : 'M[Cx]_N) = 1%:M.
  apply/matrixP => i j; rewrite !mxE; case: eqP => [->|_] //.
  by rewrite c1 invr1 mul1r eqxx /= eq_sym.
exact: IH.
Qed.
Lemma hX_gram i : hX i *m (hX i)^H = 2%:R%:M.
Proof.
have e0 : (0 == 1 :> 'I_2) = false by [].
by apply/matrixP => a b; case: (ord2P a) => ->; case: (ord2P b) => ->;
  rewrite !mxE sum2 !mxE ?eqxx ?e0 /= ?rmorphN ?rmorph1 ?mulrN ?mulNr ?mulr1 ?opprK ?subrr ?addNr ?mulr0n ?mulr1n.
Qed.
Lemma hX_free i : row_free (hX i).
Proof.
rewrite row_free_unit; have := congr1 determinant (hX_gram i).
rewrite det_mulmx det_scalar => h; rewrite unitmxE unitfE; apply/eqP => h0.
by move: h; rewrite h0 mul0r => /esym/eqP; rewrite expf_eq0 /= pnatr_eq0.
Qed.
Lemma hX_abs i n t : cabs (hX i n t) = 1%coqR.
Proof. by rewrite mxE; case: ifP => _; rewrite ?cabsN cabs1. Qed.
Definition hid (W : 'I_1 -> 'M[Cx]_2) := forall i, W i = 1%:M.
Lemma hX_norms W n t : hid W -> norms (separate_all hX W) n t = 1%coqR.
Proof.
move=> h; rewrite mxE big_ord_recl big_ord0 addr0 /separate_all /separate h mul1mx hX_abs -RpowE.
by rewrite pow1 sqrt_1.
Qed.
Lemma hX_var W n t : hid W -> source_variance (separate_all hX W) n t = 1%coqR.
Proof.
by move=> h; rewrite source_varianceE // hX_norms //= ?Rmult_1_r; Rfield.
Qed.
Lemma hX_step fl eig chol s s' : fl 2%coqR = 2%coqR -> fl 1%coqR = 1%coqR -> hid s.1 ->
  gauss_once_f fl eig chol (FIP1 2) hX s = Some s' -> hid s'.1.
Proof.
move=> f2 f1 h; rewrite /gauss_once_f; case: ifP => // _.
set v := source_variance _; rewrite /= /update_once_ip1; case: ifP => // _.
case e: (all_bins _ _) => [W'|//] [<-] i /=; have := all_binsP e i; rewrite h.
rewrite (@Prop_AuxIVAFloor.eq_ip1 2 fl _ (fun _ => 1%:M)); first by rewrite ip1_one // => -[<-].
move=> n; apply/matrixP => a b; rewrite mxE.
have w1 t : weight fl (d_gauss v) (norms (separate_all hX s.1)) n t = 1%coqR.
  by rewrite mxE hX_norms // /d_gauss hX_var // Rmult_1_r f2; Rfield.
have /matrixP/(_ a b) := hX_gram i; rewrite !mxE /meanC => g.
under eq_bigr => t _ do rewrite w1 cR1 mul1r.
transitivity (c (2%:R)^-1 * (2%:R *+ (a == b)) : Cx); first by congr (_ * _); rewrite -g; apply: eq_bigr => t _; rewrite !mxE.
have -> : c (2%:R)^-1 = (2%:R)^-1 by rewrite cV -RnatE CubicProofs.c_nat.
by case: (a == b); rewrite ?mulr1n ?mulr0n ?mulr0 // mulVf // pnatr_eq0.
Qed.
Example C75_instance eig chol k : exists W' v' ls,
  [/\ gauss_run_f (max_flooring 1) eig chol (FIP1 2) hX k (fun _ => 1%:M) = Some (W', v', ls),
    (forall i, W' i \in unitmx) /\ (forall n t, (0 < v' n t)%coqR), size ls = k.+1 & non_increasing ls].
Proof.
have m x : (1 <= x)%coqR -> max_flooring 1 x = x by move=> h; rewrite /max_flooring Rmax_left.
apply: C75_gauss_ip1_floor => //; [lra|exact: hX_free|by move=> i; exact: unitmx1|].
have : hid (fun _ => 1%:M, unit_variance 2 2).1 by [].
move: (_, unit_variance 2 2) => s; elim: k s => //= k IH s h; split.
  by move=> n t; rewrite hX_norms //; lra.
by move=> s1 e; apply: IH; apply: hX_step h e; apply: m; lra.
Qed.
Example C75_pair_instance : exists eig chol W' v' ls, [/\ eigh_contract eig /\ chol_contract chol,
  gauss_run_f identity_fl eig chol (FIP2 [:: (0, 1)]) hX 1 (fun _ => 1%:M) = Some (W', v', ls) & non_increasing ls].
Proof.
have [eig He] := eigh_contract_sat; have [chol Hc] := chol_contract_sat.
pose W (i : 'I_1) : 'M[Cx]_2 := 1%:M; have hW : hid W by [].
have uW : unitf W by move=> i; exact: unitmx1.
pose v := source_variance (separate_all hX W).
have v1 n t : v n t = 1%coqR by exact: hX_var.
have v0 n t : (0 < v n t)%coqR by rewrite v1; lra.
have r0 n t : (0 < norms (separate_all hX W) n t)%coqR by rewrite hX_norms //; lra.
have [W' [l [l' [e uW' el el' le]]]] := C45_ip2_pair He Hc (isT : (0 < 2)%N) (gauss_sg 1 v0)
  (isT : (0 : 'I_2) != 1) uW hX_free (fun t => conj (r0 0 t) (r0 1 t)).
have E : exists ls, gauss_run_f identity_fl eig chol (FIP2 [:: (0, 1)]) hX 1 W = Some (W', v, ls).
  rewrite /gauss_run_f /recorded (compute_lossE _ _ _ uW) //.
  have -> : gauss_once_f identity_fl eig chol (FIP2 [:: (0, 1)]) hX (W, unit_variance 2 2) = Some (W', v).
    rewrite /gauss_once_f -/v /= /update_once_ip2 /= e; case: ifP => // /negP[].
    by apply/forallP => n; apply/forallP => t; rewrite v1 R1E oner_eq0.
  by rewrite (compute_lossE _ _ _ uW') //; eexists.
have [ls E1] := E; exists eig, chol, W', v, ls; split=> //.
by have [_ _] := C75_gauss_filter_run He Hc (isT : (0 < 2)%N) (isT : distinct_f (FIP2 [:: (0, 1)])) hX_free uW E1.
Qed.

Print Assumptions C43_sweep_identity.
Print Assumptions C75_filter_run.
Print Assumptions C75_output_run.
Print Assumptions C75_gauss_filter_run.
Print Assumptions C75_gauss_output_run.
Print Assumptions C75_laplace_ip1.
Print Assumptions C75_laplace_iss1.
Print Assumptions C75_ip1_floor.
Print Assumptions C75_iss1_floor.
Print Assumptions C75_gauss_ip1_floor.
Print Assumptions C75_gauss_iss1_floor.
