(** C77: auxiliary-function-based FDICA is one-bin AuxIVA in every bin, its recorded loss is the
    sum of the one-bin losses, never increases, and is not changed by the permutation alignment. *)
From Coq Require Import Reals Lra.
From mathcomp Require Import all_ssreflect all_algebra fingroup perm.
From Verif Require Import RStruct MxC CxR NpLin RealLemmas SuperGauss Eigh EighProofs.
From Verif Require Import SpatialIP SpatialISS SpatialIP2 Scale AuxIVA AuxIVAProofs AuxIVARun.
From Verif Require Import Prop_AuxIVA Prop_AuxIVAFloor Prop_AuxIVARun AuxFDICA.
Import Order.TTheory GRing.Theory Num.Theory.
Set Implicit Arguments.
Unset Strict Implicit.
Unset Printing Implicit Defensive.
Local Open Scope ring_scope.

(** a recording with a single frequency bin *)
Definition b1 A (x : A) : 'I_1 -> A := fun _ => x.

Section OneBin.
Variables (N T : nat) (fl : R -> R) (eig : eigh_t) (chol : chol_t).
Implicit Types (X Y : 'M[Cx]_(N, T)) (W : 'M[Cx]_N).

Lemma norms1 Y n t : norms (b1 Y) n t = cabs (Y n t).
Proof.
rewrite mxE big_ord1 /b1 -RpowE; apply: sqrt_pow2.
exact: cabs_ge0.
Qed.
Lemma weight1 (dG : R -> R) Y : weight fl (fun _ _ => dG) (norms (b1 Y)) = fweight fl dG Y.
Proof. by apply/matrixP => n t; rewrite [LHS]mxE [RHS]mxE !norms1. Qed.
Lemma finite1 Y n : finite_weight fl (norms (b1 Y)) n = fdiv_ok fl Y n.
Proof. by apply: eq_forallb => t; rewrite norms1. Qed.
Lemma all_bins1 A (d : A) (o : option A) : all_bins (b1 d) (b1 o) = omap (@b1 A) o.
Proof.
rewrite /all_bins /b1; case: o => [x|] /=; first by rewrite (introT forallP).
by case: forallP => // /(_ ord0).
Qed.
Definition bin_ip1 (dG : R -> R) X W :=
  let Y := separate X W in
  if (T != 0%N) && [forall n, fdiv_ok fl Y n] then ip1 fl (wcov (fweight fl dG Y) X) W else None.
Definition bin_ip2 (dG : R -> R) X W p :=
  let Y := separate X W in
  if [&& T != 0%N, fdiv_ok fl Y p.1 & fdiv_ok fl Y p.2] then
    ip2_step eig chol fl (wcov (fweight fl dG Y) X) W p
  else None.
Definition bin_once (a : falg N) dG X W :=
  match a with
  | FIP1 => bin_ip1 dG X W
  | FIP2 ps => foldl (fun o p => if o is Some V then bin_ip2 dG X V p else None) (Some W) ps
  end.
Lemma bin_onceE a (dG : R -> R) X W :
  update_once_f fl eig chol a (fun _ _ => dG) (b1 X) (b1 W) = omap (@b1 _) (bin_once a dG X W).
Proof.
have sE V : separate_all (b1 X) (b1 V) = b1 (separate X V) by [].
case: a => [|ps] /=.
  rewrite /update_once_ip1 /bin_ip1 sE weight1 (eq_forallb (finite1 _)).
  by case: ifP => // _; exact: (all_bins1 W (ip1 fl (wcov (fweight fl dG (separate X W)) X) W)).
rewrite /update_once_ip2.
have -> : Some (b1 W) = omap (@b1 _) (Some W) by [].
move: (Some W) => o; elim: ps o => // p ps IH o /=; rewrite -IH; congr foldl.
case: o => // V /=; rewrite /iva_ip2_step /bin_ip2 sE weight1 !finite1.
by case: ifP => // _; exact: (all_bins1 V (ip2_step eig chol fl (wcov (fweight fl dG (separate X V)) X) V p)).
Qed.
End OneBin.

Section C77.
Variables (F N T : nat).
Notation spec := ('I_F -> 'M[Cx]_(N, T)).
Notation filt := ('I_F -> 'M[Cx]_N).
Implicit Types (X : spec) (W : filt) (G dG : R -> R).

Lemma all_bins_none A (d : 'I_F -> A) f : all_bins d f = None -> exists i, f i = None.
Proof.
rewrite /all_bins; case: ifP => // /negbT; rewrite negb_forall => /existsP[i] h _.
by exists i; case: (f i) h.
Qed.
Lemma fold_none (A B : Type) (f : A -> B -> option A) ps :
  foldl (fun o p => if o is Some V then f V p else None) None ps = None.
Proof. by elim: ps. Qed.
Lemma once_bins fl eig chol a dG X W :
  (forall W', fdica_once fl eig chol a dG X W = Some W' ->
     forall i, bin_once fl eig chol a dG (X i) (W i) = Some (W' i)) /\
  (fdica_once fl eig chol a dG X W = None -> exists i, bin_once fl eig chol a dG (X i) (W i) = None).
Proof.
case: a => [|ps] /=; first by split=> [W' /all_binsP//|/all_bins_none].
rewrite /fdica_ip2; elim: ps W => [|p ps IH] W /=; first by split=> // W' [<-].
case e: (fdica_ip2_step _ _ _ _ _ _ _) => [V|].
  have h i : bin_ip2 fl eig chol dG (X i) (W i) p = Some (V i) by exact: (all_binsP e).
  have [h1 h2] := IH V; split=> [W' /h1 {}h1 i|/h2[i hi]]; last exists i; rewrite h //.
rewrite !fold_none; split=> // _.
by have [i hi] := all_bins_none e; exists i; rewrite [bin_ip2 _ _ _ _ _ _ _]hi fold_none.
Qed.

(** An iteration of AuxFDICA is, in every bin, an iteration of AuxIVA on that bin alone; it fails
    only if one of those fails. *)
Theorem C77_bins fl eig chol a dG X W :
  (forall W', fdica_once fl eig chol a dG X W = Some W' -> forall i,
     update_once_f fl eig chol a (fun _ _ => dG) (b1 (X i)) (b1 (W i)) = Some (b1 (W' i))) /\
  (fdica_once fl eig chol a dG X W = None -> exists i,
     update_once_f fl eig chol a (fun _ _ => dG) (b1 (X i)) (b1 (W i)) = None).
Proof.
have [h1 h2] := once_bins fl eig chol a dG X W.
split=> [W' /h1 h i|/h2[i h]]; last exists i; by rewrite bin_onceE h.
Qed.

(** The recorded loss is the sum of the AuxIVA losses of the bins. *)
Lemma fdica_lossE G X W : (0 < T)%N -> (forall i, W i \in unitmx) ->
  fdica_loss G X W = Some (\sum_i (\sum_n meanR (fun t => G (cabs (separate (X i) (W i) n t))) -
                  (2 * ln (cabs (\det (W i))))%coqR)).
Proof. by move=> T0 uW; rewrite /fdica_loss -lt0n T0 (introT forallP uW). Qed.
Lemma loss1E G (X : 'M[Cx]_(N, T)) (W : 'M[Cx]_N) : (0 < T)%N -> W \in unitmx ->
  compute_loss (fun _ _ => G) (b1 X) (b1 W) =
  Some (\sum_n meanR (fun t => G (cabs (separate X W n t))) - (2 * ln (cabs (\det W)))%coqR).
Proof.
move=> T0 uW; rewrite /compute_loss -lt0n T0 (introT forallP) // big_ord1; congr (Some (_ - _)).
by apply: eq_bigr => n _; apply: eq_meanR => t; rewrite -norms1.
Qed.
Theorem C77_loss G X W l (ls : 'I_F -> R) : fdica_loss G X W = Some l ->
  (forall i, compute_loss (fun _ _ => G) (b1 (X i)) (b1 (W i)) = Some (ls i)) -> l = \sum_i ls i.
Proof.
rewrite /fdica_loss; case: ifP => // /andP[]; rewrite -lt0n => T0 /forallP uW [<-] h.
by apply: eq_bigr => i _; have := h i; rewrite loss1E // => -[].
Qed.
Theorem C77_loss_defined G X W : fdica_loss G X W <> None <->
  (0 < T)%N /\ forall i, compute_loss (fun _ _ => G) (b1 (X i)) (b1 (W i)) <> None.
Proof.
rewrite /fdica_loss; case: ifP => [/andP[]|].
  rewrite -lt0n => T0 /forallP uW; split=> // _; split=> // i; by rewrite loss1E.
move=> h; split=> // -[T0 u]; move: h; rewrite -lt0n T0 /= => /negP[].
apply/forallP => i; have := u i; rewrite /compute_loss -lt0n T0 /=.
by case: forallP => // /(_ ord0).
Qed.

(** The permutation alignment after the iterations does not change it: the rows of the filters
    may be rearranged differently in every bin. *)
Theorem C77_permutation G X W (s : 'I_F -> 'S_N) :
  fdica_loss G X (fun i => row_perm (s i) (W i)) = fdica_loss G X W.
Proof.
rewrite /fdica_loss.
have -> : [forall i, row_perm (s i) (W i) \in unitmx] = [forall i, W i \in unitmx].
  by apply: eq_forallb => i; rewrite row_permE unitmx_mul unitmx_perm.
case: ifP => // _; congr Some; apply: eq_bigr => i _; congr (_ - _).
  rewrite (reindex_inj (@perm_inj _ (s i)^-1)%g) /=; apply: eq_bigr => n _; apply: eq_meanR => t.
  congr (G (cabs _)); rewrite !mxE; apply: eq_bigr => k _; by rewrite mxE permKV.
rewrite row_permE det_mulmx det_perm cabsM.
have -> : cabs ((-1) ^+ (s i)) = 1.
  by rewrite -signr_odd; case: (odd _); rewrite ?expr0 ?expr1 ?cabsN cabs1.
by rewrite mul1r.
Qed.

Lemma sum_step G X W W' (d : R) : (0 < T)%N -> (forall i, W i \in unitmx) ->
  (forall i, W' i \in unitmx /\ exists l l', [/\ compute_loss (fun _ _ => G) (b1 (X i)) (b1 (W i)) = Some l,
     compute_loss (fun _ _ => G) (b1 (X i)) (b1 (W' i)) = Some l' & (l' <= l + d)%coqR]) ->
  exists l l', [/\ fdica_loss G X W = Some l, fdica_loss G X W' = Some l' & (l' <= l + INR F * d)%coqR].
Proof.
move=> T0 uW h; have uW' i : W' i \in unitmx by have [] := h i.
rewrite !fdica_lossE //; do 2 eexists; split; [by []|by []|].
have -> : (INR F * d)%coqR = \sum_(i < F) d.
  by rewrite sumr_const card_ord RmulE RnatE mulr_natl.
rewrite RaddE -big_split; apply: sumR_le => i _.
have [_ [l [l' [e1 e2 le]]]] := h i.
by move: e1 e2 le; rewrite !loss1E // => -[<-] [<-].
Qed.

Section Identity.
Variables (eig : eigh_t) (chol : chol_t).
Hypotheses (He : eigh_contract eig) (Hc : chol_contract chol).
(** Without flooring the losses recorded by a run never increase, IP1 and IP2. *)
Theorem C77_run a G dG X k W W' ls : (0 < T)%N -> super_gaussian G dG -> distinct_f a ->
  (forall i, row_free (X i)) -> (forall i, W i \in unitmx) ->
  fdica_run identity_fl eig chol a G dG X k W = Some (W', ls) ->
  [/\ forall i, W' i \in unitmx, size ls = k.+1 & non_increasing ls].
Proof.
move=> T0 hG ds fX uW e.
have [||u sz w] := @recorded_some _ _ _ 0%coqR (@unitf F N) _ _ k W W' ls uW e.
- by move=> V uV; rewrite fdica_lossE //; eexists.
- move=> V V' uV /(C77_bins _ _ _ _ _ _ _).1 h.
  have st i : V' i \in unitmx /\ exists l l', [/\ compute_loss (fun _ _ => G) (b1 (X i)) (b1 (V i)) = Some l,
     compute_loss (fun _ _ => G) (b1 (X i)) (b1 (V' i)) = Some l' & (l' <= l + 0)%coqR].
    have [u' [l [l' [e1 e2 le]]]] := @once_f 1 N T _ _ He Hc a (fun _ _ => G) (fun _ _ => dG) _ _ _ T0
      (fun _ _ => hG) ds (fun _ => fX i) (fun _ => uV i) (h i).
    by split; [exact: u' ord0|exists l, l'; split=> //; lra].
  split; first by move=> i; have [] := st i.
  by have := sum_step T0 uV st; rewrite Rmult_0_r.
by split=> //; apply: within0.
Qed.
End Identity.

Section Floored.
Variables (eig : eigh_t) (chol : chol_t) (eps : R).
Hypothesis he : (0 < eps <= 1)%coqR.
Notation fl := (max_flooring eps).
Lemma floored_step G dG (Q : filt -> Prop) d X k W : (0 < T)%N -> (forall i, W i \in unitmx) ->
  (forall V i, (forall j, V j \in unitmx) -> Q V -> exists V' l l',
     [/\ update_once_ip1 fl (fun _ _ => dG) (b1 (X i)) (b1 (V i)) = Some V', V' ord0 \in unitmx,
     compute_loss (fun _ _ => G) (b1 (X i)) (b1 (V i)) = Some l,
     compute_loss (fun _ _ => G) (b1 (X i)) V' = Some l' & (l' <= l + d)%coqR]) ->
  along (fdica_ip1 fl dG X) Q k W ->
  exists W' ls, [/\ fdica_run fl eig chol (FIP1 N) G dG X k W = Some (W', ls),
    forall i, W' i \in unitmx, size ls = k.+1 & within (INR F * d)%coqR ls].
Proof.
move=> T0 uW hs al.
have [||W' [ls [e uW' sz w]]] := @recorded_along _ (fdica_once fl eig chol (FIP1 N) dG X)
   (fdica_loss G X) (INR F * d)%coqR (@unitf F N) Q _ _ k W uW al; last by exists W', ls.
- by move=> V uV; rewrite fdica_lossE //; eexists.
- move=> V uV qV.
  have hb i : exists2 V1, bin_once fl eig chol (FIP1 N) dG (X i) (V i) = Some V1 &
      V1 \in unitmx /\ exists l l', [/\ compute_loss (fun _ _ => G) (b1 (X i)) (b1 (V i)) = Some l,
       compute_loss (fun _ _ => G) (b1 (X i)) (b1 V1) = Some l' & (l' <= l + d)%coqR].
    have [V' [l [l' [e u e1 e2 le]]]] := hs V i uV qV.
    move: e; rewrite (_ : update_once_ip1 _ _ _ _ = update_once_f fl eig chol (FIP1 N) (fun _ _ => dG) (b1 (X i)) (b1 (V i))) //.
    rewrite bin_onceE; case eb: (bin_once _ _ _ _ _ _ _) => [V1|//] [E].
    by exists V1 => //; rewrite -E in u e2; split=> //; exists l, l'.
  have [h1 h2] := once_bins fl eig chol (FIP1 N) dG X V.
  case e: (fdica_once _ _ _ _ _ _ _) h1 h2 => [V'|] h1 h2.
    have st i : V' i \in unitmx /\ exists l l', [/\ compute_loss (fun _ _ => G) (b1 (X i)) (b1 (V i)) = Some l,
       compute_loss (fun _ _ => G) (b1 (X i)) (b1 (V' i)) = Some l' & (l' <= l + d)%coqR].
      by have [V1] := hb i; rewrite (h1 _ erefl) => -[<-].
    have [l [l' [e1 e2 le]]] := sum_step T0 uV st.
    by exists V', l, l'; split=> // i; have [] := st i.
  by have [i ni] := h2 erefl; have [V1] := hb i; rewrite ni.
Qed.

(** AuxLaplaceFDICA with the default flooring: every run succeeds and no iteration increases the
    loss by more than [n_bins * n_sources * eps / 2]. *)
Theorem C77_laplace_ip1 X k W : (0 < T)%N -> (forall i, row_free (X i)) -> (forall i, W i \in unitmx) ->
  exists W' ls, [/\ fdica_run fl eig chol (FIP1 N) fdica_laplace fdica_d_laplace X k W = Some (W', ls),
    forall i, W' i \in unitmx, size ls = k.+1 &
    forall i, (i < k)%N -> (nth 0%R ls i.+1 <= nth 0%R ls i + INR F * (INR N * eps / 2))%coqR].
Proof.
move=> T0 fX uW.
have [||W' [ls [e u sz w]]] := @floored_step fdica_laplace fdica_d_laplace (fun _ => True) (INR N * eps / 2) X k W T0 uW.
- move=> V i uV _.
  have [V' [l [l' [e u e1 e2 le]]]] := @C45_laplace_ip1 1 N T eps (b1 (X i)) (b1 (V i)) he T0 (fun _ => uV i) (fun _ => fX i).
  by exists V', l, l'.
- exact: alongT.
by exists W', ls; split=> // i ik; apply: w; rewrite sz.
Qed.
(** General contrast functions, as long as no modulus is below [eps / 2]. *)
Theorem C77_ip1_floor G dG X k W : (0 < T)%N -> super_gaussian G dG -> (forall i, row_free (X i)) ->
  (forall i, W i \in unitmx) ->
  along (fdica_ip1 fl dG X) (fun V => forall i n t, (eps <= 2 * cabs (separate (X i) (V i) n t))%coqR) k W ->
  exists W' ls, [/\ fdica_run fl eig chol (FIP1 N) G dG X k W = Some (W', ls),
    forall i, W' i \in unitmx, size ls = k.+1 & non_increasing ls].
Proof.
move=> T0 hG fX uW al.
have [|W' [ls [e u sz w]]] := @floored_step G dG _ 0%coqR X k W T0 uW _ al.
- move=> V i uV qV.
  have [|V' [l [l' [e u e1 e2 le]]]] := @C45_ip1 1 N T eps (fun _ _ => G) (fun _ _ => dG) (b1 (X i)) (b1 (V i)) he T0
     (fun _ _ => hG) (fun _ => uV i) (fun _ => fX i).
    by move=> n t; have := qV i n t; rewrite -norms1.
  by exists V', l, l'; split=> //; lra.
by exists W', ls; split=> //; apply: within0; move: w; rewrite Rmult_0_r.
Qed.
End Floored.
End C77.

(** With the floor active the loss does increase for some recordings, whatever the floor. *)
Theorem C77_floor_refuted eps eig chol : (0 < eps <= 1)%coqR ->
  exists (X : 'I_1 -> 'M[Cx]_(1, 2)) (W W' : 'I_1 -> 'M[Cx]_1) l l',
    [/\ forall i, row_free (X i) /\ W i \in unitmx,
        fdica_once (max_flooring eps) eig chol (FIP1 1) fdica_d_laplace X W = Some W',
        fdica_loss fdica_laplace X W = Some l, fdica_loss fdica_laplace X W' = Some l' & (l < l')%coqR].
Proof.
move=> he; have [X [W [W' [l [l' [h e e1 e2 lt]]]]]] := C45_floor_refuted he.
have uW i : W i \in unitmx by have [] := h i.
have uW' : W' ord0 \in unitmx.
  move: e2; rewrite /compute_loss; case: ifP => // /andP[_ /forallP] H _; exact: H.
pose X1 := b1 (X ord0); pose W1 := b1 (W ord0); pose W2 := b1 (W' ord0).
have bE A (V : 'I_1 -> A) : V = b1 (V ord0).
  by apply: FunctionalExtensionality.functional_extensionality => i; rewrite (ord1 i).
rewrite (bE _ X) (bE _ W) (bE _ W') in e e1 e2.
exists X1, W1, W2, l, l'; split=> //.
- by move=> i; have := h ord0.
- have := bin_onceE (max_flooring eps) eig chol (FIP1 1) fdica_d_laplace (X ord0) (W ord0).
  rewrite /= e; case eb: (bin_ip1 _ _ _ _) => [V|//] [E].
  rewrite /fdica_ip1 (_ : all_bins _ _ = all_bins W1 (b1 (bin_ip1 (max_flooring eps) fdica_d_laplace (X ord0) (W ord0)))) //.
  by rewrite all_bins1 eb /= /W2 E.
- have u1 i : W1 i \in unitmx by exact: uW.
  by move: e1; rewrite loss1E ?(fdica_lossE _ _ _ u1) // !big_ord1.
- have u2 i : W2 i \in unitmx by [].
  by move: e2; rewrite loss1E ?(fdica_lossE _ _ _ u2) // !big_ord1.
Qed.

(** The hypotheses are met: two bins with two sources and two frames; the two bins differ. *)
Example C77_instance eig chol k : exists W' ls,
  [/\ fdica_run (max_flooring 1) eig chol (FIP1 2) fdica_laplace fdica_d_laplace
        (fun i : 'I_2 => (i.+1)%:R%:M) k (fun _ => 1%:M) = Some (W', ls) & size ls = k.+1].
Proof.
have he : (0 < 1 <= 1)%coqR by lra.
have fX (i : 'I_2) : row_free ((i.+1)%:R%:M : 'M[Cx]_2).
  by rewrite row_free_unit unitmxE det_scalar unitfE expf_neq0 // pnatr_eq0.
have uW (i : 'I_2) : (1%:M : 'M[Cx]_2) \in unitmx by exact: unitmx1.
have [W' [ls [e _ sz _]]] := C77_laplace_ip1 eig chol he k (isT : (0 < 2)%N) fX uW.
by exists W', ls.
Qed.

Print Assumptions C77_bins.
Print Assumptions C77_loss.
Print Assumptions C77_loss_defined.
Print Assumptions C77_permutation.
Print Assumptions C77_run.
Print Assumptions C77_laplace_ip1.
Print Assumptions C77_ip1_floor.
Print Assumptions C77_floor_refuted.
Print Assumptions C77_instance.
