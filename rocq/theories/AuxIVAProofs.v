(** Facts about the auxiliary function of IVA. *)
From Coq Require Import Reals Lra.
From mathcomp Require Import all_ssreflect all_algebra.
From mathcomp Require Import ring.
From Verif Require Import RStruct MxC CxR NpLin RealLemmas Eigh EighProofs.
From Verif Require Import SpatialIP SpatialIPProofs SpatialISS SpatialISSProofs SpatialIP2 SpatialIP2Proofs.
From Verif Require Import SpatialISS2 SpatialISS2Proofs Scale ScaleProofs AuxIVA.
Import Order.TTheory GRing.Theory Num.Theory.
Set Implicit Arguments.
Unset Strict Implicit.
Unset Printing Implicit Defensive.
Local Open Scope ring_scope.

Lemma all_binsP F A (d : 'I_F -> A) f g : all_bins d f = Some g -> forall i, f i = Some (g i).
Proof.
rewrite /all_bins; case: ifP => // /forallP h [<-] i; have := h i; by case: (f i).
Qed.
Lemma all_bins_ex F A (d : 'I_F -> A) (f : 'I_F -> option A) (P : 'I_F -> A -> Prop) :
  (forall i, exists2 x, f i = Some x & P i x) ->
  exists2 g, all_bins d f = Some g & forall i, f i = Some (g i) /\ P i (g i).
Proof.
move=> h; have s : [forall i, isSome (f i)] by apply/forallP => i; have [x ->] := h i.
rewrite /all_bins s; eexists; first by [].
by move=> i; have [x -> p] := h i.
Qed.

Lemma meanR_le T (f g : 'I_T -> R) : (forall t, (f t <= g t)%coqR) -> (meanR f <= meanR g)%coqR.
Proof.
move=> h; apply: Rmult_le_compat_l; last by apply: sumR_le => t _; apply: h.
by apply/RleP; rewrite invr_ge0 ler0n.
Qed.
Lemma meanRD T (f g : 'I_T -> R) : meanR (fun t => f t + g t) = meanR f + meanR g.
Proof. by rewrite /meanR big_split mulrDr. Qed.
Lemma meanRB T (f g : 'I_T -> R) : meanR (fun t => f t - g t) = meanR f - meanR g.
Proof. by rewrite /meanR sumrB mulrBr. Qed.
Lemma eq_meanR T (f g : 'I_T -> R) : f =1 g -> meanR f = meanR g.
Proof. by move=> h; rewrite /meanR; congr (_ * _); apply: eq_bigr. Qed.
Lemma meanR_const T (a : R) : (0 < T)%N -> meanR (fun _ : 'I_T => a) = a.
Proof.
move=> T0; rewrite /meanR sumr_const card_ord -[a *+ T]mulr_natl mulKf // pnatr_eq0.
by rewrite -lt0n.
Qed.

Section Bin.
Variables (N T : nat).
Implicit Types (phi : 'M[R]_(N, T)) (X : 'M[Cx]_(N, T)) (W : 'M[Cx]_N).
Lemma wcovE phi X n : wcov phi X n = X *m Dw (row n phi) *m X^H.
Proof.
apply/matrixP => a b; rewrite mulD mxE; rewrite /meanC; congr (_ * _); apply: eq_bigr => t _.
by rewrite !mxE.
Qed.
Lemma aux_iss phi X W : aux_cost (wcov phi X) W = iss_cost phi (W *m X) W.
Proof.
rewrite /aux_cost /iss_cost; congr (_ - _); apply: eq_bigr => n _.
have -> : wpower1 (phi n) ((W *m X) n) = wpower1 (row n phi 0) (row n (W *m X) 0).
  by rewrite /wpower1; congr (_ * _); apply: eq_bigr => t _; rewrite !mxE.
by rewrite wpower1_quad wcovE row_mul /quad ctrM !mulmxA.
Qed.
Lemma wcov_pd phi X n : (forall t, (0 < phi n t)%coqR) -> row_free X -> pd (wcov phi X n).
Proof.
move=> p0 fX; rewrite wcovE -{1}[X]ctrK; apply: pd_congr.
  by apply: Dw_pd => t; rewrite mxE.
move=> x e; apply: ctr_inj; rewrite ctr0; apply/eqP.
have := congr1 (@ctr _ _ _) e; rewrite ctr0 ctrM ctrK => /eqP.
by rewrite mulmx_free_eq0.
Qed.
Lemma row_free_gram X : row_free X -> X *m X^H \in unitmx.
Proof.
move=> fX; apply: pd_unit; rewrite -[X *m X^H]mulmx1 -{1}[X]ctrK.
have := @pd_congr _ _ _ _ X^H (@pd1 Cx T); rewrite mulmx1 ctrK mulmx1; apply.
move=> x e; apply: ctr_inj; rewrite ctr0; apply/eqP.
have := congr1 (@ctr _ _ _) e; rewrite ctr0 ctrM ctrK => /eqP.
by rewrite mulmx_free_eq0.
Qed.
End Bin.

Section Loss.
Variables (F N T : nat).
Notation spec := ('I_F -> 'M[Cx]_(N, T)).
Notation filt := ('I_F -> 'M[Cx]_N).
Notation fn := ('I_N -> 'I_T -> R -> R).
Implicit Types (X Y : spec) (W V : filt) (phi : 'M[R]_(N, T)).

Lemma norms_ge0 Y n t : (0 <= norms Y n t)%coqR.
Proof. by rewrite mxE; apply: sqrt_pos. Qed.
Lemma norms_sqr Y n t : (norms Y n t ^ 2)%coqR = \sum_i cabs (Y i n t) ^+ 2.
Proof.
rewrite mxE pow2_sqrt //; apply: sumR_ge0 => i _; rewrite -RpowE.
by apply: pow_le; apply: cabs_ge0.
Qed.
Lemma norms_row Y Y' n : (forall i, row n (Y i) = row n (Y' i)) -> forall t, norms Y n t = norms Y' n t.
Proof.
move=> h t; rewrite !mxE; congr R_sqrt.sqrt; apply: eq_bigr => i _.
by have /rowP/(_ t) := h i; rewrite !mxE => ->.
Qed.
Lemma wpower_norms phi Y : \sum_i wpower phi (Y i) =
  \sum_n meanR (fun t => (phi n t * norms Y n t ^ 2)%coqR).
Proof.
rewrite exchange_big; apply: eq_bigr => n _; rewrite -mulr_sumr; congr (_ * _).
rewrite exchange_big; apply: eq_bigr => t _; rewrite norms_sqr.
by rewrite RmulE mulr_sumr.
Qed.

(** the loss of signals [Y] obtained by filters [W] *)
Definition lossY (G : fn) Y W : R :=
  \sum_n meanR (fun t => G n t (norms Y n t)) - (2 * (\sum_i ln (cabs (\det (W i)))))%coqR.

Lemma majorise (G : fn) phi (gap : fn) Y Y' W W' :
  (forall n t, (G n t (norms Y' n t) <= G n t (norms Y n t) +
     phi n t * (norms Y' n t ^ 2 - norms Y n t ^ 2) + gap n t (norms Y n t))%coqR) ->
  (forall i, (iss_cost phi (Y' i) (W' i) <= iss_cost phi (Y i) (W i))%coqR) ->
  (lossY G Y' W' <= lossY G Y W + (\sum_n meanR (fun t => gap n t (norms Y n t)))%R)%coqR.
Proof.
move=> hG hc; rewrite /lossY.
have h1 : (\sum_n meanR (fun t => G n t (norms Y' n t)) <=
   \sum_n meanR (fun t => G n t (norms Y n t)) +
   (\sum_n meanR (fun t => (phi n t * norms Y' n t ^ 2)%coqR) -
    \sum_n meanR (fun t => (phi n t * norms Y n t ^ 2)%coqR)) +
   \sum_n meanR (fun t => gap n t (norms Y n t)))%coqR.
  apply: (Rle_trans _ (\sum_n meanR (fun t => (G n t (norms Y n t) +
     (phi n t * norms Y' n t ^ 2 - phi n t * norms Y n t ^ 2) + gap n t (norms Y n t))%coqR))%R).
    apply: sumR_le => n _; apply: meanR_le => t; have := hG n t; lra.
  apply: Req_le; rewrite !RaddE !RsubE -sumrB -!big_split; apply: eq_bigr => n _ /=.
  by rewrite -meanRB -!meanRD; apply: eq_meanR => t; toR.
have h2 : (\sum_i iss_cost phi (Y' i) (W' i) <= \sum_i iss_cost phi (Y i) (W i))%coqR.
  by apply: sumR_le => i _; apply: hc.
have e V Z : \sum_i iss_cost phi (Z i) (V i) =
   (\sum_n meanR (fun t => (phi n t * norms Z n t ^ 2)%coqR) - 2 * \sum_i ln (cabs (\det (V i))))%coqR.
  rewrite /iss_cost -wpower_norms [(_ * \sum_i _)%coqR]RmulE mulr_sumr RsubE -sumrB.
  by apply: eq_bigr => i _.
move: h2; rewrite !e; move: h1; toR.
move: (\sum_n meanR (fun t => G n t (norms Y' n t))) (\sum_n meanR (fun t => G n t (norms Y n t)))
  (\sum_n meanR (fun t => gap n t (norms Y n t))) (\sum_n meanR _) (\sum_n meanR _)
  (\sum_i ln _) (\sum_i ln _) => *; lra.
Qed.

Lemma compute_lossE (G : fn) X W : (0 < T)%N -> (forall i, W i \in unitmx) ->
  compute_loss G X W = Some (lossY G (separate_all X W) W).
Proof. by move=> T0 uW; rewrite /compute_loss -lt0n T0 (introT forallP uW). Qed.
Lemma compute_loss_outputE (G : fn) X W Y : (0 < T)%N -> (forall i, W i \in unitmx) ->
  (forall i, row_free (X i)) -> (forall i, Y i = W i *m X i) ->
  compute_loss_output G X Y = Some (lossY G Y W).
Proof.
move=> T0 uW fX eY; rewrite /compute_loss_output.
have [|V -> hV] := @all_bins_ex F _ (fun _ => 0) (fun i => refit (Y i) (X i)) (fun i x => x = W i).
  move=> i; exists (W i) => //; rewrite /refit np_invE; last exact: row_free_gram.
  by rewrite eY -(mulmxA (W i)) mulmxK // row_free_gram.
have uV : [forall i, V i \in unitmx] by apply/forallP => i; have [_ ->] := hV i.
rewrite -lt0n T0 uV /lossY; congr (Some (_ - _ * _)%coqR).
by apply: eq_bigr => i _; have [_ ->] := hV i.
Qed.
End Loss.
