(** C79: the separation depends on the frames only through their values: frames in another
    order, or the whole recording repeated, give the same filters and losses. *)
From Coq Require Import Reals Lra FunctionalExtensionality.
From mathcomp Require Import all_ssreflect all_algebra.
From mathcomp Require Import ring.
From Verif Require Import RStruct MxC CxR NpLin RealLemmas Eigh SpatialIP SpatialIP2 SpatialISS SpatialISS2 Scale AuxIVA AuxIVARun CubicProofs AuxFDICA AuxIVACall ScaleProofs.
Import Order.TTheory GRing.Theory Num.Theory.
Set Implicit Arguments.
Unset Strict Implicit.
Unset Printing Implicit Defensive.
Local Open Scope ring_scope.

(** every frame occurs equally often in the list [f] of frames *)
Definition even_frames T T' (f : 'I_T' -> 'I_T) : Prop :=
  exists2 k, (0 < k)%N & forall t, #|[set s | f s == t]| = k.
(** the recording with the frames [f] *)
Definition frames A n T T' (f : 'I_T' -> 'I_T) (X : 'M[A]_(n, T)) : 'M[A]_(n, T') := \matrix_(i, s) X i (f s).

Section Mean.
Variables (T T' : nat) (f : 'I_T' -> 'I_T).
Hypothesis ef : even_frames f.
Lemma sum_frames (V : zmodType) (g : 'I_T -> V) k : (forall t, #|[set s | f s == t]| = k) -> \sum_s g (f s) = (\sum_t g t) *+ k.
Proof.
move=> ek; rewrite (partition_big f predT) //= -sumrMnl; apply: eq_bigr => t _.
rewrite (eq_bigr (fun _ => g t)); last by move=> s /eqP ->.
by rewrite sumr_const -(ek t) cardsE.
Qed.
Lemma size_frames k : (forall t, #|[set s | f s == t]| = k) -> T' = (k * T)%N.
Proof.
move=> ek; have := sum_frames (fun=> 1 : int) ek; rewrite !sumr_const !card_ord -mulrnA => /eqP.
by rewrite eqr_nat mulnC => /eqP.
Qed.
Lemma T0E : (T' == 0%N) = (T == 0%N).
Proof. by have [k k0 /size_frames ->] := ef; rewrite muln_eq0 [k == 0%N]eqn0Ngt k0. Qed.
Lemma weight_frames k : (forall t, #|[set s | f s == t]| = k) -> (0 < k)%N -> ((T'%:R)^-1 * k%:R = (T%:R)^-1 :> R)%R.
Proof.
move=> /size_frames -> k0.
case: (posnP T) => [->|T0]; first by rewrite muln0 !invr0 mul0r.
by rewrite natrM invfM mulrAC mulVf ?mul1r // pnatr_eq0 -lt0n.
Qed.
Lemma meanR_frames (g : 'I_T -> R) : meanR (fun s => g (f s)) = meanR g.
Proof.
have [k k0 ek] := ef.
by rewrite /meanR (sum_frames _ ek) -[X in (_ * X)%R]mulr_natl mulrA weight_frames.
Qed.
Lemma meanC_frames (g : 'I_T -> Cx) : meanC (fun s => g (f s)) = meanC g.
Proof.
have [k k0 ek] := ef.
by rewrite /meanC (sum_frames _ ek) -[X in _ * X]mulr_natl -c_nat mulrA -cM RnatE weight_frames.
Qed.
Lemma forall_frames (P : pred 'I_T) : [forall s, P (f s)] = [forall t, P t].
Proof.
have [k k0 ek] := ef; apply/forallP/forallP => h x; last exact: h.
have : (0 < #|[set s | f s == x]|)%N by rewrite ek.
by case/card_gt0P => s; rewrite inE => /eqP <-.
Qed.
End Mean.

Section AuxIVA.
Variables (F N T T' : nat) (f : 'I_T' -> 'I_T) (ef : even_frames f) (fl : R -> R) (eig : eigh_t) (chol : chol_t).
Notation spec T := ('I_F -> 'M[Cx]_(N, T)).
Notation filt := ('I_F -> 'M[Cx]_N).
Notation fn T := ('I_N -> 'I_T -> R -> R).
Implicit Types (X Y : spec T) (W : filt) (G dG : fn T).
Definition fspec (X : spec T) : spec T' := fun i => frames f (X i).
(** the contrast function at the frames [f] *)
Definition ffn (G : fn T) : fn T' := fun n s => G n (f s).

Lemma eq_all_bins A (d : 'I_F -> A) (g h : 'I_F -> option A) : (forall i, g i = h i) -> all_bins d g = all_bins d h.
Proof. by move=> /functional_extensionality ->. Qed.
Lemma all_bins_map S S' (d : 'I_F -> S) (d' : 'I_F -> S') (g : 'I_F -> option S) (g' : 'I_F -> option S') (h : 'I_F -> S -> S') :
  (forall i, g' i = omap (h i) (g i)) -> all_bins d' g' = omap (fun u i => h i (u i)) (all_bins d g).
Proof.
move=> E; rewrite /all_bins.
have -> : [forall i, isSome (g' i)] = [forall i, isSome (g i)].
  by apply: eq_forallb => i; rewrite E; case: (g i).
case: ifP => // /forallP H; congr Some; apply: functional_extensionality => i.
by rewrite E; have := H i; case: (g i).
Qed.
Lemma frames_mul m n (A : 'M[Cx]_(m, n)) (X : 'M[Cx]_(n, T)) : A *m frames f X = frames f (A *m X).
Proof. by apply/matrixP=> i s; rewrite !mxE; apply: eq_bigr => j _; rewrite mxE. Qed.
Lemma separate_frames X W : separate_all (fspec X) W = fspec (separate_all X W).
Proof. by apply: functional_extensionality => i; rewrite /separate_all /separate frames_mul. Qed.
Lemma norms_frames Y : norms (fspec Y) = frames f (norms Y).
Proof. by apply/matrixP=> n s; rewrite !mxE; congr R_sqrt.sqrt; apply: eq_bigr => i _; rewrite mxE. Qed.
Lemma weight_frames' dG (r : 'M[R]_(N, T)) : weight fl (ffn dG) (frames f r) = frames f (weight fl dG r).
Proof. by apply/matrixP=> n s; rewrite !mxE. Qed.
Lemma finite_frames (r : 'M[R]_(N, T)) n : finite_weight fl (frames f r) n = finite_weight fl r n.
Proof.
rewrite /finite_weight -(forall_frames ef (fun t => fl (2 * r n t)%coqR != 0)).
by apply: eq_forallb => s; rewrite mxE.
Qed.
Lemma wcov_frames (phi : 'M[R]_(N, T)) (Z : 'M[Cx]_(N, T)) n : wcov (frames f phi) (frames f Z) n = wcov phi Z n.
Proof.
apply/matrixP=> a b; rewrite !mxE -(meanC_frames ef); congr meanC.
by apply: functional_extensionality => s; rewrite !mxE.
Qed.
Lemma wcov_framesE (phi : 'M[R]_(N, T)) (Z : 'M[Cx]_(N, T)) : wcov (frames f phi) (frames f Z) = wcov phi Z.
Proof. by apply: functional_extensionality => n; exact: wcov_frames. Qed.
Lemma ip1_frames dG X W : update_once_ip1 fl (ffn dG) (fspec X) W = update_once_ip1 fl dG X W.
Proof.
rewrite /update_once_ip1 separate_frames norms_frames weight_frames' (T0E ef).
under eq_forallb => n do rewrite finite_frames.
case: (_ && _); last by [].
by apply: eq_all_bins => i; rewrite -(wcov_framesE _ (X i)).
Qed.
Lemma ip2_frames dG X ps W : update_once_ip2 fl eig chol (ffn dG) (fspec X) ps W = update_once_ip2 fl eig chol dG X ps W.
Proof.
rewrite /update_once_ip2; congr foldl; apply: functional_extensionality => o; apply: functional_extensionality => p.
case: o => // V; rewrite /iva_ip2_step separate_frames norms_frames weight_frames' (T0E ef) !finite_frames.
case: (_ && _); last by [].
by apply: eq_all_bins => i; rewrite -(wcov_framesE _ (X i)).
Qed.
(** ISS1 *)
Lemma iss_num_frames (phi : 'M[R]_(N, T)) (Y : 'M[Cx]_(N, T)) n k : iss_num (frames f phi) (frames f Y) n k = iss_num phi Y n k.
Proof.
rewrite /iss_num -(meanC_frames ef); congr meanC.
by apply: functional_extensionality => s; rewrite !mxE.
Qed.
Lemma iss_den_frames (phi : 'M[R]_(N, T)) (Y : 'M[Cx]_(N, T)) n k : iss_den (frames f phi) (frames f Y) n k = iss_den phi Y n k.
Proof.
rewrite /iss_den -(meanR_frames ef); congr meanR.
by apply: functional_extensionality => s; rewrite !mxE.
Qed.
Lemma iss1_frames (phi : 'M[R]_(N, T)) (Y : 'M[Cx]_(N, T)) : iss1 fl (frames f phi) (frames f Y) = omap (frames f) (iss1 fl phi Y).
Proof.
rewrite /iss1 /iss1_loop; elim: (enum 'I_N) Y => [|n s IH] Y //=.
have -> : iss1_step fl (frames f phi) (frames f Y) n = omap (frames f) (iss1_step fl phi Y n).
  rewrite /iss1_step /iss_ok !lt0n (T0E ef) iss_den_frames.
  under eq_forallb => k do rewrite iss_den_frames.
  case: and3P => // _; congr Some; apply/matrixP=> k t.
  by rewrite !mxE /iss_v iss_num_frames !iss_den_frames.
case: iss1_step => [Z|] /=; first exact: IH.
by elim: (s).
Qed.
Lemma iss1_once_frames dG Y : update_once_iss1 fl (ffn dG) (fspec Y) = omap fspec (update_once_iss1 fl dG Y).
Proof.
rewrite /update_once_iss1 norms_frames weight_frames'.
under eq_forallb => n do rewrite finite_frames.
case: [forall n, _]; last by [].
exact: (@all_bins_map _ _ Y (fspec Y) _ _ (fun i => frames f) (fun i => iss1_frames _ (Y i))).
Qed.
(** ISS2 *)
Notation frow := (frames (n := 1) f).
Lemma nth_frow A (d : A) (s : seq 'rV[A]_T) i : nth (const_mx d) [seq frow x | x <- s] i = frow (nth (const_mx d) s i).
Proof.
case: (ltnP i (size s)) => h; first by rewrite (nth_map (const_mx d)).
rewrite !nth_default ?size_map //; by apply/matrixP=> a b; rewrite !mxE.
Qed.
Lemma nth_frow0 (V : zmodType) (s : seq 'rV[V]_T) i : nth 0 [seq frow x | x <- s] i = frow (nth 0 s i).
Proof. exact: (nth_frow (0 : V)). Qed.
Lemma pair_frames (Ys : seq 'rV[Cx]_T) : pair_mx [seq frow y | y <- Ys] = frames f (pair_mx Ys).
Proof. by apply/matrixP=> i t; rewrite !mxE nth_frow0 mxE. Qed.
Lemma iss2_G_frames (p : 'rV[R]_T) (M : 'M[Cx]_(2, T)) : iss2_G (frow p) (frames f M) = iss2_G p M.
Proof.
apply/matrixP=> i j; rewrite !mxE -(meanC_frames ef); congr meanC.
by apply: functional_extensionality => s; rewrite !mxE.
Qed.
Lemma iss2_F_frames (p : 'rV[R]_T) (M : 'M[Cx]_(2, T)) (y : 'rV[Cx]_T) : iss2_F (frow p) (frames f M) (frow y) = iss2_F p M y.
Proof.
apply/matrixP=> i j; rewrite !mxE -(meanC_frames ef); congr meanC.
by apply: functional_extensionality => s; rewrite !mxE.
Qed.
Lemma framesD (m : nat) (A B : 'M[Cx]_(m, T)) : frames f A + frames f B = frames f (A + B).
Proof. by apply/matrixP=> i s; rewrite !mxE. Qed.
Lemma iss2_sub_frames (M : 'M[Cx]_(2, T)) y p : iss2_sub (frames f M) (frow y, frow p) = omap frow (iss2_sub M (y, p)).
Proof.
rewrite /iss2_sub /= iss2_G_frames; case: inv2 => // Gi /=.
by rewrite iss2_F_frames frames_mul framesD.
Qed.
Lemma iss2_subs_frames (M : 'M[Cx]_(2, T)) s :
  iss2_subs (frames f M) [seq (frow x.1, frow x.2) | x <- s] = omap (map frow) (iss2_subs M s).
Proof.
elim: s => [|[y p] s IH] //.
have E (M' : 'M[Cx]_(2, T)) x r : iss2_subs M' (x :: r) = match iss2_sub M' x, iss2_subs M' r with Some y, Some r => Some (y :: r) | _, _ => None end by [].
rewrite E -[iss2_subs _ _]/(match iss2_sub (frames f M) (frow y, frow p), iss2_subs (frames f M) [seq (frow x.1, frow x.2) | x <- s] with Some y, Some r => Some (y :: r) | _, _ => None end).
rewrite iss2_sub_frames IH.
by case: iss2_sub => // z; case: iss2_subs.
Qed.
Lemma iss2_main_frames (M : 'M[Cx]_(2, T)) ps :
  iss2_main eig chol fl (frames f M) [seq frow p | p <- ps] = omap (fun x => (frow x.1, frow x.2)) (iss2_main eig chol fl M ps).
Proof.
rewrite /iss2_main !nth_frow0 !iss2_G_frames; case: eigh2 => // -[w H] /=.
case: scale_h => // pm; case: scale_h => // pn /=.
by rewrite !frames_mul.
Qed.
Lemma zip_frow (Ys : seq 'rV[Cx]_T) (ps : seq 'rV[R]_T) :
  zip [seq frow x | x <- Ys] [seq frow x | x <- ps] = [seq (frow x.1, frow x.2) | x <- zip Ys ps].
Proof. by elim: Ys ps => [|y s IH] [|p r] //=; rewrite IH. Qed.
Lemma iss2_step_frames (phi : seq 'rV[R]_T) (Y : seq 'rV[Cx]_T) p :
  iss2_step eig chol fl [seq frow x | x <- phi] [seq frow x | x <- Y] p = omap (map frow) (iss2_step eig chol fl phi Y p).
Proof.
rewrite /iss2_step (T0E ef); case: (T == 0%N); first by [].
rewrite /split5 -!map_take -!map_drop.
case: (p.2 < p.1)%N => /=; rewrite -!map_cat zip_frow pair_frames iss2_subs_frames iss2_main_frames.
  case: iss2_subs => // Ys; case: iss2_main => // -[y y'] /=.
  by rewrite -!map_take -!map_drop map_cat /= map_cat /=.
case: iss2_subs => // Ys; case: iss2_main => // -[y y'] /=.
by rewrite -!map_take -!map_drop map_cat /= map_cat /=.
Qed.
Lemma iss2_frames (phi : seq 'rV[R]_T) ps (Y : seq 'rV[Cx]_T) :
  iss2 eig chol fl [seq frow x | x <- phi] ps [seq frow x | x <- Y] = omap (map frow) (iss2 eig chol fl phi ps Y).
Proof.
rewrite /iss2; elim: ps Y => [|p ps IH] Y //=; rewrite iss2_step_frames.
case: iss2_step => [Z|] /=; first exact: IH.
by elim: (ps).
Qed.
Lemma of_rows_frames (s : seq 'rV[Cx]_T) : of_rows N [seq frow x | x <- s] = frames f (of_rows N s).
Proof. by apply/matrixP=> i t; rewrite !mxE nth_frow0 mxE. Qed.
Lemma to_rows_frames A (Y : 'M[A]_(N, T)) : to_rows (frames f Y) = [seq frow x | x <- to_rows Y].
Proof. by rewrite /to_rows -map_comp; apply: eq_map => i; apply/matrixP=> a b; rewrite !mxE. Qed.
Lemma iss2_once_frames dG ps Y : update_once_iss2 fl eig chol (ffn dG) ps (fspec Y) = omap fspec (update_once_iss2 fl eig chol dG ps Y).
Proof.
rewrite /update_once_iss2 norms_frames weight_frames'.
under eq_forallb => n do rewrite finite_frames.
case: [forall n, _]; last by [].
apply: (@all_bins_map _ _ Y (fspec Y) _ _ (fun i => frames f)) => i.
rewrite !to_rows_frames iss2_frames; case: iss2 => [s|] //=.
by rewrite of_rows_frames.
Qed.
(** * Losses *)
Lemma loss_frames G X W : compute_loss (ffn G) (fspec X) W = compute_loss G X W.
Proof.
rewrite /compute_loss (T0E ef); case: (_ && _); last by [].
congr (Some (_ - _)); apply: eq_bigr => n _; rewrite separate_frames norms_frames -(meanR_frames ef); congr meanR.
by apply: functional_extensionality => s; rewrite mxE.
Qed.
Lemma gram_frames k m n (A : 'M[Cx]_(m, T)) (B : 'M[Cx]_(n, T)) : (forall t, #|[set s | f s == t]| = k) ->
  frames f A *m (frames f B)^H = (k%:R : Cx) *: (A *m B^H).
Proof.
move=> ek; apply/matrixP=> i j; rewrite !mxE [RHS]mulr_natl.
rewrite -(sum_frames (fun t => A i t * B^H t j) ek); apply: eq_bigr => s _.
by rewrite !mxE.
Qed.
Lemma refit_frames (Y X : 'M[Cx]_(N, T)) : refit (frames f Y) (frames f X) = refit Y X.
Proof.
have [k k0 ek] := ef; rewrite /refit !(gram_frames _ _ ek).
have kc : (k%:R : Cx) != 0 by rewrite pnatr_eq0 -lt0n.
rewrite /np_inv unitmxZ ?unitfE //; case: ifP => // u.
by congr Some; rewrite invmxZ ?unitmxZ ?unitfE // -scalemxAl -scalemxAr scalerA mulfV // scale1r.
Qed.
Lemma loss_output_frames G X Y : compute_loss_output (ffn G) (fspec X) (fspec Y) = compute_loss_output G X Y.
Proof.
rewrite /compute_loss_output.
have -> : all_bins (fun=> 0) (fun i => refit (fspec Y i) (fspec X i)) = all_bins (fun=> 0) (fun i => refit (Y i) (X i)).
  by apply: eq_all_bins => i; exact: refit_frames.
case: all_bins => // W; rewrite (T0E ef); case: (_ && _); last by [].
congr (Some (_ - _)); apply: eq_bigr => n _; rewrite norms_frames -(meanR_frames ef); congr meanR.
by apply: functional_extensionality => s; rewrite mxE.
Qed.
(** * Runs *)
Lemma recorded_map S S' (g : S -> S') (st : S -> option S) (st' : S' -> option S') l l' :
  (forall s, st' (g s) = omap g (st s)) -> (forall s, l' (g s) = l s) ->
  forall k s, recorded st' l' k (g s) = omap (fun p => (g p.1, p.2)) (recorded st l k s).
Proof.
move=> hs hl; elim=> [|k IH] s /=; rewrite hl; case: (l s) => // x.
by rewrite hs; case: (st s) => //= s1; rewrite IH; case: recorded => // -[].
Qed.
Lemma once_f_frames a dG X W : update_once_f fl eig chol a (ffn dG) (fspec X) W = update_once_f fl eig chol a dG X W.
Proof. by case: a => [|ps]; [exact: ip1_frames|exact: ip2_frames]. Qed.
Lemma once_o_frames a dG Y : update_once_o fl eig chol a (ffn dG) (fspec Y) = omap fspec (update_once_o fl eig chol a dG Y).
Proof. by case: a => [|ps]; [exact: iss1_once_frames|exact: iss2_once_frames]. Qed.
Lemma omap_id A (o : option A) : omap id o = o.
Proof. by case: o. Qed.
(** AuxIVA with filters (IP1, IP2): the same filters and the same recorded losses *)
Theorem C79_filter_run a G dG X k W :
  aux_run_f fl eig chol a (ffn G) (ffn dG) (fspec X) k W = aux_run_f fl eig chol a G dG X k W.
Proof.
rewrite /aux_run_f (@recorded_map _ _ id (update_once_f fl eig chol a dG X) _ (compute_loss G X)).
- by case: recorded => // -[].
- by move=> s; rewrite omap_id; exact: once_f_frames.
- by move=> s; exact: loss_frames.
Qed.
(** AuxIVA without filters (ISS1, ISS2): the outputs are those frames of the outputs *)
Theorem C79_output_run a G dG X k Y :
  aux_run_o fl eig chol a (ffn G) (ffn dG) (fspec X) k (fspec Y) =
  omap (fun p => (fspec p.1, p.2)) (aux_run_o fl eig chol a G dG X k Y).
Proof.
by rewrite /aux_run_o; apply: recorded_map => s; [exact: once_o_frames|exact: loss_output_frames].
Qed.
(** AuxGaussIVA *)
Lemma variance_frames Y : source_variance (fspec Y) = frames f (source_variance Y).
Proof. by apply/matrixP=> n s; rewrite !mxE; congr meanR; apply: functional_extensionality => i; rewrite mxE. Qed.
Lemma gauss_frames (v : 'M[R]_(N, T)) : @gauss F N T' (frames f v) = ffn (@gauss F N T v).
Proof. by do 3![apply: functional_extensionality => ?]; rewrite /gauss /ffn mxE. Qed.
Lemma d_gauss_frames (v : 'M[R]_(N, T)) : d_gauss (frames f v) = ffn (d_gauss v).
Proof. by do 3![apply: functional_extensionality => ?]; rewrite /d_gauss /ffn mxE. Qed.
Lemma nonzero_frames (v : 'M[R]_(N, T)) : [forall n, [forall t, frames f v n t != 0]] = [forall n, [forall t, v n t != 0]].
Proof.
apply: eq_forallb => n; rewrite -(forall_frames ef (fun t => v n t != 0)).
by apply: eq_forallb => s; rewrite mxE.
Qed.
Lemma unit_frames : unit_variance N T' = frames f (unit_variance N T).
Proof. by apply/matrixP=> n s; rewrite !mxE. Qed.
Theorem C79_gauss_filter_run a X k W :
  gauss_run_f fl eig chol a (fspec X) k W =
  omap (fun p => (p.1.1, frames f p.1.2, p.2)) (gauss_run_f fl eig chol a X k W).
Proof.
rewrite /gauss_run_f unit_frames.
rewrite (@recorded_map _ _ (fun s : filt * 'M[R]_(N, T) => (s.1, frames f s.2)) (gauss_once_f fl eig chol a X) _
  (fun s => compute_loss (@gauss F N T s.2) X s.1) _ _ _ k (W, unit_variance N T)) //.
- move=> [V v] /=; rewrite /gauss_once_f /= separate_frames variance_frames nonzero_frames.
  case: [forall n, _]; last by [].
  by rewrite d_gauss_frames once_f_frames; case: update_once_f.
- by move=> [V v] /=; rewrite gauss_frames loss_frames.
Qed.
Theorem C79_gauss_output_run a X k Y :
  gauss_run_o fl eig chol a (fspec X) k (fspec Y) =
  omap (fun p => (fspec p.1.1, frames f p.1.2, p.2)) (gauss_run_o fl eig chol a X k Y).
Proof.
rewrite /gauss_run_o unit_frames.
rewrite (@recorded_map _ _ (fun s : spec T * 'M[R]_(N, T) => (fspec s.1, frames f s.2)) (gauss_once_o fl eig chol a) _
  (fun s => compute_loss_output (@gauss F N T s.2) X s.1) _ _ _ k (Y, unit_variance N T)) //.
- move=> [V v] /=; rewrite /gauss_once_o /= variance_frames nonzero_frames.
  case: [forall n, _]; last by [].
  by rewrite d_gauss_frames once_o_frames; case: update_once_o.
- by move=> [V v] /=; rewrite gauss_frames loss_output_frames.
Qed.
(** * Complete calls with projection back *)
Lemma iterate_map S S' (g : S -> S') (st : S -> option S) (st' : S' -> option S') :
  (forall s, st' (g s) = omap g (st s)) -> forall k s, iterate st' k (g s) = omap g (iterate st k s).
Proof. by move=> h; elim=> [|k IH] s //=; rewrite h; case: (st s) => //= s1; rewrite IH. Qed.
Lemma restore_f_frames X r W : restore_f (fspec X) r W = omap fspec (restore_f X r W).
Proof.
apply: (@all_bins_map _ _ X (fspec X) _ _ (fun i => frames f)) => i.
by rewrite /apply_pb; case: pb_filter => //= V; rewrite /separate frames_mul.
Qed.
Lemma scale_rows_frames (d : 'rV[Cx]_N) (Y : 'M[Cx]_(N, T)) : scale_rows d (frames f Y) = frames f (scale_rows d Y).
Proof. by rewrite !scale_rowsE frames_mul. Qed.
Lemma pb_data_frames (Y X : 'M[Cx]_(N, T)) r : pb_data (frames f Y) (frames f X) r = omap (frames f) (pb_data Y X r).
Proof.
have [k k0 ek] := ef; rewrite /pb_data !(gram_frames _ _ ek).
have kc : (k%:R : Cx) != 0 by rewrite pnatr_eq0 -lt0n.
rewrite /np_inv unitmxZ ?unitfE //; case: ifP => //= u; congr Some.
rewrite invmxZ ?unitmxZ ?unitfE // -scalemxAl -scalemxAr scalerA mulfV // scale1r.
by rewrite scale_rows_frames.
Qed.
Lemma restore_o_frames X r Y : restore_o (fspec X) r (fspec Y) = omap fspec (restore_o X r Y).
Proof. by apply: (@all_bins_map _ _ X (fspec X) _ _ (fun i => frames f)) => i; exact: pb_data_frames. Qed.
Lemma call_f_frames (once : spec T -> filt -> option filt) (once' : spec T' -> filt -> option filt) k r W X :
  (forall V, once' (fspec X) V = once X V) -> call_f once' k r W (fspec X) = omap fspec (call_f once k r W X).
Proof.
move=> h; rewrite /call_f.
have -> : once' (fspec X) = once X by apply: functional_extensionality.
by case: iterate => // V; exact: restore_f_frames.
Qed.
Lemma call_o_frames (once : spec T -> option (spec T)) (once' : spec T' -> option (spec T')) k r X :
  (forall Y, once' (fspec Y) = omap fspec (once Y)) -> call_o once' k r (fspec X) = omap fspec (call_o once k r X).
Proof.
move=> h; rewrite /call_o separate_frames (iterate_map h).
by case: iterate => // Y; exact: restore_o_frames.
Qed.
(** AuxFDICA *)
Lemma fweight_frames (dG : R -> R) (Y : 'M[Cx]_(N, T)) : fweight fl dG (frames f Y) = frames f (fweight fl dG Y).
Proof. by apply/matrixP=> n s; rewrite !mxE. Qed.
Lemma fdiv_frames (Y : 'M[Cx]_(N, T)) n : fdiv_ok fl (frames f Y) n = fdiv_ok fl Y n.
Proof.
rewrite /fdiv_ok -(forall_frames ef (fun t => fl (2 * cabs (Y n t))%coqR != 0)).
by apply: eq_forallb => s; rewrite mxE.
Qed.
Lemma fdica_ip1_frames (dG : R -> R) X W : fdica_ip1 fl dG (fspec X) W = fdica_ip1 fl dG X W.
Proof.
apply: eq_all_bins => i; rewrite /separate frames_mul fweight_frames (T0E ef) wcov_framesE.
by under eq_forallb => n do rewrite fdiv_frames.
Qed.
Lemma fdica_ip2_step_frames (dG : R -> R) X W p :
  fdica_ip2_step fl eig chol dG (fspec X) W p = fdica_ip2_step fl eig chol dG X W p.
Proof.
apply: eq_all_bins => i.
by rewrite /separate frames_mul fweight_frames (T0E ef) wcov_framesE !fdiv_frames.
Qed.
Lemma foldl_ext A B (g h : A -> B -> A) z s : (forall x y, g x y = h x y) -> foldl g z s = foldl h z s.
Proof. by move=> E; elim: s z => [|x s IH] z //=; rewrite E IH. Qed.
Lemma fdica_ip2_frames (dG : R -> R) X ps W : fdica_ip2 fl eig chol dG (fspec X) ps W = fdica_ip2 fl eig chol dG X ps W.
Proof. by apply: foldl_ext => -[V|] p; [exact: fdica_ip2_step_frames|]. Qed.
Lemma fdica_loss_frames (G : R -> R) X W : fdica_loss G (fspec X) W = fdica_loss G X W.
Proof.
rewrite /fdica_loss (T0E ef); case: (_ && _); last by [].
congr Some; apply: eq_bigr => i _; congr (_ - _); apply: eq_bigr => n _.
rewrite -(meanR_frames ef); congr meanR.
by apply: functional_extensionality => s; rewrite /separate frames_mul mxE.
Qed.
Lemma recorded_eq S (st st' : S -> option S) (l l' : S -> option R) : (forall s, st' s = st s) -> (forall s, l' s = l s) ->
  forall k s, recorded st' l' k s = recorded st l k s.
Proof. by move=> hs hl; elim=> [|k IH] s /=; rewrite hl; case: (l s) => // x; rewrite hs; case: (st s) => // s1; rewrite IH. Qed.
Lemma fdica_once_frames a (dG : R -> R) X W : fdica_once fl eig chol a dG (fspec X) W = fdica_once fl eig chol a dG X W.
Proof. by case: a => [|ps]; [exact: fdica_ip1_frames|exact: fdica_ip2_frames]. Qed.
Theorem C79_fdica_run a (G dG : R -> R) X k W : fdica_run fl eig chol a G dG (fspec X) k W = fdica_run fl eig chol a G dG X k W.
Proof.
exact: (@recorded_eq _ (fdica_once fl eig chol a dG X) _ (fdica_loss G X) _ (fdica_once_frames a dG X) (fdica_loss_frames G X)).
Qed.
(** the calls return those frames of what they return for the original recording *)
Theorem C79_call_laplace_ip1 k r W X : call_f (laplace_ip1 fl) k r W (fspec X) = omap fspec (call_f (laplace_ip1 fl) k r W X).
Proof. by apply: call_f_frames => V; exact: ip1_frames. Qed.
Theorem C79_call_gauss_ip1 k r W X : call_f (gauss_ip1 fl) k r W (fspec X) = omap fspec (call_f (gauss_ip1 fl) k r W X).
Proof.
apply: call_f_frames => V; rewrite /gauss_ip1 /gauss_update_ip1 separate_frames variance_frames nonzero_frames.
by case: [forall n, _] => //; rewrite d_gauss_frames ip1_frames; case: update_once_ip1.
Qed.
Theorem C79_call_fdica k r W X : call_f (laplace_fdica_ip1 fl) k r W (fspec X) = omap fspec (call_f (laplace_fdica_ip1 fl) k r W X).
Proof. by apply: call_f_frames => V; exact: fdica_ip1_frames. Qed.
Theorem C79_call_laplace_iss1 k r X : call_o (laplace_iss1 fl) k r (fspec X) = omap fspec (call_o (laplace_iss1 fl) k r X).
Proof. by apply: call_o_frames => Y; exact: iss1_once_frames. Qed.
Theorem C79_call_gauss_iss1 k r X : call_o (gauss_iss1 fl) k r (fspec X) = omap fspec (call_o (gauss_iss1 fl) k r X).
Proof.
apply: call_o_frames => Y; rewrite /gauss_iss1 /gauss_update_iss1 variance_frames nonzero_frames.
by case: [forall n, _] => //; rewrite d_gauss_frames iss1_once_frames; case: update_once_iss1.
Qed.
End AuxIVA.
