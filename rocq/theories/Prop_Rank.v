(** C81: observations without full rank in some bin (silent bin, silent or duplicated channel,
    fewer frames than channels) are rejected by AuxIVA, AuxFDICA and ILRMA. *)
From Coq Require Import Reals Lra FunctionalExtensionality.
From mathcomp Require Import all_ssreflect all_algebra.
From mathcomp Require Import ring.
From Verif Require Import RStruct MxC CxR NpLin RealLemmas NmfReal Eigh SpatialIP SpatialIP2 SpatialISS SpatialISS2 Scale AuxIVA AuxIVARun.
From Verif Require Import AuxFDICA AuxIVACall ScaleProofs Ilrma IlrmaRun Special Prop_ISS1 Prop_AuxIVARun Prop_AuxGain.
Import Order.TTheory GRing.Theory Num.Theory.
Set Implicit Arguments.
Unset Strict Implicit.
Unset Printing Implicit Defensive.
Local Open Scope ring_scope.

(** some bin has linearly dependent channels *)
Definition deficient F N T (X : 'I_F -> 'M[Cx]_(N, T)) : Prop := exists i, ~~ row_free (X i).

Section Matrices.
Variables (N T : nat).
Lemma dependent (X : 'M[Cx]_(N, T)) : ~~ row_free X -> exists2 v : 'rV[Cx]_N, v != 0 & v *m X = 0.
Proof. by rewrite -kermx_eq0 => /rowV0Pn[v /sub_kermxP e v0]; exists v. Qed.
Lemma singular (A : 'M[Cx]_N) (v : 'rV[Cx]_N) : v != 0 -> v *m A = 0 -> A \notin unitmx.
Proof. by move=> v0 e; apply/negP => u; case/negP: v0; rewrite -(mulmxK u v) e mul0mx. Qed.
Lemma wcov_singular (phi : 'M[R]_(N, T)) (X : 'M[Cx]_(N, T)) n : ~~ row_free X -> wcov phi X n \notin unitmx.
Proof.
case/dependent => v v0 e; apply: (singular v0); apply/matrixP=> i b; rewrite !mxE /meanC.
rewrite (eq_bigr (fun a => \sum_t v i a * (c (T%:R)^-1 * (c (phi n t) * (X a t * (X b t)^*))))); last first.
  by move=> a _; rewrite mxE /meanC !mulr_sumr.
rewrite exchange_big big1 //= => t _.
have := congr1 (fun A : 'M_(_, _) => A i t) e; rewrite !mxE => h.
transitivity (\sum_a v i a * X a t * (c (T%:R)^-1 * (c (phi n t) * (X b t)^*))); last by rewrite -mulr_suml h mul0r.
by apply: eq_bigr => a _; ring.
Qed.
Lemma gram_singular (X : 'M[Cx]_(N, T)) : ~~ row_free X -> X *m X^H \notin unitmx.
Proof. by case/dependent => v v0 e; apply: (singular v0); rewrite mulmxA e mul0mx. Qed.
Lemma not_free_sub (X Y : 'M[Cx]_(N, T)) : (Y <= X)%MS -> ~~ row_free X -> ~~ row_free Y.
Proof.
move=> s; apply: contraNN => /eqP f; rewrite /row_free eqn_leq rank_leq_row /= -[X in (X <= _)%N]f.
exact: mxrankS.
Qed.
Lemma few_frames (X : 'M[Cx]_(N, T)) : (T < N)%N -> ~~ row_free X.
Proof. by move=> h; rewrite /row_free neq_ltn (leq_ltn_trans (rank_leq_col X) h). Qed.
Lemma silent_channel (X : 'M[Cx]_(N, T)) a : (forall t, X a t = 0) -> ~~ row_free X.
Proof.
move=> z; apply/negP => f; have /eqP : (delta_mx 0 a : 'rV[Cx]_N) *m X = 0.
  by rewrite -rowE; apply/matrixP=> i t; rewrite !mxE.
by rewrite mulmx_free_eq0 // => /eqP/matrixP/(_ 0 a); rewrite !mxE !eqxx => /eqP; rewrite oner_eq0.
Qed.
Lemma duplicated_channel (X : 'M[Cx]_(N, T)) a b : a != b -> (forall t, X a t = X b t) -> ~~ row_free X.
Proof.
move=> ab z; apply/negP => f; have /eqP : ((delta_mx 0 a : 'rV[Cx]_N) - (delta_mx 0 b : 'rV[Cx]_N)) *m X = 0.
  by rewrite mulmxBl -!rowE; apply/matrixP=> i t; rewrite !mxE z subrr.
rewrite mulmx_free_eq0 // => /eqP/matrixP/(_ 0 a); rewrite !mxE !eqxx (negbTE ab) subr0 => /eqP.
by rewrite oner_eq0.
Qed.
End Matrices.

Section Algorithms.
Variables (F N T : nat) (fl : R -> R) (eig : eigh_t) (chol : chol_t).
Notation spec := ('I_F -> 'M[Cx]_(N, T)).
Notation filt := ('I_F -> 'M[Cx]_N).
Notation fn := ('I_N -> 'I_T -> R -> R).
Implicit Types (X Y : spec) (W : filt) (G dG : fn).
Lemma all_bins_fail A (d : 'I_F -> A) (g : 'I_F -> option A) i : g i = None -> all_bins d g = None.
Proof. by move=> e; rewrite /all_bins; case: ifP => // /forallP/(_ i); rewrite e. Qed.
Lemma foldl_fail S Q (st : S -> Q -> option S) s : foldl (fun o q => if o is Some x then st x q else None) None s = None.
Proof. by elim: s. Qed.
Lemma solve_fail p (A : 'M[Cx]_N) (U : 'M[Cx]_N) (B : 'M[Cx]_(N, p)) : U \notin unitmx -> solve (A *m U) B = None.
Proof. by move=> u; rewrite /solve unitmx_mul (negbTE u) andbF. Qed.
(** ** IP1 and IP2 in one bin *)
Lemma ip1_fail (U : 'I_N -> 'M[Cx]_N) (W : 'M[Cx]_N) : (0 < N)%N -> (forall n, U n \notin unitmx) -> ip1 fl U W = None.
Proof.
move=> N0 h; rewrite /ip1 /ip1_loop; case e: (enum 'I_N) => [|n s].
  by have := size_enum_ord N; rewrite e => /esym E; rewrite E in N0.
by rewrite /= /ip1_step solve_fail ?h // foldl_fail.
Qed.
Lemma ip2_step_fail (U : 'I_N -> 'M[Cx]_N) (W : 'M[Cx]_N) p : (forall n, U n \notin unitmx) -> ip2_step eig chol fl U W p = None.
Proof. by case: p => m n h; rewrite /ip2_step /ip2_one_pair solve_fail. Qed.
Lemma ip2_fail (U : 'I_N -> 'M[Cx]_N) (W : 'M[Cx]_N) p ps : (forall n, U n \notin unitmx) -> ip2 eig chol fl U (p :: ps) W = None.
Proof. by move=> h; rewrite /ip2 /= ip2_step_fail // foldl_fail. Qed.
(** an algorithm with at least one update per iteration *)
Definition nonempty_f (a : falg N) := if a is FIP2 ps then ps != [::] else (0 < N)%N.

(** ** AuxIVA with filters *)
Lemma ip1_update_fail dG X W : (0 < N)%N -> deficient X -> update_once_ip1 fl dG X W = None.
Proof.
move=> N0 [i hi]; have h phi n := wcov_singular phi n hi.
by rewrite /update_once_ip1; case: (_ && _) => //; apply: (@all_bins_fail _ _ _ i); rewrite ip1_fail.
Qed.
Theorem C81_filter_update a dG X W : nonempty_f a -> deficient X -> update_once_f fl eig chol a dG X W = None.
Proof.
move=> ne [i hi]; have h phi n := wcov_singular phi n hi.
case: a ne => [|[|p ps]] //= ne; first by apply: ip1_update_fail => //; exists i.
rewrite /update_once_ip2 /=.
have -> : iva_ip2_step fl eig chol dG X W p = None.
  by rewrite /iva_ip2_step; case: (_ && _) => //; apply: (@all_bins_fail _ _ _ i); rewrite ip2_step_fail.
exact: foldl_fail.
Qed.
Lemma iterate_fail S (st : S -> option S) k s : (forall s, st s = None) -> iterate st k.+1 s = None.
Proof. by move=> h; rewrite /= h. Qed.
Lemma recorded_fail S (st : S -> option S) l k s : (forall s, st s = None) -> recorded st l k.+1 s = None.
Proof. by move=> h; rewrite /=; case: (l s) => // x; rewrite h. Qed.
Lemma recorded_loss_fail S (st : S -> option S) l k s : (forall s, l s = None) -> recorded st l k s = None.
Proof. by move=> h; case: k => [|k] /=; rewrite h. Qed.
Theorem C81_filter_run a G dG X k W : nonempty_f a -> deficient X -> aux_run_f fl eig chol a G dG X k.+1 W = None.
Proof. by move=> ne d; apply: recorded_fail => s; exact: C81_filter_update. Qed.
Theorem C81_gauss_filter_run a X k W : nonempty_f a -> deficient X -> gauss_run_f fl eig chol a X k.+1 W = None.
Proof.
move=> ne d; apply: recorded_fail => -[V v]; rewrite /gauss_once_f /=; case: [forall n, _] => //.
by rewrite C81_filter_update.
Qed.
Theorem C81_call_laplace X k r W : deficient X -> call_f (laplace_ip1 fl) k.+1 r W X = None.
Proof.
move=> d; rewrite /call_f iterate_fail // => V.
by apply: ip1_update_fail => //; apply: leq_ltn_trans (ltn_ord r).
Qed.
Theorem C81_call_gauss X k r W : deficient X -> call_f (gauss_ip1 fl) k.+1 r W X = None.
Proof.
move=> d; rewrite /call_f iterate_fail // => V; rewrite /gauss_ip1 /gauss_update_ip1; case: [forall n, _] => //.
by rewrite ip1_update_fail //; apply: leq_ltn_trans (ltn_ord r).
Qed.
(** ** AuxFDICA *)
Theorem C81_fdica_run a (G dG : R -> R) X k W : nonempty_f a -> deficient X -> fdica_run fl eig chol a G dG X k.+1 W = None.
Proof.
move=> ne [i hi]; have h phi n := wcov_singular phi n hi.
apply: recorded_fail => V; case: a ne => [|[|p ps]] //= ne.
  by apply: (@all_bins_fail _ _ _ i); cbv beta zeta; rewrite ip1_fail ?if_same.
rewrite /fdica_ip2 /=.
have -> : fdica_ip2_step fl eig chol dG X V p = None.
  by apply: (@all_bins_fail _ _ _ i); cbv beta zeta; rewrite ip2_step_fail ?if_same.
exact: foldl_fail.
Qed.
(** ** AuxIVA without filters: the loss and the restoration of the scale fail *)
Lemma refit_fail X Y : deficient X -> all_bins (fun=> 0) (fun i => refit (Y i) (X i)) = None.
Proof. by move=> [i hi]; apply: (@all_bins_fail _ _ _ i); rewrite /refit /np_inv (negbTE (gram_singular hi)). Qed.
Theorem C81_output_run a G dG X k Y : deficient X -> aux_run_o fl eig chol a G dG X k Y = None.
Proof. by move=> d; apply: recorded_loss_fail => s; rewrite /compute_loss_output refit_fail. Qed.
Theorem C81_gauss_output_run a X k Y : deficient X -> gauss_run_o fl eig chol a X k Y = None.
Proof. by move=> d; apply: recorded_loss_fail => s; rewrite /compute_loss_output refit_fail. Qed.
Lemma restore_fail X r Y : deficient Y -> restore_o X r Y = None.
Proof. by move=> [i hi]; apply: (@all_bins_fail _ _ _ i); rewrite /pb_data /np_inv (negbTE (gram_singular hi)). Qed.
(** the rows of the outputs remain combinations of the rows of the input *)
Definition spanned Y Y' := forall i, (Y' i <= Y i)%MS.
Lemma iss1_span (phi : 'M[R]_(N, T)) (Y Y' : 'M[Cx]_(N, T)) : iss1 fl phi Y = Some Y' -> (Y' <= Y)%MS.
Proof.
rewrite /iss1 /iss1_loop; elim: (enum 'I_N) Y => [|n s IH] Y /=; first by move=> [<-].
rewrite {2}/iss1_step; case: ifP => [_|_]; last by rewrite foldl_fail.
move=> /IH h; apply: (submx_trans h); apply/row_subP => k.
have -> : row k (\matrix_(k, t) (Y k t - iss_v fl phi Y n k * Y n t)) = row k Y - iss_v fl phi Y n k *: row n Y.
  by apply/matrixP=> a b; rewrite !mxE.
by rewrite addmx_sub ?row_sub // eqmx_opp scalemx_sub // row_sub.
Qed.
Notation crow := 'rV[Cx]_T.
Definition inspan (A : 'M[Cx]_(N, T)) (s : seq crow) := forall y, y \in s -> (y <= A)%MS.
Lemma inspan_cat A s s' : inspan A (s ++ s') <-> inspan A s /\ inspan A s'.
Proof.
split=> [h|[h h'] y]; last by rewrite mem_cat => /orP[/h|/h'].
by split=> y hy; apply: h; rewrite mem_cat hy ?orbT.
Qed.
Lemma inspan_take A s n : inspan A s -> inspan A (take n s).
Proof. by move=> h y /mem_take; exact: h. Qed.
Lemma inspan_drop A s n : inspan A s -> inspan A (drop n s).
Proof. by move=> h y /mem_drop; exact: h. Qed.
Lemma inspan_cons A y s : inspan A (y :: s) <-> (y <= A)%MS /\ inspan A s.
Proof.
split=> [h|[h h'] z]; last by rewrite inE => /orP[/eqP->|/h'].
by split=> [|z hz]; apply: h; rewrite inE ?eqxx ?hz ?orbT.
Qed.
Lemma inspan_nth A s n : inspan A s -> (nth 0 s n <= A)%MS.
Proof.
move=> h; case: (ltnP n (size s)) => hn; first by apply: h; exact: mem_nth.
by rewrite nth_default // sub0mx.
Qed.
Lemma pair_span A Ys : inspan A Ys -> (pair_mx Ys <= A)%MS.
Proof.
move=> h; apply/row_subP => i.
have -> : row i (pair_mx Ys) = nth 0 Ys i by apply/matrixP=> a b; rewrite !mxE ord1.
exact: inspan_nth.
Qed.
Lemma subs_span (A : 'M[Cx]_(N, T)) (M : 'M[Cx]_(2, T)) Ys ps s : (M <= A)%MS -> inspan A Ys -> iss2_subs M (zip Ys ps) = Some s -> inspan A s.
Proof.
move=> hM; elim: Ys ps s => [|y Ys IH] [|q ps] s /=; try by move=> _; case=> <-.
case/inspan_cons => hy hYs.
case e: (iss2_sub M (y, q)) => [z|] //; case e': (iss2_subs M (zip Ys ps)) => [t|] // [<-].
apply/inspan_cons; split; last by apply: (IH ps).
move: e; rewrite /iss2_sub; case: inv2 => // Gi [<-] /=.
by rewrite addmx_sub // mulmx_sub.
Qed.
Lemma main_span (A : 'M[Cx]_(N, T)) (M : 'M[Cx]_(2, T)) ps r : (M <= A)%MS -> iss2_main eig chol fl M ps = Some r -> (r.1 <= A)%MS /\ (r.2 <= A)%MS.
Proof.
move=> hM; rewrite /iss2_main; case: eigh2 => // -[w H]; case: scale_h => // pm; case: scale_h => // pn [<-] /=.
by rewrite !mulmx_sub.
Qed.
Lemma iss2_step_span A phi Ys p s : inspan A Ys -> iss2_step eig chol fl phi Ys p = Some s -> inspan A s.
Proof.
move=> h; rewrite /iss2_step /split5; case: (T == 0%N) => //.
have ht m := inspan_take (n := m) h; have hd m := inspan_drop (n := m) h.
have hdt m n := inspan_drop (n := m) (ht n).
have hM m n : (pair_mx (drop m (take m.+1 Ys) ++ drop n (take n.+1 Ys)) <= A)%MS.
  by apply: pair_span; apply/inspan_cat; split.
have hS m n : inspan A (take m Ys ++ drop m.+1 (take n Ys) ++ drop n.+1 Ys).
  by apply/inspan_cat; split=> //; apply/inspan_cat; split.
case: (p.2 < p.1)%N => /=.
  case es: iss2_subs => [t|] //; case em: iss2_main => [[y y']|] // [<-].
  have ht' := subs_span (hM _ _) (hS _ _) es; have [/= hy hy'] := main_span (hM _ _) em.
  apply/inspan_cat; split; first exact: inspan_take.
  apply/inspan_cons; split=> //; apply/inspan_cat; split; first by apply: inspan_drop; exact: inspan_take.
  by apply/inspan_cons; split=> //; exact: inspan_drop.
case es: iss2_subs => [t|] //; case em: iss2_main => [[y y']|] // [<-].
have ht' := subs_span (hM _ _) (hS _ _) es; have [/= hy hy'] := main_span (hM _ _) em.
apply/inspan_cat; split; first exact: inspan_take.
apply/inspan_cons; split=> //; apply/inspan_cat; split; first by apply: inspan_drop; exact: inspan_take.
by apply/inspan_cons; split=> //; exact: inspan_drop.
Qed.
Lemma iss2_span A phi ps Ys s : inspan A Ys -> iss2 eig chol fl phi ps Ys = Some s -> inspan A s.
Proof.
rewrite /iss2; elim: ps Ys => [|p ps IH] Ys h /=; first by move=> [<-].
case e: iss2_step => [Z|]; last by rewrite foldl_fail.
by apply: IH; exact: (iss2_step_span h e).
Qed.
Lemma to_rows_span (A : 'M[Cx]_(N, T)) : inspan A (to_rows A).
Proof. by move=> y /mapP[i _ ->]; exact: row_sub. Qed.
Lemma of_rows_span (A : 'M[Cx]_(N, T)) s : inspan A s -> (of_rows N s <= A)%MS.
Proof.
move=> h; apply/row_subP => i.
have -> : row i (of_rows N s) = nth 0 s i by apply/matrixP=> a b; rewrite !mxE ord1.
exact: inspan_nth.
Qed.
Lemma all_bins_span (d : spec) (g : 'I_F -> option 'M[Cx]_(N, T)) Y Y' :
  (forall i Z, g i = Some Z -> (Z <= Y i)%MS) -> all_bins d g = Some Y' -> spanned Y Y'.
Proof.
move=> h; rewrite /all_bins; case: ifP => // /forallP hs [<-] i.
by have := hs i; case e: (g i) => [Z|] //= _; exact: h e.
Qed.
Lemma bin_iss2_span (phi : 'M[R]_(N, T)) ps (Y Z : 'M[Cx]_(N, T)) :
  omap (@of_rows N T) (iss2 eig chol fl (to_rows phi) ps (to_rows Y)) = Some Z -> (Z <= Y)%MS.
Proof.
case e: iss2 => [s|] //= [<-]; apply: of_rows_span; exact: (iss2_span (@to_rows_span Y) e).
Qed.
Lemma once_o_span a dG Y Y' : update_once_o fl eig chol a dG Y = Some Y' -> spanned Y Y'.
Proof.
case: a => [|ps] /=; rewrite /update_once_iss1 /update_once_iss2; case: [forall n, _] => //; apply: all_bins_span => i Z.
  exact: iss1_span.
exact: bin_iss2_span.
Qed.
Lemma iterate_span S (out : S -> spec) (st : S -> option S) k s s' :
  (forall s s', st s = Some s' -> spanned (out s) (out s')) -> iterate st k s = Some s' -> spanned (out s) (out s').
Proof.
move=> h; elim: k s => [|k IH] s /=; first by move=> [<-] i; exact: submx_refl.
case e: (st s) => [s1|] // /IH hs i; exact: submx_trans (hs i) (h _ _ e i).
Qed.
Lemma deficient_span Y Y' : spanned Y Y' -> deficient Y -> deficient Y'.
Proof. by move=> s [i hi]; exists i; exact: not_free_sub (s i) hi. Qed.
Lemma separate_eyes_id X : separate_all X (@eyes F N) = X.
Proof. by apply: functional_extensionality => i; rewrite /separate_all /separate /eyes mul1mx. Qed.
(** a complete call with projection back, any number of iterations, even none; any contrast function *)
Theorem C81_call_output a dG X k r : deficient X -> call_o (update_once_o fl eig chol a dG) k r X = None.
Proof.
move=> d; rewrite /call_o separate_eyes_id; case e: iterate => [Y|] //.
by apply: restore_fail; apply: (deficient_span _ d); exact: (iterate_span (out := id) (@once_o_span a dG) e).
Qed.
Theorem C81_call_gauss_output X k r : deficient X -> call_o (gauss_iss1 fl) k r X = None.
Proof.
move=> d; rewrite /call_o separate_eyes_id; case e: iterate => [Y|] //.
apply: restore_fail; apply: (deficient_span _ d); apply: (iterate_span (out := id) _ e) => Z Z'.
rewrite /gauss_iss1 /gauss_update_iss1; case: [forall n, _] => //; case e': update_once_iss1 => [V|] //= [<-].
exact: (@once_o_span (OISS1 N) _ _ _ e').
Qed.

(** ** ILRMA *)
Variables (K : nat) (m : model) (alg : source_alg).
Notation cells := ('I_N -> 'I_F -> 'I_T -> R).
Implicit Types (q : cells).
Lemma spatial_f_fail a X W q : nonempty_f a -> deficient X -> spatial_f m fl eig chol a X W q = None.
Proof.
move=> ne [i hi]; have h phi n := wcov_singular phi n hi.
case: a ne => [|[|p ps]] //= ne; rewrite /spatial_ip1 /spatial_ip2; case: (_ && _) => //; apply: (@all_bins_fail _ _ _ i).
  by rewrite ip1_fail.
by rewrite ip2_fail.
Qed.
Theorem C81_ilrma_filter a o X k s : nonempty_f a -> deficient X ->
  @ilrma_run_f N F T K m alg fl eig chol a o X k.+1 s = None /\
  forall r, @ilrma_call_f N F T K m alg fl eig chol a o r X k.+1 s = None.
Proof.
move=> ne d; have h s' : IlrmaRun.once_f m alg fl eig chol a o X s' = None.
  by case: s' => W B V; rewrite /IlrmaRun.once_f; case: source_step => [[B1 V1]|] //; rewrite spatial_f_fail.
by split=> [|r]; [exact: recorded_fail|rewrite /ilrma_call_f iterate_fail].
Qed.
Theorem C81_partitioned_filter a o X k s : nonempty_f a -> deficient X ->
  @pilrma_run_f N F T K m alg fl eig chol a o X k.+1 s = None.
Proof.
move=> ne d; apply: recorded_fail => -[W p]; rewrite /ponce_f; case: psource_step => // p1.
by rewrite spatial_f_fail.
Qed.
Lemma spatial_o_span a Y Y' q : spatial_o m fl eig chol a Y q = Some Y' -> spanned Y Y'.
Proof.
case: a => [|ps] /=; rewrite /spatial_iss1 /spatial_iss2; case: (varphi_ok _ _ _ _) => //; apply: all_bins_span => i Z.
  exact: iss1_span.
exact: bin_iss2_span.
Qed.
Lemma norm_o_span o X Y B Y' B' : @norm_o N F T K m fl o X Y B = Some (Y', B') -> spanned Y Y'.
Proof.
case: o => [||r] /=; first by move=> [<- _] i; exact: submx_refl.
  rewrite /norm_power_output; case: (psi_ok _ _) => // -[<- _] i.
  have -> : div_rows (psi fl Y) (Y i) = diag_mx (\row_n (c (psi fl Y n))^-1) *m Y i.
    by apply/matrixP=> a b; rewrite mul_diag_mx !mxE mulrC.
  exact: submxMl.
rewrite /norm_pb_output; case: all_bins => // s [<- _] i; rewrite scale_rowsE; exact: submxMl.
Qed.
Theorem C81_ilrma_output a o X k s : deficient X ->
  @ilrma_run_o N F T K m alg fl eig chol a o X k s = None /\
  forall r, @ilrma_call_o N F T K m alg fl eig chol a o r X k (st_yB s) (st_yV s) = None.
Proof.
move=> d; split=> [|r].
  by apply: recorded_loss_fail => s'; rewrite /Ilrma.loss_output refit_fail.
rewrite /ilrma_call_o separate_eyes_id; case e: iterate => [s'|] //.
apply: restore_fail; apply: (deficient_span _ d); have := iterate_span (out := @st_Y N F T K) _ e; apply=> -[Y B V] s1.
rewrite /IlrmaRun.once_o; case: source_step => [[B1 V1]|] //; case es: spatial_o => [Y1|] //.
case en: norm_o => [[Y2 B2]|] //= [<-] i /=.
exact: submx_trans (norm_o_span en i) (spatial_o_span es i).
Qed.
Theorem C81_partitioned_output a o X k s : deficient X -> @pilrma_run_o N F T K m alg fl eig chol a o X k s = None.
Proof. by move=> d; apply: recorded_loss_fail => s'; rewrite /Ilrma.loss_output refit_fail. Qed.
End Algorithms.

(** * For AuxLaplaceIVA with flooring this is the only reason to fail *)
Section Iff.
Variables (F N T : nat) (eig : eigh_t) (chol : chol_t) (eps : R).
Hypotheses (he : (0 < eps <= 1)%coqR) (T0 : (0 < T)%N).
Notation spec := ('I_F -> 'M[Cx]_(N, T)).
Lemma not_deficient (X : spec) : ~ deficient X -> forall i, row_free (X i).
Proof. by move=> d i; case: (boolP (row_free (X i))) => // h; case: d; exists i. Qed.
Theorem C81_laplace_ip1_iff (X : spec) k (W : 'I_F -> 'M[Cx]_N) : (0 < N)%N -> (forall i, W i \in unitmx) ->
  (aux_run_f (max_flooring eps) eig chol (FIP1 N) (@laplace N T) (@d_laplace N T) X k.+1 W = None <-> deficient X).
Proof.
move=> N0 uW; split; last exact: C81_filter_run.
move=> e; apply: Classical_Prop.NNPP => /not_deficient fX.
by have [W' [ls [E _ _ _]]] := C75_laplace_ip1 eig chol he k.+1 T0 fX uW; rewrite E in e.
Qed.
Theorem C81_laplace_iss1_iff (X : spec) k : 
  (aux_run_o (max_flooring eps) eig chol (OISS1 N) (@laplace N T) (@d_laplace N T) X k X = None <-> deficient X).
Proof.
split; last exact: C81_output_run.
move=> e; apply: Classical_Prop.NNPP => /not_deficient fX.
have sX : separated X X by exists (fun _ => 1%:M) => i; rewrite ?unitmx1 ?mul1mx.
by have [Y' [ls [E _ _ _]]] := C75_laplace_iss1 eig chol he k T0 fX sX; rewrite E in e.
Qed.
End Iff.

(** fewer frames than channels *)
Theorem C81_few_frames F N T fl eig chol a G dG (X : 'I_F -> 'M[Cx]_(N, T)) k W : (T < N)%N -> (0 < F)%N -> nonempty_f a ->
  aux_run_f fl eig chol a G dG X k.+1 W = None.
Proof. by move=> h F0 ne; apply: C81_filter_run => //; exists (Ordinal F0); exact: few_frames. Qed.

(** two identical microphones; without loss and scale restoration ISS1 does return something *)
Example C81_instance : exists (X : 'I_1 -> 'M[Cx]_(2, 2)), deficient X /\ forall k,
  call_f (laplace_ip1 (max_flooring 1)) k.+1 0 (@eyes 1 2) X = None /\
  exists Y, iterate (laplace_iss1 (max_flooring 1)) k X = Some Y.
Proof.
pose X (i : 'I_1) : 'M[Cx]_(2, 2) := const_mx 1; have d : deficient X by exists 0; apply: (@duplicated_channel _ _ _ 0 1) => // t; rewrite !mxE.
exists X; split=> // k; split; first exact: C81_call_laplace.
move: (X); elim: k => [|k IH] Y /=; first by exists Y.
have fl0 x : (0 < max_flooring 1 x)%coqR by rewrite /max_flooring; have := Rmax_r x 1; lra.
have [Z ->] : exists Z, laplace_iss1 (max_flooring 1) Y = Some Z.
  rewrite /laplace_iss1 /update_once_iss1; case: ifP => [_|/negP[]]; last first.
    by apply/forallP => n; apply/forallP => t; apply/eqP; have := fl0 (2 * norms Y n t)%coqR; toR; lra.
  rewrite /all_bins; case: ifP => [_|/negP[]]; first by eexists.
  apply/forallP => i.
  have [|||D ->] // := @C42_invertible_action 2 2 (max_flooring 1) (weight (max_flooring 1) (@d_laplace 2 2) (norms Y)) (Y i).
  move=> n t; rewrite mxE /d_laplace; apply: Rlt_le; apply: Rdiv_lt_0_compat => //; lra.
exact: IH.
Qed.
