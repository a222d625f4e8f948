(** C88: what the masks of CACGMM depend on: gains of single time-frequency points, mixing of the
    channels, order and repetition of frames, order of sources, other bins. *)
From Coq Require Import Reals Lra FunctionalExtensionality.
From mathcomp Require Import all_ssreflect all_algebra all_fingroup.
From Verif Require Import RStruct MxC CxR NpLin RealLemmas Eigh EighProofs NmfReal NmfMM Prop_Linalg ProxProofs TraceMM.
From Verif Require Import Special SpecialProofs Cacgmm CacgmmProofs Prop_Cacgmm Prop_CacgmmEM MnmfGauss Prop_Frames.
Import Order.TTheory GRing.Theory Num.Theory.
Set Implicit Arguments.
Unset Strict Implicit.
Unset Printing Implicit Defensive.
Local Open Scope ring_scope.

(** ** Closed forms *)
Section Closed.
Variables (N M F T : nat) (fl : R -> R) (eig : eigh_t).
Notation spec := ('I_F -> 'M[Cx]_(M, T)).
Notation post := ('I_F -> 'I_N -> 'I_T -> R).
Notation params := (params N M F).
Implicit Types (Z X : spec) (p : params) (g : post).

Lemma softmax_some (f : 'I_N -> R) : isSome (softmax (column f)) = (0 < N)%N.
Proof.
case: (posnP N) => [N0|N0]; last by have [l [-> _]] := softmax_column f (Ordinal N0).
have -> : column f = [::] by apply: size0nil; rewrite size_map size_enum_ord.
by [].
Qed.
Definition gam Z p : post := fun i n t =>
  (exp (log_gamma fl Z p i n t) / (\sum_k exp (log_gamma fl Z p i k t))%R)%coqR.
Definition some_source : bool := [forall i : 'I_F, [forall t : 'I_T, (0 < N)%N]].
Lemma postE Z p : update_posterior fl Z p = if log_gamma_ok fl Z p && some_source then Some (gam Z p) else None.
Proof.
rewrite /update_posterior; have -> : all_bins (fun i => [forall t : 'I_T, isSome (softmax (column (fun n => log_gamma fl Z p i n t)))]) = some_source.
  by apply: eq_forallb => i; apply: eq_forallb => t; exact: softmax_some.
case: (_ && _) => //; congr Some.
apply: functional_extensionality => i; apply: functional_extensionality => n; apply: functional_extensionality => t.
by have [l [-> /= ->]] := softmax_column (fun n => log_gamma fl Z p i n t) n.
Qed.
Definition em Z p : params := {| mixing := fun i n => ((T%:R)^-1 * \sum_t gam Z p i n t)%R;
  covariance := fun i n => to_psd eig fl (scatter fl Z p (gam Z p) i n) |}.
Lemma gam_gt0 Z p i n t : (0 < gam Z p i n t)%coqR.
Proof. by apply: Rdiv_lt_0_compat; [exact: exp_pos|exact: (sumexp_gt0 _ n)]. Qed.
Lemma sum_gam Z p i n : T != 0%N -> (0 < (\sum_t gam Z p i n t)%R)%coqR.
Proof. by rewrite -lt0n => T0; apply: (@sumR_gt0 _ _ (Ordinal T0)) => [t|]; [apply: Rlt_le|]; exact: gam_gt0. Qed.
Lemma onceE b Z p : update_once fl eig b Z p =
  if [&& log_gamma_ok fl Z p, some_source & T != 0%N] then
    if b then omap (fun q => (q, gam Z p)) (normalize_covariance (em Z p)) else Some (em Z p, gam Z p)
  else None.
Proof.
rewrite /update_once postE; case ok: (log_gamma_ok fl Z p); last by [].
case: some_source; last by [].
rewrite /update_parameters; case T0: (T != 0%N); last by [].
have /log_gamma_okP[h1 h2] := ok; cbv beta iota delta [andb].
have -> : [forall i, [forall n, (covariance p i n \in unitmx) && (\sum_t gam Z p i n t != 0)]].
  apply/forallP => i; apply/forallP => n; have [-> _] := h1 i n.
  by apply/eqP => z; have := sum_gam Z p i n T0; rewrite z; exact: Rlt_irrefl.
have -> : all_cells (fun i n t => zbz fl Z (covariance p) i n t != 0).
  apply/forallP => i; apply/forallP => n; apply/forallP => t; apply/eqP => z.
  by have := h2 i n t; rewrite z; exact: Rlt_irrefl.
by [].
Qed.
Definition lossv Z p : R := (\sum_i ((T%:R)^-1 * \sum_t - ln (\sum_n exp (log_gamma fl Z p i n t))))%R.
Lemma compute_lossE Z p : compute_loss fl Z p =
  if [&& T != 0%N, log_gamma_ok fl Z p & N != 0%N] then Some (lossv Z p) else None.
Proof.
rewrite /compute_loss; case N0: (N != 0%N); last by rewrite !andbF.
case: [&& _ , _ & _]; last by [].
congr Some; apply: eq_bigr => i _; congr (_ * _); apply: eq_bigr => t _.
by rewrite logsumexp_column // lt0n.
Qed.
End Closed.

(** ** Gains *)
Section Gain.
Variables (N M F T : nat) (fl : R -> R) (eig : eigh_t).
Notation spec := ('I_F -> 'M[Cx]_(M, T)).
Notation post := ('I_F -> 'I_N -> 'I_T -> R).
Notation params := (params N M F).
(** every time-frequency point of the recording gets a complex gain, the same in all channels *)
Definition gained (a : 'I_F -> 'I_T -> Cx) (X : spec) : spec := fun i => \matrix_(m, t) (a i t * X i m t).
Variable a : 'I_F -> 'I_T -> Cx.

Section Phase.
Variables (Z Z' : spec).
Hypothesis phase : exists u : 'I_F -> 'I_T -> Cx, (forall i t, u i t * (u i t)^* = 1) /\ forall i m t, Z' i m t = u i t * Z i m t.
Lemma outer_phase i m m' t : Z' i m t * (Z' i m' t)^* = Z i m t * (Z i m' t)^*.
Proof.
have [u [u1 e]] := phase; rewrite !e rmorphM mulrACA u1 mul1r //.
Qed.
Lemma form_phase (B : 'M[Cx]_M) i t : form B (col t (Z' i)) (col t (Z' i)) = form B (col t (Z i)) (col t (Z i)).
Proof.
have [u [u1 e]] := phase; have -> : col t (Z' i) = u i t *: col t (Z i) by apply/colP => m; rewrite !mxE e.
by rewrite formZl formZr mulrA [_^* * _]mulrC u1 mul1r.
Qed.
Lemma zbz_phase (B : 'I_F -> 'I_N -> 'M[Cx]_M) i n t : zbz fl Z' B i n t = zbz fl Z B i n t.
Proof. by rewrite /zbz form_phase. Qed.
Lemma lg_phase (p : params) : log_gamma fl Z' p = log_gamma fl Z p.
Proof. by do 3!apply: functional_extensionality => ?; rewrite /log_gamma zbz_phase. Qed.
Lemma ok_phase (p : params) : log_gamma_ok fl Z' p = log_gamma_ok fl Z p.
Proof.
rewrite /log_gamma_ok; apply: (f_equal2 andb); first by [].
by apply: eq_forallb => i; apply: eq_forallb => n; apply: eq_forallb => t; rewrite zbz_phase.
Qed.
Lemma gam_phase (p : params) : gam fl Z' p = gam fl Z p.
Proof. by rewrite /gam lg_phase. Qed.
Lemma em_phase (p : params) : em fl eig Z' p = em fl eig Z p.
Proof.
rewrite /em gam_phase; congr Params; do 2!apply: functional_extensionality => ?; congr to_psd.
apply/matrixP => m m'; rewrite !mxE; congr (_ * (_ / _)); apply: eq_bigr => t _.
by rewrite zbz_phase outer_phase.
Qed.
Lemma once_phase b (p : params) : update_once fl eig b Z' p = update_once fl eig b Z p.
Proof. by rewrite !onceE ok_phase em_phase gam_phase. Qed.
Lemma iterate_phase b k (p : params) : iterate fl eig b k Z' p = iterate fl eig b k Z p.
Proof. by elim: k p => //= k IH p; rewrite once_phase; case: (update_once _ _ _ _ _) => [[]|]. Qed.
End Phase.

(** C88: complex gains of the time-frequency points of the recording, common to the channels, do
    not change the parameters, the posteriors or success of a call and multiply the output,
    when the floored norms of the observations follow the gains (in particular without flooring, or when the floor is
    below all norms). *)
Theorem C88_gain b k solver r X (p0 : params) : (forall i t, a i t != 0) ->
  (forall i t, fl (chan_norm (gained a X) i t) = (cabs (a i t) * fl (chan_norm X i t))%coqR) ->
  call fl eig b k solver r (gained a X) p0 =
  omap (fun o => (o.1, fun i n t => a i t * o.2 i n t)) (call fl eig b k solver r X p0).
Proof.
move=> a0 hf; rewrite /call /unit_input.
have aR i t : cabs (a i t) != 0 by apply/eqP => /eqP; rewrite cabs_eq0; apply/negP.
have -> : all_bins (fun i => [forall t, fl (chan_norm (gained a X) i t) != 0]) = all_bins (fun i => [forall t, fl (chan_norm X i t) != 0]).
  apply: eq_forallb => i; apply: eq_forallb => t; rewrite hf RmulE mulf_eq0 (negbTE (aR i t)) //.
case h: (all_bins _); last by [].
set Z' := fun i => _; set Z := fun i => \matrix_(m, t) (X i m t * _).
have phase : exists u : 'I_F -> 'I_T -> Cx, (forall i t, u i t * (u i t)^* = 1) /\ forall i m t, Z' i m t = u i t * Z i m t.
  exists (fun i t => a i t * c (/ cabs (a i t))%coqR); split=> i.
    move=> t; rewrite rmorphM c_conj mulrACA -cabs_sqr -cM -cM -[RHS]c1; congr c.
    have := aR i t; move: (cabs _) => x /eqP x0; rewrite -RpowE -!RmulE -R1E; Rf; exact: x0.
  move=> m t; rewrite !mxE hf.
  have n0 : fl (chan_norm X i t) <> 0%coqR by move: h => /forallP/(_ i)/forallP/(_ t)/eqP.
  rewrite Rinv_mult cRM; move: (c _) (c _) => x y; rewrite !mulrA; congr (_ * _); rewrite -!mulrA; congr (_ * _); exact: mulrC.
rewrite (iterate_phase phase); case: (iterate _ _ _ _ _ _) => [p|]; last by [].
rewrite !postE (ok_phase phase) (gam_phase phase); case: (_ && _); last by [].
case: (solver _ _) => [s|]; last by [].
rewrite /=; congr (Some (_, _)); do 3!apply: functional_extensionality => ?.
by rewrite /mask mxE mulrCA.
Qed.
(** ... the condition holds without flooring *)
Lemma chan_norm_gained X i t : chan_norm (gained a X) i t = (cabs (a i t) * chan_norm X i t)%coqR.
Proof.
rewrite /chan_norm; set S := \sum_m cabs (X i m t) ^+ 2.
have -> : \sum_m cabs (gained a X i m t) ^+ 2 = (cabs (a i t) * cabs (a i t) * S)%coqR.
  rewrite -[RHS]/(cabs (a i t) * cabs (a i t) * S)%R /S mulr_sumr; apply: eq_bigr => m _.
  by rewrite mxE cabsM exprMn.
have S0 : (0 <= S)%coqR by apply: sumR_ge0 => m _; rewrite -RpowE; exact: pow2_ge_0.
by rewrite sqrt_mult ?sqrt_square //; [exact: cabs_ge0|apply: Rmult_le_pos; exact: cabs_ge0].
Qed.
End Gain.
(** C88: the same for the default kind of floor, when no observation is below it before or after *)
Theorem C88_gain_floor N M F T eig eps (a : 'I_F -> 'I_T -> Cx) b k solver r (X : 'I_F -> 'M[Cx]_(M, T)) (p0 : params N M F) :
  (forall i t, a i t != 0) -> (forall i t, (eps <= chan_norm X i t)%coqR) -> (forall i t, (eps <= cabs (a i t) * chan_norm X i t)%coqR) ->
  call (max_flooring eps) eig b k solver r (gained a X) p0 =
  omap (fun o => (o.1, fun i n t => a i t * o.2 i n t)) (call (max_flooring eps) eig b k solver r X p0).
Proof.
move=> a0 h h'; apply: C88_gain => // i t; rewrite /max_flooring chan_norm_gained !Rmax_left //.
Qed.

(** ** Bins, sources, frames *)
(** no permutation alignment *)
Definition unaligned N M F T (p : params N M F) (g : 'I_F -> 'I_N -> 'I_T -> R) : option ('I_F -> {perm 'I_N}) := Some (fun=> 1%g).

Section Bins.
Variables (N M F F' T : nat) (h : 'I_F' -> 'I_F) (fl : R -> R) (eig : eigh_t).
Notation spec := ('I_F -> 'M[Cx]_(M, T)).
Notation params := (params N M F).
Definition pick (p : params) : Cacgmm.params N M F' := {| mixing := fun i => mixing p (h i); covariance := fun i => covariance p (h i) |}.
Implicit Types (Z X : spec) (p : params).
Lemma ok_bins Z p : log_gamma_ok fl Z p -> log_gamma_ok fl (fun i => Z (h i)) (pick p).
Proof.
move=> /log_gamma_okP[h1 h2]; apply/log_gamma_okP; split=> [i n|i n t]; [exact: h1|exact: h2].
Qed.
Lemma once_bins b Z p p' g : update_once fl eig b Z p = Some (p', g) ->
  update_once fl eig b (fun i => Z (h i)) (pick p) = Some (pick p', fun i => g (h i)).
Proof.
rewrite !onceE; case ok: (log_gamma_ok fl Z p); last by [].
rewrite (ok_bins ok); case S: (some_source N F T); last by [].
have -> : some_source N F' T by apply/forallP => i; move/forallP: S => /(_ (h i)).
rewrite !andTb; case: (T != 0%N); last by [].
case: b => [|[<- <-] //].
rewrite /normalize_covariance; case e: [forall i, _]; last by [].
case=> <- <-; have -> : [forall i, [forall n, re (\tr (covariance (em fl eig (fun i => Z (h i)) (pick p)) i n)) != 0]].
  by apply/forallP => i; move/forallP: e => /(_ (h i)).
by [].
Qed.
Lemma iterate_bins b k Z p p' : iterate fl eig b k Z p = Some p' ->
  iterate fl eig b k (fun i => Z (h i)) (pick p) = Some (pick p').
Proof.
elim: k p => [p [<-] //|k IH p]; cbn [iterate].
by case e: (update_once fl eig b Z p) => [[p1 g1]|] //; rewrite (once_bins e) => /IH.
Qed.
(** C88: every bin is processed on its own: any selection of bins (in any order, with
    repetitions) of the recording and of the initial parameters gives the selection of the results, including parameters and posteriors *)
Theorem C88_bins b k r X p0 p g Y : call fl eig b k (@unaligned N M F T) r X p0 = Some (p, g, Y) ->
  call fl eig b k (@unaligned N M F' T) r (fun i => X (h i)) (pick p0) = Some (pick p, fun i => g (h i), fun i => Y (h i)).
Proof.
rewrite /call /unit_input; case e: (all_bins _); last by [].
have -> : all_bins (fun i => [forall t, fl (chan_norm (fun i => X (h i)) i t) != 0]).
  by apply/forallP => i; move/forallP: e => /(_ (h i)).
set Z := fun i : 'I_F => _; set Z' := fun i : 'I_F' => _; rewrite -[Z']/(fun i => Z (h i)) => {Z'}.
case ei: (iterate _ _ _ _ _ _) => [q|]; last by [].
rewrite (iterate_bins ei) !postE; case ok: (log_gamma_ok fl Z q); last by [].
rewrite (ok_bins ok); case S: (some_source N F T); last by [].
have -> : some_source N F' T by apply/forallP => i; move/forallP: S => /(_ (h i)).
by case=> <- <- <-.
Qed.
End Bins.

Section Sources.
Variables (N M F T : nat) (fl : R -> R) (eig : eigh_t) (s : 'I_F -> {perm 'I_N}).
Notation spec := ('I_F -> 'M[Cx]_(M, T)).
Notation post := ('I_F -> 'I_N -> 'I_T -> R).
Notation params := (params N M F).
Implicit Types (Z X : spec) (p : params) (g : post).
(** the sources of every bin relabelled *)
Definition relabel p : params := {| mixing := fun i n => mixing p i (s i n); covariance := fun i n => covariance p i (s i n) |}.
Definition relabel_post A (g : 'I_F -> 'I_N -> 'I_T -> A) := fun i n t => g i (s i n) t.
Lemma forall_src i (P : pred 'I_N) : [forall n, P (s i n)] = [forall n, P n].
Proof. by apply/forallP/forallP => e n; [rewrite -[n](permKV (s i)); exact: e|exact: e]. Qed.
Lemma ok_src Z p : log_gamma_ok fl Z (relabel p) = log_gamma_ok fl Z p.
Proof.
rewrite /log_gamma_ok; apply: (f_equal2 andb); apply: eq_forallb => i.
  exact: (forall_src i (fun n => (covariance p i n \in unitmx) && Rltb 0 (mixing p i n))).
exact: (forall_src i (fun n => [forall t, Rltb 0 (zbz fl Z (covariance p) i n t)])).
Qed.
Lemma gam_src Z p : gam fl Z (relabel p) = relabel_post (gam fl Z p).
Proof.
apply: functional_extensionality => i; apply: functional_extensionality => n; apply: functional_extensionality => t.
rewrite /gam /relabel_post; apply: (f_equal2 Rdiv); first by [].
by rewrite [RHS](reindex_inj (@perm_inj _ (s i))).
Qed.
Lemma em_src Z p : em fl eig Z (relabel p) = relabel (em fl eig Z p).
Proof. by rewrite /em gam_src. Qed.
Lemma norm_src p : normalize_covariance (relabel p) = omap relabel (normalize_covariance p).
Proof.
rewrite /normalize_covariance.
have -> : [forall i, [forall n, re (\tr (covariance (relabel p) i n)) != 0]] = [forall i, [forall n, re (\tr (covariance p i n)) != 0]].
  by apply: eq_forallb => i; exact: (forall_src i (fun n => re (\tr (covariance p i n)) != 0)).
by case: [forall i, _].
Qed.
Lemma once_src b Z p : update_once fl eig b Z (relabel p) =
  omap (fun o => (relabel o.1, relabel_post o.2)) (update_once fl eig b Z p).
Proof.
rewrite !onceE ok_src em_src gam_src; move: (em fl eig Z p) (gam fl Z p) => q g; rewrite norm_src.
case: [&& _, _ & _]; last by [].
case: b; last by [].
by case: (normalize_covariance _).
Qed.
Lemma iterate_src b k Z p : iterate fl eig b k Z (relabel p) = omap relabel (iterate fl eig b k Z p).
Proof.
elim: k p => [p //|k IH p]; cbn [iterate]; rewrite once_src.
by case: (update_once fl eig b Z p) => [[p1 g1]|] //=; rewrite IH.
Qed.
(** C88: relabelling the initial sources, differently in every bin, relabels the results of a
    call without permutation alignment in the same way and does not change the loss *)
Theorem C88_sources b k r X p0 :
  call fl eig b k (@unaligned N M F T) r X (relabel p0) =
  omap (fun o => (relabel o.1.1, relabel_post o.1.2, relabel_post o.2)) (call fl eig b k (@unaligned N M F T) r X p0).
Proof.
rewrite /call; case: (unit_input fl X) => [Z|]; last by [].
rewrite iterate_src; case: (iterate _ _ _ _ _ _) => [p|]; last by [].
rewrite [omap _ _]/= !postE ok_src gam_src; case: (_ && _); last by [].
move: (gam fl Z p) => g; rewrite /unaligned /=; congr (Some (_, _, _)).
- by rewrite /relabel /=; congr Params; apply: functional_extensionality => i; apply: functional_extensionality => n; rewrite !perm1.
- by apply: functional_extensionality => i; apply: functional_extensionality => n; apply: functional_extensionality => t; rewrite /relabel_post !perm1.
- by apply: functional_extensionality => i; apply: functional_extensionality => n; apply: functional_extensionality => t; rewrite /mask /relabel_post !perm1.
Qed.
Theorem C88_sources_loss Z p : compute_loss fl Z (relabel p) = compute_loss fl Z p.
Proof.
rewrite !compute_lossE ok_src; case: [&& _, _ & _]; last by [].
apply: f_equal; apply: eq_bigr => i _; apply: f_equal; apply: eq_bigr => t _; apply: f_equal; apply: f_equal.
by rewrite [RHS](reindex_inj (@perm_inj _ (s i))).
Qed.
End Sources.

Section Frames.
Variables (N M F T T' : nat) (f : 'I_T' -> 'I_T) (ef : even_frames f) (fl : R -> R) (eig : eigh_t).
Notation spec := ('I_F -> 'M[Cx]_(M, T)).
Notation post := ('I_F -> 'I_N -> 'I_T -> R).
Notation params := (params N M F).
Implicit Types (Z X : spec) (p : params) (g : post).
Definition play A (g : 'I_F -> 'I_N -> 'I_T -> A) := fun i n t => g i n (f t).
Lemma col_frames Z i t : col t (frames f (Z i)) = col (f t) (Z i).
Proof. by apply/colP => m; rewrite !mxE. Qed.
Lemma zbz_frames Z (B : 'I_F -> 'I_N -> 'M[Cx]_M) i n t : zbz fl (fun i => frames f (Z i)) B i n t = zbz fl Z B i n (f t).
Proof. by rewrite /zbz col_frames. Qed.
Lemma lg_frames Z p i n t : log_gamma fl (fun i => frames f (Z i)) p i n t = log_gamma fl Z p i n (f t).
Proof. by rewrite /log_gamma zbz_frames. Qed.
Lemma ok_frames Z p : log_gamma_ok fl (fun i => frames f (Z i)) p = log_gamma_ok fl Z p.
Proof.
rewrite /log_gamma_ok; apply: (f_equal2 andb); first by [].
apply: eq_forallb => i; apply: eq_forallb => n.
rewrite -(forall_frames ef (fun t => Rltb 0 (zbz fl Z (covariance p) i n t))).
by apply: eq_forallb => t; rewrite zbz_frames.
Qed.
Lemma src_frames : some_source N F T' = some_source N F T.
Proof. by apply: eq_forallb => i; rewrite -(forall_frames ef (fun=> (0 < N)%N)). Qed.
Lemma gam_frames Z p : gam fl (fun i => frames f (Z i)) p = play (gam fl Z p).
Proof.
apply: functional_extensionality => i; apply: functional_extensionality => n; apply: functional_extensionality => t.
rewrite /gam /play lg_frames; apply: (f_equal2 Rdiv); first by [].
by apply: eq_bigr => m _; rewrite lg_frames.
Qed.
Lemma em_frames Z p : em fl eig (fun i => frames f (Z i)) p = em fl eig Z p.
Proof.
rewrite /em gam_frames; have [k k0 ek] := ef; congr Params; apply: functional_extensionality => i; apply: functional_extensionality => n.
  by rewrite /play (sum_frames (fun t => gam fl Z p i n t) ek) -[X in _ * X]mulr_natl mulrA (weight_frames ek k0).
congr to_psd; apply/matrixP => m m'; rewrite !mxE; congr (_ * _).
rewrite (eq_bigr (fun t => c (gam fl Z p i n (f t) / zbz fl Z (covariance p) i n (f t))%coqR * (Z i m (f t) * (Z i m' (f t))^*))); last first.
  by move=> t _; rewrite zbz_frames !mxE.
rewrite (sum_frames (fun t => c (gam fl Z p i n t / zbz fl Z (covariance p) i n t)%coqR * (Z i m t * (Z i m' t)^*)) ek).
rewrite /play (sum_frames (fun t => gam fl Z p i n t) ek).
rewrite -[X in X / _]mulr_natl -[X in _ / c X]mulr_natl cM invfM c_natM mulrACA mulfV ?mul1r // pnatr_eq0 -lt0n //.
Qed.
Lemma once_frames b Z p : update_once fl eig b (fun i => frames f (Z i)) p =
  omap (fun o => (o.1, play o.2)) (update_once fl eig b Z p).
Proof.
rewrite !onceE ok_frames em_frames gam_frames src_frames (T0E ef); case: [&& _, _ & _]; last by [].
move: (em fl eig Z p) (gam fl Z p) => q g.
by case: b => //; case: (normalize_covariance _).
Qed.
Lemma iterate_frames b k Z p : iterate fl eig b k (fun i => frames f (Z i)) p = iterate fl eig b k Z p.
Proof.
elim: k p => [p //|k IH p]; cbn [iterate]; rewrite once_frames.
by case: (update_once fl eig b Z p) => [[p1 g1]|] //=; rewrite IH.
Qed.
(** C88: the frames in another order, or the recording played several times, give the same
    parameters; posteriors and output are rearranged the same way, if the permutation solver
    finds the same alignment *)
Theorem C88_frames b k solver solver' r X p0 : (forall p g, solver' p (play g) = solver p g) ->
  call fl eig b k solver' r (fun i => frames f (X i)) p0 =
  omap (fun o => (o.1.1, play o.1.2, play o.2)) (call fl eig b k solver r X p0).
Proof.
move=> hs; rewrite /call /unit_input.
have nE i t : chan_norm (fun i => frames f (X i)) i t = chan_norm X i (f t).
  by rewrite /chan_norm; congr (R_sqrt.sqrt _); apply: eq_bigr => m _; rewrite mxE.
have -> : all_bins (fun i => [forall t, fl (chan_norm (fun i => frames f (X i)) i t) != 0]) =
          all_bins (fun i => [forall t, fl (chan_norm X i t) != 0]).
  apply: eq_forallb => i; rewrite -(forall_frames ef (fun t => fl (chan_norm X i t) != 0)).
  by apply: eq_forallb => t; rewrite nE.
case: (all_bins _); last by [].
set Z := fun i : 'I_F => \matrix_(m, t) (X i m t * _); set Z' := fun i : 'I_F => _.
have -> : Z' = fun i => frames f (Z i).
  by apply: functional_extensionality => i; apply/matrixP => m t; rewrite !mxE nE.
rewrite iterate_frames; case: (iterate _ _ _ _ _ _) => [p|]; last by [].
rewrite !postE ok_frames gam_frames src_frames; case: (_ && _); last by [].
rewrite hs; move: (gam fl Z p) => g; case: (solver _ _) => [s|]; last by [].
rewrite /=; congr (Some (_, _)).
by do 3!apply: functional_extensionality => ?; rewrite /mask /play mxE.
Qed.
Theorem C88_frames_loss Z p : compute_loss fl (fun i => frames f (Z i)) p = compute_loss fl Z p.
Proof.
rewrite !compute_lossE ok_frames (T0E ef); case: [&& _, _ & _]; last by [].
congr Some; apply: eq_bigr => i _; have [k k0 ek] := ef.
rewrite (eq_bigr (fun t => - ln (\sum_n exp (log_gamma fl Z p i n (f t))))); last first.
  by move=> t _; congr (- ln _); apply: eq_bigr => n _; rewrite lg_frames.
by rewrite (sum_frames (fun t => - ln (\sum_n exp (log_gamma fl Z p i n t))) ek) -[X in _ * X]mulr_natl mulrA (weight_frames ek k0).
Qed.
End Frames.

(** ** Mixing *)
Section Mixing.
Variables (N M F T : nat) (eig : eigh_t) (A : 'I_F -> 'M[Cx]_M).
Hypotheses (He : eigh_contract eig) (uA : forall i, A i \in unitmx).
Notation spec := ('I_F -> 'M[Cx]_(M, T)).
Notation post := ('I_F -> 'I_N -> 'I_T -> R).
Notation params := (params N M F).
Notation id := (fun x : R => x).
Implicit Types (X : spec) (p : params) (g : post).
(** the same weights, and covariances of the mixed channels up to their scale *)
Definition mixed p (p' : params) : Prop := mixing p' = mixing p /\
  exists l : 'I_F -> 'I_N -> R, forall i n, (0 < l i n)%coqR /\
    covariance p' i n = c (l i n) *: (A i *m covariance p i n *m (A i)^H).

Section Core.
Variables (Z Z' : spec) (s : 'I_F -> 'I_T -> Cx).
Hypotheses (s0 : forall i t, s i t != 0) (eZ : forall i t, col t (Z' i) = s i t *: (A i *m col t (Z i))).
Let w i t : R := (cabs (s i t) * cabs (s i t))%coqR.
Lemma w_gt0 i t : (0 < w i t)%coqR.
Proof. by apply: Rmult_lt_0_compat; apply: cabs_gt0. Qed.
Lemma ssE i t : s i t * (s i t)^* = c (w i t).
Proof. by rewrite -cabs_sqr /w RmulE. Qed.
Section Cell.
Variables (B B' : 'M[Cx]_M) (l : R) (i : 'I_F).
Hypotheses (l0 : (0 < l)%coqR) (eB : B' = c l *: (A i *m B *m (A i)^H)).
Lemma cl0 : c l != 0.
Proof. by apply: lt0r_neq0; apply: c_gt0. Qed.
Lemma unit_mixed : (B' \in unitmx) = (B \in unitmx).
Proof. by rewrite eB unitmxZ ?unitfE ?cl0 // !unitmx_mul uA ctr_unit uA andbT. Qed.
Lemma form_mixed t : B \in unitmx -> form (invmx B') (col t (Z' i)) (col t (Z' i)) =
  c (w i t / l)%coqR * form (invmx B) (col t (Z i)) (col t (Z i)).
Proof.
move=> uB; rewrite eZ formZl formZr mulrA [_^* * _]mulrC ssE eB.
have uAB : A i *m B *m (A i)^H \in unitmx by rewrite !unitmx_mul uA uB ctr_unit uA.
have -> : invmx (c l *: (A i *m B *m (A i)^H)) = (c l)^-1 *: (invmx (A i)^H *m (invmx B *m invmx (A i))).
  by rewrite invmxZ // ?unitmxZ // ?unitfE ?cl0 // !invmx_mul ?mulmxA // ?ctr_unit ?uA // unitmx_mul uA.
rewrite /form -scalemxAr -scalemxAl mxE mulrA /Rdiv cRM cRV; last lra.
congr (_ * _).
have -> : (A i *m col t (Z i))^H *m (invmx (A i)^H *m (invmx B *m invmx (A i))) *m (A i *m col t (Z i)) =
  (col t (Z i))^H *m ((A i)^H *m invmx (A i)^H) *m invmx B *m (invmx (A i) *m A i) *m col t (Z i) by rewrite ctrM !mulmxA.
by rewrite mulmxV ?ctr_unit // mulVmx // !mulmx1.
Qed.
End Cell.
Lemma zbz_mixed p p' l i n t : (0 < l)%coqR -> covariance p' i n = c l *: (A i *m covariance p i n *m (A i)^H) ->
  covariance p i n \in unitmx ->
  zbz id Z' (covariance p') i n t = (w i t / l * zbz id Z (covariance p) i n t)%coqR.
Proof.
move=> l0 e u; rewrite /zbz (form_mixed l0 e t u).
have k0 : (0 < w i t / l)%coqR by apply: Rdiv_lt_0_compat => //; exact: w_gt0.
rewrite reMc -RmulE; move: (re _) (_ / _)%coqR k0 => x y y0.
case: (Rle_dec x 0) => h; first by rewrite !Rmax_right // ?Rmult_0_r //; [rewrite -[0%coqR](Rmult_0_r y)]; apply: Rmult_le_compat_l; lra.
rewrite !Rmax_left //; first lra.
by apply: Rmult_le_pos; lra.
Qed.
Lemma ok_mixed p p' : mixed p p' -> log_gamma_ok id Z' p' = log_gamma_ok id Z p.
Proof.
case=> em [l hl]; apply/log_gamma_okP/log_gamma_okP => -[h1 h2].
  have u i n : covariance p i n \in unitmx by have [l0 e] := hl i n; rewrite -(unit_mixed l0 e); have [] := h1 i n.
  split=> [i n|i n t]; first by rewrite u -em; have [] := h1 i n.
  have [l0 e] := hl i n; have := h2 i n t; rewrite (zbz_mixed t l0 e (u i n)).
  have k0 : (0 < w i t / l i n)%coqR by apply: Rdiv_lt_0_compat => //; exact: w_gt0.
  by move=> h; apply: (Rmult_lt_reg_l _ _ _ k0); rewrite Rmult_0_r.
split=> [i n|i n t]; have [l0 e] := hl i n.
  by rewrite (unit_mixed l0 e) em; exact: h1.
rewrite (zbz_mixed t l0 e); last by have [] := h1 i n.
by apply: Rmult_lt_0_compat => //; apply: Rdiv_lt_0_compat => //; exact: w_gt0.
Qed.
(** the change of the log-likelihood of a time-frequency point, the same for all sources *)
Definition kap i t : R := (ln (cabs (\det (A i)) * cabs (\det (A i))) + INR M * ln (w i t))%coqR.
Lemma lg_mixed p p' i n t : mixed p p' -> log_gamma_ok id Z p ->
  log_gamma id Z' p' i n t = (log_gamma id Z p i n t - kap i t)%coqR.
Proof.
case=> em [l hl] /log_gamma_okP[h1 h2]; have [l0 e] := hl i n; have [u _] := h1 i n; have z0 := h2 i n t.
rewrite /log_gamma (zbz_mixed t l0 e u) em e detZ !det_mulmx det_ctr !cabsM cabs_conj -cX cabs_c -!RmulE.
have dA : (0 < cabs (\det (A i)))%coqR by apply: cabs_gt0; rewrite -unitfE -unitmxE.
have dB : (0 < cabs (\det (covariance p i n)))%coqR by apply: cabs_gt0; rewrite -unitfE -unitmxE.
have wp := w_gt0 i t; have lp : (0 < l i n ^ M)%coqR by apply: pow_lt.
rewrite -RpowE Rabs_pos_eq; last exact: Rlt_le.
rewrite /Rdiv !ln_mult //; try (by do ?apply: Rmult_lt_0_compat => //; try exact: Rinv_0_lt_compat); try exact: cabs_gt0.
rewrite ln_Rinv // ln_pow // /kap /w !ln_mult //; try exact: cabs_gt0.
move: (ln (cabs (\det (A i)))) (ln (cabs (\det _))) (ln (cabs _)) (ln (l _ _)) (ln (zbz _ _ _ _ _ _)) (ln (mixing _ _ _)) (INR M) => *; Rr.
Qed.
Lemma gam_mixed p p' : mixed p p' -> log_gamma_ok id Z p -> gam id Z' p' = gam id Z p.
Proof.
move=> hm ok; apply: functional_extensionality => i; apply: functional_extensionality => n; apply: functional_extensionality => t.
rewrite /gam; have S0 := sumexp_gt0 (fun k => log_gamma id Z p i k t) n.
have -> : \sum_k exp (log_gamma id Z' p' i k t) = ((\sum_k exp (log_gamma id Z p i k t))%R * exp (- kap i t))%coqR.
  by rewrite sumR_mulr; apply: eq_bigr => k _; rewrite (lg_mixed i k t hm ok) /Rminus exp_plus.
rewrite (lg_mixed i n t hm ok) /Rminus exp_plus.
have := exp_pos (- kap i t); move: (\sum_k _) (exp _) (exp _) S0 => x y z x0 y0.
by Rfield; split; lra.
Qed.
Lemma scatter_mixed p p' i n l : (0 < l)%coqR -> covariance p' i n = c l *: (A i *m covariance p i n *m (A i)^H) ->
  log_gamma_ok id Z p -> forall g, scatter id Z' p' g i n = c l *: (A i *m scatter id Z p g i n *m (A i)^H).
Proof.
move=> l0 e /log_gamma_okP[h1 h2] g.
rewrite -[scatter id Z' p' g i n]/(scat (Z' i) (g i n) (zbz id Z' (covariance p') i n)).
rewrite -[scatter id Z p g i n]/(scat (Z i) (g i n) (zbz id Z (covariance p) i n)) !scatE.
rewrite -scalemxAr -scalemxAl scalerA [c l * _]mulrC -scalerA; congr (_ *: _).
rewrite mulmx_sumr mulmx_suml scaler_sumr; apply: eq_bigr => t _.
have [u _] := h1 i n; have z0 := h2 i n t.
rewrite eZ (zbz_mixed t l0 e u) ctrZ -scalemxAr -!scalemxAl !scalerA [(s i t)^* * _]mulrC.
rewrite -scalemxAr -scalemxAl scalerA ctrM !mulmxA; congr (_ *: _).
rewrite ssE -cM -cM; congr c; rewrite -!RmulE.
have := w_gt0 i t; move: (w i t) (zbz _ _ _ _ _ _) (g i n t) z0 => x y v y0 x0.
by Rfield; repeat split; lra.
Qed.
Hypothesis z0 : forall i t, col t (Z i) != 0.
Lemma z'0 i t : col t (Z' i) != 0.
Proof.
rewrite eZ scaler_eq0 negb_or s0 /=; apply: contraNneq (z0 i t) => e.
by rewrite -[col t (Z i)]mul1mx -(mulVmx (uA i)) -mulmxA e mulmx0.
Qed.
End Core.
Lemma em_covE (Z : spec) p i n : covariance (em id eig Z p) i n = scatter id Z p (gam id Z p) i n.
Proof.
apply: to_psd_id => //.
by rewrite -[scatter id Z p _ i n]/(scat (Z i) (gam id Z p i n) (zbz id Z (covariance p) i n)) scat_herm.
Qed.
Lemma tr_em_gt0 (Z : spec) p i n : (forall i t, col t (Z i) != 0) -> T != 0%N -> log_gamma_ok id Z p ->
  (0 < re (\tr (covariance (em id eig Z p) i n)))%coqR.
Proof.
move=> z0 T0 /log_gamma_okP[h1 h2]; rewrite em_covE.
rewrite -[scatter id Z p _ i n]/(scat (Z i) (gam id Z p i n) (zbz id Z (covariance p) i n)).
have G0 := sum_gam id Z p i n T0.
have T1 : (0 < T)%N by rewrite lt0n.
have M0 : (0 < M)%N.
  rewrite lt0n; apply/negP => /eqP M0; have /negP := z0 i (Ordinal T1); apply; apply/eqP/colP => m.
  by have := ltn_ord m; rewrite {2}M0.
have := rtr_scat 1%:M (Z i) (zbz id Z (covariance p) i n) (g := gam id Z p i n); rewrite mul1mx => h.
have {h}h : \sum_t gam id Z p i n t != 0 -> _ := h.
have {}h := h (introN eqP (Rgt_not_eq _ _ G0)); rewrite -mulr_suml in h.
rewrite -/(rtr _); move: h G0; move: (rtr _) (\sum_t gam id Z p i n t) => x G h G0.
apply: (Rmult_lt_reg_l G) => //; rewrite Rmult_0_r [(G * x)%coqR]RmulE h.
apply: Rmult_lt_0_compat; first by apply/RltP; rewrite ltr0n.
have q0 t : (0 < gam id Z p i n t / zbz id Z (covariance p) i n t * re (form 1%:M (col t (Z i)) (col t (Z i))))%coqR.
  apply: Rmult_lt_0_compat; first by apply: Rdiv_lt_0_compat; [exact: gam_gt0|exact: h2].
  by have [_ hp] := @pd1 Cx M; have /gt0_cre[] := hp _ (z0 i t).
by apply: (@sumR_gt0 _ _ (Ordinal T1)) => [t|]; [apply: Rlt_le|]; exact: q0.
Qed.
Lemma norm_pos p : (forall i n, (0 < re (\tr (covariance p i n)))%coqR) -> normalize_covariance p =
  Some {| mixing := mixing p; covariance := fun i n => (c (re (\tr (covariance p i n))))^-1 *: covariance p i n |}.
Proof.
move=> h; rewrite /normalize_covariance; have -> : [forall i, [forall n, re (\tr (covariance p i n)) != 0]].
  by apply/forallP => i; apply/forallP => n; apply/eqP; apply: Rgt_not_eq; exact: h.
by [].
Qed.
Section Run.
Variables (Z Z' : spec) (s : 'I_F -> 'I_T -> Cx).
Hypotheses (s0 : forall i t, s i t != 0) (eZ : forall i t, col t (Z' i) = s i t *: (A i *m col t (Z i))).
Hypothesis z0 : forall i t, col t (Z i) != 0.
Lemma em_mixed p p' : mixed p p' -> log_gamma_ok id Z p -> mixed (em id eig Z p) (em id eig Z' p').
Proof.
move=> hm ok; have gE := gam_mixed s0 eZ hm ok; have [em [l hl]] := hm; split; first by rewrite /em /= gE.
exists l => i n; have [l0 e] := hl i n; split=> //.
have e1 := em_covE Z' p' i n; rewrite gE in e1.
have e2 := scatter_mixed s0 eZ l0 e ok (gam id Z p).
exact: (etrans e1 (etrans e2 (congr1 (fun S => c (l i n) *: (A i *m S *m (A i)^H)) (esym (em_covE Z p i n))))).
Qed.
Lemma norm_mixed p p' : mixed p p' -> (forall i n, (0 < re (\tr (covariance p i n)))%coqR) ->
  (forall i n, (0 < re (\tr (covariance p' i n)))%coqR) ->
  mixed {| mixing := mixing p; covariance := fun i n => (c (re (\tr (covariance p i n))))^-1 *: covariance p i n |}
        {| mixing := mixing p'; covariance := fun i n => (c (re (\tr (covariance p' i n))))^-1 *: covariance p' i n |}.
Proof.
move=> [em [l hl]] h h'; split=> //=.
exists (fun i n => l i n * re (\tr (covariance p i n)) / re (\tr (covariance p' i n)))%coqR => i n.
have [l0 e] := hl i n; have a0 := h i n; have b0 := h' i n; split.
  by apply: Rdiv_lt_0_compat => //; apply: Rmult_lt_0_compat.
move: e a0 b0; move: (re _) (re _) => x y e a0 b0; rewrite e scalerA -scalemxAr -scalemxAl scalerA; congr (_ *: _).
rewrite -!cRV; try lra; rewrite -!cM; congr c; rewrite -!RmulE.
by Rfield; split; lra.
Qed.
Lemma once_mixed b p p' : mixed p p' ->
  match update_once id eig b Z p, update_once id eig b Z' p' with
  | Some (q, g), Some (q', g') => mixed q q' /\ g' = g
  | None, None => True
  | _, _ => False
  end.
Proof.
move=> hm; have okE := ok_mixed s0 eZ hm; rewrite !onceE okE.
case ok: (log_gamma_ok id Z p); last by [].
case: some_source; last by [].
case T0: (T != 0%N); last by [].
have ok' : log_gamma_ok id Z' p' by rewrite okE.
have h i n := tr_em_gt0 i n z0 T0 ok.
have h' i n := tr_em_gt0 i n (z'0 s0 eZ z0) T0 ok'.
have hm' := em_mixed hm ok; have gE := gam_mixed s0 eZ hm ok.
move: h h' hm' gE; move: (em id eig Z p) (em id eig Z' p') (gam id Z p) (gam id Z' p') => q q' g g' h h' hm' ->.
cbv beta iota delta [andb]; case: b; last exact: (conj hm' (erefl g)).
rewrite (norm_pos h) (norm_pos h'); exact: (conj (norm_mixed hm' h h') (erefl g)).
Qed.
Lemma iterate_mixed b k p p' : mixed p p' ->
  match iterate id eig b k Z p, iterate id eig b k Z' p' with
  | Some q, Some q' => mixed q q'
  | None, None => True
  | _, _ => False
  end.
Proof.
elim: k p p' => [//|k IH] p p' hm; cbn [iterate]; have := once_mixed b hm.
by case: (update_once _ _ _ _ p) => [[q g]|]; case: (update_once _ _ _ _ p') => [[q' g']|] // [hq _]; exact: IH.
Qed.
Lemma loss_mixed : exists d, forall p p', mixed p p' ->
  compute_loss id Z' p' = omap (Rplus d) (compute_loss id Z p).
Proof.
exists (\sum_i ((T%:R)^-1 * \sum_t kap s i t))%R => p p' hm; rewrite !compute_lossE (ok_mixed s0 eZ hm).
case ok: (log_gamma_ok id Z p); last by rewrite !andbF.
case N0: (N != 0%N); last by rewrite !andbF.
case: (T != 0%N); last by [].
apply: f_equal; rewrite /lossv RaddE -big_split /=; apply: eq_bigr => i _; rewrite -mulrDr -big_split /=.
apply: f_equal; apply: eq_bigr => t _.
have N1 : (0 < N)%N by rewrite lt0n.
have S0 := sumexp_gt0 (fun k => log_gamma id Z p i k t) (Ordinal N1).
have -> : \sum_k exp (log_gamma id Z' p' i k t) = ((\sum_k exp (log_gamma id Z p i k t))%R * exp (- kap s i t))%coqR.
  by rewrite sumR_mulr; apply: eq_bigr => k _; rewrite (lg_mixed s0 eZ i k t hm ok) /Rminus exp_plus.
rewrite ln_mult //; last exact: exp_pos.
rewrite ln_exp -RaddE -!RoppE; move: (ln _) (kap _ _ _) => *; Rr.
Qed.
End Run.
Lemma chan_norm0 X i t : (chan_norm X i t == 0) = (col t (X i) == 0).
Proof.
rewrite /chan_norm; have S0 : (0 <= \sum_m cabs (X i m t) ^+ 2)%coqR.
  by apply: sumR_ge0 => m _; rewrite -RpowE; exact: pow2_ge_0.
apply/eqP/eqP => [/sqrt_eq_0 h|h].
  apply/colP => m; rewrite !mxE; apply/eqP; rewrite -cabs_eq0.
  have : \sum_m cabs (X i m t) ^+ 2 == 0 by apply/eqP; exact: h.
  by rewrite psumr_eq0 => [/allP/(_ m)|k _]; [rewrite mem_index_enum sqrf_eq0; apply|rewrite exprn_even_ge0].
rewrite big1 ?sqrt_0 // => m _.
by have /colP/(_ m) := h; rewrite !mxE => ->; rewrite cabs0 expr0n.
Qed.
Definition mix X : spec := fun i => A i *m X i.
Lemma colMx X i t : col t (mix X i) = A i *m col t (X i).
Proof. by rewrite /mix !colE mulmxA. Qed.
Lemma mix_units X : match unit_input id X, unit_input id (mix X) with
  | Some Z, Some Z' => exists s, [/\ forall i t, s i t != 0, forall i t, col t (Z' i) = s i t *: (A i *m col t (Z i)) & forall i t, col t (Z i) != 0]
  | None, None => True
  | _, _ => False end.
Proof.
rewrite /unit_input; have e i t : (chan_norm (mix X) i t == 0) = (chan_norm X i t == 0).
  rewrite !chan_norm0 colMx; apply/eqP/eqP => [h|->]; last by rewrite mulmx0.
  by rewrite -[col t (X i)]mul1mx -(mulVmx (uA i)) -mulmxA h mulmx0.
have -> : all_bins (fun i => [forall t, chan_norm (mix X) i t != 0]) = all_bins (fun i => [forall t, chan_norm X i t != 0]).
  by apply: eq_forallb => i; apply: eq_forallb => t; rewrite e.
case h: (all_bins _); last by [].
have x0 i t : chan_norm X i t != 0 by move/forallP: h => /(_ i)/forallP/(_ t).
have y0 i t : chan_norm (mix X) i t != 0 by rewrite e.
exists (fun i t => c (chan_norm X i t / chan_norm (mix X) i t)%coqR); split=> i t.
- by rewrite c_eq0 RdivE ?mulf_neq0 ?invr_eq0 //; apply/eqP.
- have zE (Y : spec) : col t (\matrix_(m, t) (Y i m t * c (/ chan_norm Y i t)%coqR)) = c (/ chan_norm Y i t)%coqR *: col t (Y i).
    by apply/colP => m; rewrite !mxE mulrC.
  rewrite !zE -scalemxAr scalerA -cM -RmulE colMx; congr (c _ *: _).
  by have /eqP := x0 i t; have /eqP := y0 i t; move: (chan_norm _ _ _) (chan_norm _ _ _) => *; Rfield.
- apply/eqP => z; have := x0 i t; rewrite chan_norm0 => /negP; apply; apply/eqP/colP => m.
  move/colP: z => /(_ m); rewrite !mxE => /eqP; rewrite mulf_eq0 => /orP[/eqP //|].
  by rewrite c_eq0 => /eqP q; have /eqP/Rinv_neq_0_compat := x0 i t; rewrite q.
Qed.
Lemma permute_mixed (sg : 'I_F -> {perm 'I_N}) p p' g : mixed p p' -> mixed (permute sg p g).1 (permute sg p' g).1.
Proof. by case=> [em [l hl]]; split; [rewrite /= em|exists (fun i n => l i (sg i n)) => i n; exact: hl]. Qed.
(** C88: mixing the channels of every bin by an invertible matrix, with initial covariances mixed
    the same way (up to positive factors), does not change weights and posteriors, changes the
    covariances the same way and masks the mixed reference channel, without flooring and for
    alignments which depend on the posteriors only.  The call fails exactly when the original
    call fails. *)
Theorem C88_mixing b k (solver : post -> option ('I_F -> {perm 'I_N})) r X p0 p0' : mixed p0 p0' ->
  match call id eig b k (fun=> solver) r X p0, call id eig b k (fun=> solver) r (mix X) p0' with
  | Some (p, g, Y), Some (p', g', Y') => [/\ mixed p p', g' = g & forall i n t, Y' i n t = c (g i n t) * (A i *m X i) r t]
  | None, None => True
  | _, _ => False
  end.
Proof.
move=> h0; rewrite /call; have := mix_units X.
case: (unit_input id X) => [Z|]; case: (unit_input id (mix X)) => [Z'|] // [s [s0 eZ z0]].
have := iterate_mixed s0 eZ z0 b k h0.
case: (iterate _ _ _ _ _ p0) => [p|]; case: (iterate _ _ _ _ _ p0') => [p'|] // hm.
rewrite !postE (ok_mixed s0 eZ hm); case ok: (log_gamma_ok id Z p); last by [].
rewrite (gam_mixed s0 eZ hm ok); move: (gam id Z p) => g.
case: some_source; last by [].
cbv beta iota delta [andb]; case: (solver g) => [sg|]; last by [].
exact: (And3 (permute_mixed sg g hm) (erefl _) (fun i n t => erefl _)).
Qed.
(** ... and shifts all losses by the same constant *)
Theorem C88_mixing_loss X Z Z' : unit_input id X = Some Z -> unit_input id (mix X) = Some Z' ->
  exists d, forall p p', mixed p p' -> compute_loss id Z' p' = omap (Rplus d) (compute_loss id Z p).
Proof. by move=> e e'; have := mix_units X; rewrite e e' => -[s [s0 eZ _]]; exact: (loss_mixed s0 eZ). Qed.
End Mixing.
