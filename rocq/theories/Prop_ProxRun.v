(** C92, C93: complete runs and calls of PDSBSS and ADMMBSS. *)
From Coq Require Import Reals Lra FunctionalExtensionality.
From mathcomp Require Import all_ssreflect all_algebra all_fingroup.
From mathcomp Require Import ring.
From Verif Require Import RStruct MxC CxR NpLin RealLemmas NmfMM Eigh EighProofs SpatialISS Scale AuxIVA AuxIVAProofs AuxIVARun AuxIVACall Gradient GradLoss GradRun Prox ProxProofs ProxBss ProxBssProofs ProxRun SvdExist.
From Verif Require Import Prop_Frames Prop_Bins Prop_Rank Prop_Prox Prop_ProxBss Prop_GradRun Prop_FastRun.
Import Order.TTheory GRing.Theory Num.Theory.
Set Implicit Arguments.
Unset Strict Implicit.
Unset Printing Implicit Defensive.
Local Open Scope ring_scope.

(** a function of a Hermitian matrix does not depend on the eigenvectors *)
Lemma spectral_fun n (U V : 'M[Cx]_n) (d e : 'rV[R]_n) (g : R -> R) : U^H *m U = 1%:M -> V^H *m V = 1%:M ->
  U *m rdiag d *m U^H = V *m rdiag e *m V^H ->
  U *m rdiag (map_mx g d) *m U^H = V *m rdiag (map_mx g e) *m V^H.
Proof.
move=> uU uV E; have UU := mulmx1C uU; have VV := mulmx1C uV.
have EM : rdiag d *m (U^H *m V) = (U^H *m V) *m rdiag e.
  have := congr1 (fun Z => U^H *m Z *m V) E.
  by rewrite !mulmxA uU mul1mx -!mulmxA uV mulmx1 => ->; rewrite !mulmxA.
have EG : rdiag (map_mx g d) *m (U^H *m V) = (U^H *m V) *m rdiag (map_mx g e).
  apply/matrixP => a b; have := congr1 (fun Z : 'M[Cx]_n => Z a b) EM; rewrite /rdiag !diag_mulE !mul_diagE.
  move: (U^H *m V) => M; rewrite !mxE [_ * c (e 0 b)]mulrC [_ * c (g (e 0 b))]mulrC => h.
  have [->|nz] := eqVneq (M a b) 0; first by rewrite !mulr0.
  by have /c_inj -> := mulIf nz h.
have := congr1 (fun Z => U *m Z *m V^H) EG.
by rewrite !mulmxA UU mul1mx -!mulmxA VV mulmx1 => ->; rewrite !mulmxA.
Qed.
(** the proximal operator of -log|det| does not depend on the singular vectors and follows unitary
    transforms from both sides *)
Section Logdet.
Variables (n : nat) (mu : R) (A B : 'M[Cx]_n).
Hypotheses (m0 : (0 < mu)%coqR) (uA : A^H *m A = 1%:M) (uB : B^H *m B = 1%:M).
Definition pnl (s : R) : R := ((s + R_sqrt.sqrt (s ^ 2 + 4 * mu)) / 2)%coqR.
Lemma logdet_val (svd : svd_t) (X : 'M[Cx]_n) : svd_spec X (svd n X) -> X \in unitmx ->
  prox_neg_logdet svd X mu = Some ((svd n X).1.1 *m rdiag (map_mx (fun s => pnl (R_sqrt.sqrt s) / R_sqrt.sqrt s)%coqR (map_mx (fun s => s ^ 2)%coqR (svd n X).1.2)) *m (svd n X).1.1^H *m X) /\
  X *m X^H = (svd n X).1.1 *m rdiag (map_mx (fun s => s ^ 2)%coqR (svd n X).1.2) *m (svd n X).1.1^H.
Proof.
move=> h uX; have [U [s [V [d [Z [e1 eX e2 eZ hd]]]]]] := C38_singular_vectors m0 h.
rewrite e2 e1 /=; move: h; rewrite e1 => -[/= uU uV s0 _].
have us : rdiag s \in unitmx by move: uX; rewrite {1}eX !unitmx_mul => /andP[/andP[]].
have sp i : (0 < s 0%R i)%coqR.
  case: (Rle_lt_or_eq_dec _ _ (s0 i)) => // z; exfalso.
  by move: us; rewrite unitmxE /rdiag det_diag unitfE => /prodf_neq0 /(_ i isT); rewrite mxE -z c0 eqxx.
split.
  apply: (f_equal (fun q => Some q)); rewrite eZ [in RHS]eX !mulmxA -(mulmxA _ U^H U) uU mulmx1; congr (_ *m _).
  rewrite -mulmxA; congr (_ *m _); apply/matrixP => a b; rewrite /rdiag mul_diagE !mxE; case: (a =P b) => [<-|]; last by rewrite mul0r.
  rewrite !mulr1n -cM; apply: (f_equal c); rewrite hd -/(pnl _) sqrt_pow2; last exact: s0.
  by toR; Rf; apply: Rgt_not_eq.
rewrite {1 2}eX !ctrM rdiag_ctr !mulmxA -(mulmxA _ V) uV mulmx1; congr (_ *m _).
rewrite -mulmxA; congr (_ *m _); apply/matrixP => a b; rewrite /rdiag mul_diagE !mxE; case: (a =P b) => [<-|]; last by rewrite mul0r.
by rewrite !mulr1n -cM; apply: (f_equal c); toR; Rr.
Qed.
Lemma logdet_rel (svd1 svd2 : svd_t) (X : 'M[Cx]_n) : svd_contract svd1 -> svd_contract svd2 -> X \in unitmx ->
  prox_neg_logdet svd2 (A *m X *m B^H) mu = omap (fun Z => A *m Z *m B^H) (prox_neg_logdet svd1 X mu).
Proof.
move=> h1 h2 uX; have AA := mulmx1C uA; have BB := mulmx1C uB.
have uX' : A *m X *m B^H \in unitmx by rewrite !unitmx_mul uX; case/mulmx1_unit: uA => _ ->; case/mulmx1_unit: uB => ->.
have [-> G1] := logdet_val (h1 _ X) uX; have [-> G2] := logdet_val (h2 _ _) uX'.
apply: (f_equal (fun q => Some q)).
have [u1 _ _ _] := h1 _ X; have [u2 _ _ _] := h2 _ (A *m X *m B^H).
move: G1 G2 u1 u2; move: (svd1 n X).1 (svd2 n _).1 => [U1 s1] [U2 s2] /= G1 G2 u1 u2.
have uAU : (A *m U1)^H *m (A *m U1) = 1%:M by rewrite ctrM mulmxA -(mulmxA _ A^H) uA mulmx1.
have E : (A *m U1) *m rdiag (map_mx (fun s => s ^ 2)%coqR s1) *m (A *m U1)^H = U2 *m rdiag (map_mx (fun s => s ^ 2)%coqR s2) *m U2^H.
  rewrite -G2 !ctrM ctrK !mulmxA -(mulmxA _ B^H) uB mulmx1 -!(mulmxA A) -!mulmxA; congr (A *m _); rewrite !mulmxA.
  by rewrite G1.
rewrite -(spectral_fun _ uAU u2 E) ctrM !mulmxA -(mulmxA _ A^H A) uA mulmx1.
by rewrite -!mulmxA.
Qed.
End Logdet.

(** * Runs *)
Section Order.
Variables (svd1 svd2 : svd_t) (F n T Q : nat).
Notation spec := ('I_F -> 'M[Cx]_(n, T)).
Notation filt := ('I_F -> 'M[Cx]_n).
Implicit Types (X Y : spec) (W : filt).
Hypotheses (s1 : svd_contract svd1) (s2 : svd_contract svd2).
Variables (pn : {perm 'I_n}) (pi : {perm 'I_F}) (pj : {perm 'I_T}) (A : filt).
Hypothesis oA : forall i, A i *m (A i)^H = 1%:M.
Notation rX := (rX pi pj A).
Notation rW := (rW pn pi A).
Notation rY := (rY pn pi pj).
Notation P := (perm_mx pn : 'M[Cx]_n).

Lemma uA i : A i \in unitmx. Proof. by case/mulmx1_unit: (oA i). Qed.
Lemma permH : (P^H *m P = 1%:M) * (P *m P^H = 1%:M).
Proof.
have e : P^H = perm_mx pn^-1.
  apply/matrixP => a b; rewrite ctrE !mxE conjC_nat; congr (_%:R); apply: congr1.
  by apply/eqP/eqP => [<-|<-]; rewrite ?permK ?permKV.
by rewrite e -!perm_mxM mulgV mulVg perm_mx1.
Qed.
Lemma invA i : invmx (A i) = (A i)^H.
Proof. by rewrite -[RHS]mul1mx -(mulVmx (uA i)) -mulmxA oA mulmx1. Qed.
Lemma rWE W i : rW W i = P *m W (pi i) *m (A i)^H.
Proof. by rewrite /Prop_GradRun.rW row_permE invA. Qed.
Lemma rYE Y i : rY Y i = P *m col_perm pj (Y (pi i)).
Proof. by rewrite -row_permE; apply/matrixP => a t; rewrite !mxE. Qed.
Lemma rXE X i : rX X i = A i *m col_perm pj (X (pi i)).
Proof. by congr (_ *m _); apply/matrixP => a t; rewrite !mxE. Qed.
Lemma rW_add W V : rW (addW W V) = addW (rW W) (rW V).
Proof. by apply: functional_extensionality => i; rewrite /addW !rWE mulmxDr mulmxDl. Qed.
Lemma rW_sub W V : rW (subW W V) = subW (rW W) (rW V).
Proof. by apply: functional_extensionality => i; rewrite /subW !rWE mulmxBr mulmxBl. Qed.
Lemma rW_scale a W : rW (scaleW a W) = scaleW a (rW W).
Proof. by apply: functional_extensionality => i; rewrite /scaleW !rWE -scalemxAr -scalemxAl. Qed.
Lemma rY_add Y Z : rY (addT Y Z) = addT (rY Y) (rY Z).
Proof. by apply: functional_extensionality => i; apply/matrixP => a t; rewrite !mxE. Qed.
Lemma rY_sub Y Z : rY (subT Y Z) = subT (rY Y) (rY Z).
Proof. by apply: functional_extensionality => i; apply/matrixP => a t; rewrite !mxE. Qed.
Lemma rY_scale a Y : rY (scaleT a Y) = scaleT a (rY Y).
Proof. by apply: functional_extensionality => i; apply/matrixP => a' t; rewrite !mxE. Qed.
Lemma frames_gram m m' (M : 'M[Cx]_(m, T)) (N : 'M[Cx]_(m', T)) : col_perm pj M *m (col_perm pj N)^H = M *m N^H.
Proof.
apply/matrixP => a b; rewrite !mxE [RHS](reindex_inj (@perm_inj _ pj)); apply: eq_bigr => t _.
by rewrite !ctrE !mxE.
Qed.
Lemma sepE X W : separate (rX X) (rW W) = rY (separate X W).
Proof. exact: (sep_order pn pi pj uA X W). Qed.
Lemma cross_order (Y : 'I_Q -> spec) X i : (\sum_q rY (Y q) i) *m (rX X i)^H = rW (fun i => (\sum_q Y q i) *m (X i)^H) i.
Proof.
have -> : \sum_q rY (Y q) i = P *m col_perm pj (\sum_q Y q (pi i)).
  under eq_bigr do rewrite rYE.
  rewrite -mulmx_sumr; congr (_ *m _); apply/matrixP => a t; rewrite !mxE !summxE; by apply: eq_bigr => q _; rewrite mxE.
by rewrite rXE rWE ctrM mulmxA -(mulmxA P) frames_gram !mulmxA.
Qed.
Lemma for_all_move (B : zmodType) (f f' : 'I_F -> option B) (h : 'I_F -> B -> B) : (forall i, f' i = omap (h i) (f (pi i))) ->
  for_all f' = omap (fun u i => h i (u (pi i))) (for_all f).
Proof.
move=> E; rewrite /for_all.
have -> : [forall i, f' i != None] = [forall i, f i != None].
  rewrite -(forall_bins pi (fun i => f i != None)); apply: eq_forallb => i; rewrite E; by case: (f _).
case: forallP => // al; apply: (f_equal (fun q => Some q)); apply: functional_extensionality => i.
by rewrite E; have := al (pi i); case: (f _).
Qed.
Lemma for_all_in_order (f f' : 'I_Q -> option spec) : (forall q, f' q = omap rY (f q)) ->
  for_all_in f' = omap (fun u q => rY (u q)) (for_all_in f).
Proof.
move=> E; rewrite /for_all_in.
have -> : [forall q, isSome (f' q)] = [forall q, isSome (f q)] by apply: eq_forallb => q; rewrite E; by case: (f _).
case: forallP => // al; apply: (f_equal (fun q => Some q)); apply: functional_extensionality => q.
by rewrite E; have := al q; case: (f _).
Qed.
Lemma logdet_order W mu : (0 < mu)%coqR -> (forall i, W i \in unitmx) ->
  neg_logdet svd2 (rW W) mu = omap rW (neg_logdet svd1 W mu).
Proof.
move=> m0 uW; rewrite /neg_logdet (for_all_move (f := fun i => prox_neg_logdet svd1 (W i) mu) (h := fun i Z => P *m Z *m (A i)^H)).
  case: (for_all _) => [V|//]; apply: (f_equal (fun q => Some q)); apply: functional_extensionality => i; by rewrite rWE.
move=> i; rewrite rWE; apply: logdet_rel => //; first by rewrite permH.
by rewrite mulmx1C // oA.
Qed.
Lemma det_order W i : cabs (\det (rW W i)) = cabs (\det (W (pi i))).
Proof.
have u m (M : 'M[Cx]_m) : M *m M^H = 1%:M -> cabs (\det M) = 1.
  move=> e; have := congr1 determinant e; rewrite det_mulmx det1 det_ctr => h.
  have : c (cabs (\det M) ^+ 2) = c 1 by rewrite cabs_sqr h c1.
  move/c_inj; have := cabs_ge0 (\det M); rewrite -RpowE; move: (cabs _) => x x0; toR => h2; nra.
by rewrite rWE !det_mulmx det_ctr !cabsM cabs_conj (u _ _ permH.2) (u _ _ (oA i)) mulr1 mul1r.
Qed.
Lemma loss_order (pens pens' : option ('I_Q -> spec -> R)) X W :
  match pens, pens' with Some p, Some p' => forall q Z, p' q (rY Z) = p q Z | None, None => True | _, _ => False end ->
  compute_loss pens' (rX X) (rW W) = compute_loss pens X W.
Proof.
case: pens pens' => [p|] [p'|] // h; rewrite /compute_loss.
have -> : [forall i, \det (rW W i) != 0] = [forall i, \det (W i) != 0].
  rewrite -(forall_bins pi (fun i => \det (W i) != 0)); apply: eq_forallb => i.
  by rewrite -!cabs_eq0 det_order.
case: [forall i, _]; last by [].
apply: (f_equal (fun q => Some q)); congr (_ - _).
  by apply: eq_bigr => q _; rewrite sepE h.
by rewrite -[RHS](sum_bins pi); apply: eq_bigr => i _; rewrite det_order.
Qed.

(** ** PDSBSS *)
Variables (pens pens' : 'I_Q -> spec -> R) (prox prox' : 'I_Q -> prox_t F n T).
Hypothesis hpen : forall q Z, pens' q (rY Z) = pens q Z.
Hypothesis hprox : forall q Z mu, prox' q (rY Z) mu = omap rY (prox q Z mu).
Definition rS (s : pds_state F n T Q) : pds_state F n T Q := PdsState (rW (demix_filter s)) (fun q => rY (dual s q)).
(** the matrix whose proximal point is taken is invertible *)
Definition pds_regular mu1 mu2 X (s : pds_state F n T Q) : Prop := forall i,
  demix_filter s i - c (mu1 * mu2) *: ((\sum_q dual s q i) *m (X i)^H) \in unitmx.
Lemma pds_order mu1 mu2 alpha X s : (0 < mu1)%coqR -> pds_regular mu1 mu2 X s ->
  pds_update svd2 mu1 mu2 alpha prox' (rX X) (rS s) = omap rS (pds_update svd1 mu1 mu2 alpha prox X s).
Proof.
move=> m1 reg; rewrite /pds_update [demix_filter (rS s)]/= [dual (rS s)]/=.
have -> : (fun i => (\sum_q rY (dual s q) i) *m (rX X i)^H) = rW (fun i => (\sum_q dual s q i) *m (X i)^H).
  by apply: functional_extensionality => i; exact: cross_order.
rewrite -rW_scale -rW_sub logdet_order //.
case: (neg_logdet _ _ _) => [V|]; last by [].
rewrite [omap _ (Some V)]/=; cbv iota; case: (_ || _); first by [].
rewrite -rW_scale -rW_sub sepE.
rewrite (for_all_in_order (f := fun q => prox q (addT (dual s q) (separate X (subW (scaleW 2 V) (demix_filter s)))) (1 / mu2))); last first.
  by move=> q; rewrite -rY_add hprox.
case: (for_all_in _) => [Z|]; last by [].
rewrite [omap _ (Some Z)]/=; cbv iota; apply: (f_equal (fun q => Some q)); rewrite /rS /= rW_add !rW_scale; congr PdsState.
by apply: functional_extensionality => q; rewrite rY_add !rY_scale rY_sub rY_add.
Qed.
(** C92: runs *)
Theorem C92_run mu1 mu2 alpha X k s : (0 < mu1)%coqR ->
  along (pds_regular mu1 mu2 X) (pds_update svd1 mu1 mu2 alpha prox X) k s ->
  pds_rec svd2 (Some pens') prox' mu1 mu2 alpha (rX X) k (rS s) =
  omap (fun p => (rS p.1, p.2)) (pds_rec svd1 (Some pens) prox mu1 mu2 alpha X k s).
Proof.
move=> m1 al.
have [||E' [_ e]] := recorded_tw (tw := fun _ : unit => rS) (good := fun _ => True)
  (step' := pds_update svd2 mu1 mu2 alpha prox' (rX X)) (loss' := fun s => compute_loss (Some pens') (rX X) (demix_filter s))
  (loss := fun s => compute_loss (Some pens) X (demix_filter s)) _ _ (E := tt) I al; last exact: e.
- by move=> E u _ ru; exists tt; split=> //; exact: pds_order.
- by move=> E u _; exact: loss_order.
Qed.
End Order.

(** microphones, bins and frames in another order *)
Definition reorder F n T (pn : {perm 'I_n}) (pi : {perm 'I_F}) (pj : {perm 'I_T}) (Y : 'I_F -> 'M[Cx]_(n, T)) : 'I_F -> 'M[Cx]_(n, T) :=
  fun i => \matrix_(s, t) Y (pi i) (pn s) (pj t).
Section Calls.
Variables (svd1 svd2 : svd_t) (F n T Q : nat).
Notation spec := ('I_F -> 'M[Cx]_(n, T)).
Hypotheses (s1 : svd_contract svd1) (s2 : svd_contract svd2).
Variables (pn : {perm 'I_n}) (pi : {perm 'I_F}) (pj : {perm 'I_T}).
Notation P := (fun _ : 'I_F => perm_mx pn : 'M[Cx]_n).
Notation rY := (reorder pn pi pj).
Lemma oP (i : 'I_F) : P i *m (P i)^H = 1%:M. Proof. exact: (permH pn).2. Qed.
Lemma rX_perm (X : spec) : rX pi pj P X = rY X.
Proof.
apply: functional_extensionality => i; rewrite rXE -row_permE; by apply/matrixP => a t; rewrite !mxE.
Qed.
Lemma rW_eyes : rW pn pi P (@eyes F n) = @eyes F n.
Proof. by apply: functional_extensionality => i; rewrite (rWE (A := P) pn pi oP) /eyes mulmx1 permH. Qed.
Lemma hr_perm (r : 'I_n) i : row r (P i) = 1 *: delta_mx 0 (pn r).
Proof. by apply/rowP => b; rewrite !mxE mul1r eq_sym. Qed.
Variables (pens pens' : 'I_Q -> spec -> R) (prox prox' : 'I_Q -> prox_t F n T).
Hypothesis hpen : forall q Z, pens' q (rY Z) = pens q Z.
Hypothesis hprox : forall q Z mu, prox' q (rY Z) mu = omap rY (prox q Z mu).
(** C92: calls return the same sources in the order of the microphones, at the same reference
    microphone, and the same losses *)
Theorem C92_call mu1 mu2 alpha (X : spec) r k : (0 < mu1)%coqR ->
  along (pds_regular mu1 mu2 X) (pds_update svd1 mu1 mu2 alpha prox X) k (pds_init F n T Q) ->
  pds_call svd2 (Some pens') prox' mu1 mu2 alpha (rY X) r k =
  omap (fun o => (rY o.1, o.2)) (pds_call svd1 (Some pens) prox mu1 mu2 alpha X (pn r) k).
Proof.
move=> m1 al; rewrite /pds_call -rX_perm.
have {1}-> : pds_init F n T Q = rS pn pi pj P (pds_init F n T Q).
  rewrite /rS /pds_init /= -[fun _ => 1%:M]/(@eyes F n) rW_eyes; congr PdsState.
  by apply: functional_extensionality => q; apply: functional_extensionality => i; apply/matrixP => a t; rewrite !mxE.
rewrite (C92_run (A := P) s1 s2 oP hpen hprox m1 al).
case: (pds_rec _ _ _ _ _ _ _ _ _) => [[s ls]|]; last by [].
rewrite /restored [omap _ (Some (s, ls))]/=; cbv iota beta; rewrite [demix_filter (rS _ _ _ _ _)]/=.
rewrite (restore_order pn pi pj (uA (A := P) oP) X (demix_filter s) (hr_perm r)).
case: (restore_f X (pn r) _) => [Y|]; last by [].
apply: (f_equal (fun q => Some q)); rewrite /=; congr (_, _).
by apply: functional_extensionality => i; rewrite scale1r.
Qed.
End Calls.

(** C92: the library's operators and penalties, and masks, do not depend on the order *)
Section Operators.
Variables (F n T : nat) (pn : {perm 'I_n}) (pi : {perm 'I_F}) (pj : {perm 'I_T}).
Notation spec := ('I_F -> 'M[Cx]_(n, T)).
Notation rY := (reorder pn pi pj).
Lemma eq_all_perm (I : finType) (p : {perm I}) (f f' : pred I) : (forall i, f' i = f (p i)) -> [forall i, f' i] = [forall i, f i].
Proof.
move=> E; apply/forallP/forallP => h i; last by rewrite E.
by have := h ((p^-1)%g i); rewrite E permKV.
Qed.
Theorem C92_l1 (Z : spec) mu : prox_l1_array (rY Z) mu = omap rY (prox_l1_array Z mu) /\ pen_l1 (rY Z) = pen_l1 Z.
Proof.
split.
  rewrite /prox_l1_array.
  have -> : [forall i, [forall a, [forall t, prox_l1 (rY Z i a t) mu != None]]] = [forall i, [forall a, [forall t, prox_l1 (Z i a t) mu != None]]].
    apply: (eq_all_perm (p := pi)) => i; apply: (eq_all_perm (p := pn)) => a; apply: (eq_all_perm (p := pj)) => t; by rewrite mxE.
  case: [forall i, _]; last by [].
  by apply: (f_equal (fun q => Some q)); apply: functional_extensionality => i; apply/matrixP => a t; rewrite !mxE.
rewrite /pen_l1 [RHS](reindex_inj (@perm_inj _ pi)); apply: eq_bigr => i _.
rewrite [RHS](reindex_inj (@perm_inj _ pn)); apply: eq_bigr => a _.
by rewrite [RHS](reindex_inj (@perm_inj _ pj)); apply: eq_bigr => t _; rewrite mxE.
Qed.
Lemma norm2_order (Z : spec) a t : norm2 (\row_i rY Z i a t) = norm2 (\row_i Z i (pn a) (pj t)).
Proof.
rewrite /norm2; apply: f_equal; rewrite [RHS](reindex_inj (@perm_inj _ pi)); apply: eq_bigr => i _; by rewrite !mxE.
Qed.
Theorem C92_l21 (Z : spec) mu : prox_l21_array (rY Z) mu = omap rY (prox_l21_array Z mu) /\ pen_l21 (rY Z) = pen_l21 Z.
Proof.
split.
  rewrite /prox_l21_array.
  have -> : [forall a, [forall t, prox_l21 (\row_i rY Z i a t) mu != None]] = [forall a, [forall t, prox_l21 (\row_i Z i a t) mu != None]].
    apply: (eq_all_perm (p := pn)) => a; apply: (eq_all_perm (p := pj)) => t; rewrite /prox_l21 norm2_order; by case: (shrink _ _).
  case: [forall a, _]; last by [].
  apply: (f_equal (fun q => Some q)); apply: functional_extensionality => i; apply/matrixP => a t; rewrite ![_ a t]mxE /prox_l21 norm2_order [RHS]mxE.
  by case: (shrink _ _) => [x|]; rewrite /= !mxE.
rewrite /pen_l21 [RHS](reindex_inj (@perm_inj _ pn)); apply: eq_bigr => a _.
rewrite [RHS](reindex_inj (@perm_inj _ pj)); apply: eq_bigr => t _.
apply: f_equal; rewrite [RHS](reindex_inj (@perm_inj _ pi)); apply: eq_bigr => i _; by rewrite mxE.
Qed.
Theorem C92_mask (m m' : spec -> spec) Z mu : m' (rY Z) = rY (m Z) -> prox_of_mask m' (rY Z) mu = omap rY (prox_of_mask m Z mu).
Proof.
by move=> h; apply: (f_equal (fun q => Some q)); apply: functional_extensionality => i; apply/matrixP => a t; rewrite !mxE h !mxE.
Qed.
End Operators.
Lemma reorder1 F n T (X : 'I_F -> 'M[Cx]_(n, T)) : reorder 1%g 1%g 1%g X = X.
Proof. by apply: functional_extensionality => i; apply/matrixP => a t; rewrite mxE !perm1. Qed.
(** C92: the routine that computes singular vectors does not matter *)
Theorem C92_routines F n T Q (svd1 svd2 : svd_t) (pens : 'I_Q -> ('I_F -> 'M[Cx]_(n, T)) -> R) (prox : 'I_Q -> prox_t F n T) mu1 mu2 alpha X r k :
  svd_contract svd1 -> svd_contract svd2 -> (0 < mu1)%coqR ->
  along (pds_regular mu1 mu2 X) (pds_update svd1 mu1 mu2 alpha prox X) k (pds_init F n T Q) ->
  pds_call svd2 (Some pens) prox mu1 mu2 alpha X r k = pds_call svd1 (Some pens) prox mu1 mu2 alpha X r k.
Proof.
move=> s1 s2 m1 al.
have idE A (o : option A) (f : A -> A) : (forall x, f x = x) -> omap f o = o by move=> h; case: o => //= x; rewrite h.
have := C92_call (pn := 1%g) (pi := 1%g) (pj := 1%g) (pens := pens) (pens' := pens) (prox := prox) (prox' := prox) s1 s2 _ _ r m1 al.
rewrite reorder1 perm1 idE; last by case=> Y ls; rewrite /= reorder1.
by apply=> [q Z|q Z mu]; rewrite reorder1 // idE // => Y; rewrite reorder1.
Qed.
(** C92: at a singular matrix the result does depend on the routine *)
Definition flip_zero (svd : svd_t) : svd_t := fun n X => if X == 0 then ((- 1%:M), 0, 1%:M) else svd n X.
Lemma flip_zero_contract svd : svd_contract svd -> svd_contract (flip_zero svd).
Proof.
move=> h n X; rewrite /flip_zero; case: eqP => [->|_]; last exact: h.
split=> /=; [by rewrite ctrN ctr1 mulmxN mulNmx opprK mulmx1|by rewrite ctr1 mulmx1|by move=> i; rewrite mxE; apply: Rle_refl|].
have -> : rdiag (0 : 'rV[R]_n) = 0 by apply/matrixP => a b; rewrite !mxE c0 mul0rn.
by rewrite mulmx0 mul0mx.
Qed.
Definition plain_zero (svd : svd_t) : svd_t := fun n X => if X == 0 then (1%:M, 0, 1%:M) else svd n X.
Lemma plain_zero_contract svd : svd_contract svd -> svd_contract (plain_zero svd).
Proof.
move=> h n X; rewrite /plain_zero; case: eqP => [->|_]; last exact: h.
split=> /=; [by rewrite ctr1 mulmx1|by rewrite ctr1 mulmx1|by move=> i; rewrite mxE; apply: Rle_refl|].
have -> : rdiag (0 : 'rV[R]_n) = 0 by apply/matrixP => a b; rewrite !mxE c0 mul0rn.
by rewrite mulmx0 mul0mx.
Qed.
Lemma logdet_zero (svd : svd_t) n (u : Cx) mu : (0 < mu)%coqR -> svd n 0 = (u%:M, 0, 1%:M) ->
  prox_neg_logdet svd (0 : 'M[Cx]_n) mu = Some (u * c (R_sqrt.sqrt mu))%:M.
Proof.
move=> m0 e; rewrite /prox_neg_logdet e.
have pE : prox_neg_log 0 mu = Some (R_sqrt.sqrt mu).
  rewrite /prox_neg_log; case: RlebP => [_|]; last by move=> h; exfalso; apply: h; exact: Rle_refl.
  case: RlebP => [_|h]; last by exfalso; apply: h; lra.
  apply: (f_equal (fun q => Some q)).
  have -> : (0 ^ 2 + 4 * mu = 2 ^ 2 * mu)%coqR by Rr.
  rewrite R_sqrt.sqrt_mult; [|lra|lra]; rewrite sqrt_pow2; lra.
have -> : [forall i, prox_neg_log ((0 : 'rV[R]_n) 0 i) mu != None] by apply/forallP => i; rewrite mxE pE.
apply: (f_equal (fun q => Some q)); rewrite mulmx1 mul_scalar_mx; apply/matrixP => a b; rewrite !mxE pE /=.
by rewrite -mulrnAr.
Qed.
Theorem C92_singular_refuted : exists svd1 svd2 : svd_t, [/\ svd_contract svd1, svd_contract svd2 &
  prox_neg_logdet svd1 (0 : 'M[Cx]_1) 1%coqR <> prox_neg_logdet svd2 (0 : 'M[Cx]_1) 1%coqR].
Proof.
have [svd h] := svd_contract_sat; exists (plain_zero svd), (flip_zero svd); split; [exact: plain_zero_contract|exact: flip_zero_contract|].
rewrite (@logdet_zero (plain_zero svd) _ 1); [|lra|by rewrite /plain_zero eqxx].
rewrite (@logdet_zero (flip_zero svd) _ (-1)); [|lra|by rewrite /flip_zero eqxx raddfN].
rewrite sqrt_1 c1 !mulr1 => -[] /matrixP /(_ 0 0); rewrite !mxE !mulr1n => /eqP; rewrite -subr_eq0 opprK.
by rewrite -mulr2n pnatr_eq0.
Qed.
(** from the default start the first update is regular, for every recording *)
Example C92_instance F n T Q (svd : svd_t) mu1 mu2 alpha (prox : 'I_Q -> prox_t F n T) X :
  along (pds_regular mu1 mu2 X) (pds_update svd mu1 mu2 alpha prox X) 1 (pds_init F n T Q).
Proof. by split=> // i; rewrite /= big1 // mul0mx scaler0 subr0 unitmx1. Qed.

(** * ADMMBSS *)
Section Admm.
Variables (F n T Q : nat).
Notation spec := ('I_F -> 'M[Cx]_(n, T)).
Notation filt := ('I_F -> 'M[Cx]_n).
(** C93: an update does not read the demixing filters it replaces: filters handed over by the
    user have no effect on a run of at least one iteration *)
Theorem C93_filter_ignored (svd : svd_t) rho alpha (prox : 'I_Q -> prox_t F n T) (X : spec) k (W W' V Y : filt) (Vt Yt : 'I_Q -> spec) :
  admm_run svd rho alpha prox X k.+1 (AdmmState W V Vt Y Yt) = admm_run svd rho alpha prox X k.+1 (AdmmState W' V Vt Y Yt).
Proof. by []. Qed.
Lemma admm_filter0 (X : 'M[Cx]_(n, T)) : admm_filter X 0 (fun _ : 'I_Q => 0) = Some 0.
Proof. by rewrite admm_filter_def big1 // mul0mx addr0 mulmx0. Qed.
(** C93: from the default start the first update returns zero filters, for every recording *)
Theorem C93_first (svd : svd_t) rho alpha (prox : 'I_Q -> prox_t F n T) (X : spec) (W : filt) s' :
  admm_update svd rho alpha prox X (AdmmState W (fun _ => 0) (fun _ _ => 0) (fun _ => 0) (fun _ _ => 0)) = Some s' ->
  forall i, a_filter s' i = 0 /\ separate X (a_filter s') i = 0.
Proof.
rewrite /admm_update /=; case E: (for_all _) => [V|//]; case: (_ || _) => //.
case: (neg_logdet _ _ _) => // V'; case: (for_all_in _) => // Vt [<-] i /=.
rewrite /separate; suff -> : V i = 0 by rewrite mul0mx.
move: E; rewrite /for_all; case: forallP => // _ [<-]; rewrite subrr.
have -> : (fun _ : 'I_Q => 0 - 0) = (fun _ : 'I_Q => (0 : 'M[Cx]_(n, T))) by apply: functional_extensionality => q; rewrite subrr.
by rewrite admm_filter0.
Qed.
End Admm.
(** C93: so the loss recorded after it is not finite, and a call with [n_iter=1] and projection back
    fails, for every recording *)
Theorem C93_first_loss F n T Q (svd : svd_t) rho alpha (pens : option ('I_Q -> ('I_F.+1 -> 'M[Cx]_(n.+1, T)) -> R)) (prox : 'I_Q -> prox_t F.+1 n.+1 T) X s' :
  admm_update svd rho alpha prox X (admm_init F.+1 n.+1 T Q) = Some s' -> compute_loss pens X (a_filter s') = None.
Proof.
move=> /C93_first h; rewrite /compute_loss; case: pens => // p; case: forallP => // /(_ 0).
by have [-> _] := h 0; rewrite det0 eqxx.
Qed.
Theorem C93_one_iteration F n T Q (svd : svd_t) rho alpha (prox : 'I_Q -> prox_t F.+1 n.+1 T) X r :
  admm_call svd prox rho alpha X r 1 = None.
Proof.
rewrite /admm_call /=; case E: (admm_update _ _ _ _ _ _) => [s'|//].
apply: (@all_bins_fail _ _ _ _ 0); have [-> _] := C93_first E 0.
by rewrite /apply_pb /pb_filter /np_inv unitmxE det0 unitr0.
Qed.

Section AdmmOrder.
Variables (svd1 svd2 : svd_t) (F n T Q : nat).
Notation spec := ('I_F -> 'M[Cx]_(n, T)).
Notation filt := ('I_F -> 'M[Cx]_n).
Hypotheses (s1 : svd_contract svd1) (s2 : svd_contract svd2).
(** the singular vectors of the zero matrix, which every run meets, are the unit vectors *)
Hypotheses (z1 : svd1 (0 : 'M[Cx]_n) = (1%:M, 0, 1%:M)) (z2 : svd2 (0 : 'M[Cx]_n) = (1%:M, 0, 1%:M)).
Variables (pn : {perm 'I_n}) (pi : {perm 'I_F}) (pj : {perm 'I_T}).
Notation Pm := (perm_mx pn : 'M[Cx]_n).
Notation P := (fun _ : 'I_F => Pm).
Notation rY := (reorder pn pi pj).
Notation rX := (rX pi pj P).
Notation rW := (rW pn pi P).
Let o : forall i : 'I_F, P i *m (P i)^H = 1%:M := oP pn.
Lemma perm_trH : Pm^T = Pm^H.
Proof. by apply/matrixP => a b; rewrite ctrE !mxE conjC_nat. Qed.
Lemma inv_perm (G : 'M[Cx]_n) : G \in unitmx -> invmx (Pm *m G *m Pm^H) = Pm *m invmx G *m Pm^H.
Proof.
move=> uG; have [h1 h2] := permH pn.
have u : Pm *m G *m Pm^H \in unitmx by rewrite !unitmx_mul uG; case/mulmx1_unit: h2 => -> ->.
apply: (can_inj (mulKmx u)); rewrite mulmxV //.
by rewrite !mulmxA -(mulmxA _ Pm^H) h1 mulmx1 -(mulmxA Pm) mulmxV // mulmx1.
Qed.
Lemma rWP (W : filt) i : rW W i = Pm *m W (pi i) *m Pm^H.
Proof. exact: (rWE (A := P) pn pi o). Qed.
Lemma admm_filter_order (X : spec) (VY : filt) (VYt : 'I_Q -> spec) i :
  admm_filter (rX X i) (rW VY i) (fun q => rY (VYt q) i) =
  omap (fun W => Pm *m W *m Pm^H) (admm_filter (X (pi i)) (VY (pi i)) (fun q => VYt q (pi i))).
Proof.
rewrite !admm_filter_def; apply: (f_equal (fun q => Some q)).
have [h1 h2] := permH pn.
rewrite (cross_order (A := P) pn pi pj o VYt X i) !rWP rXE ctrM mulmxA -(mulmxA Pm) frames_gram.
set G := X (pi i) *m (X (pi i))^H.
have -> : (Q%:R *: (Pm *m G *m Pm^H) + 1%:M)^T = Pm *m (Q%:R *: G + 1%:M)^T *m Pm^H.
  have trD (M N : 'M[Cx]_n) : (M + N)^T = M^T + N^T by rewrite raddfD.
  rewrite !trD trmx1 mulmxDr mulmxDl mulmx1 h2; congr (_ + _).
  have trZ (M : 'M[Cx]_n) : (Q%:R *: M)^T = Q%:R *: M^T by rewrite linearZ.
  by rewrite !trZ -scalemxAr -scalemxAl; congr (_ *: _); rewrite !trmx_mul perm_trH -perm_trH trmxK mulmxA.
rewrite inv_perm ?unitmx_tr ?gram_unit //.
by rewrite -mulmxDl -mulmxDr !mulmxA -(mulmxA _ Pm^H Pm) h1 mulmx1 -!mulmxA.
Qed.
Lemma logdet_order0 (W : filt) mu : (0 < mu)%coqR -> (forall i, W i \in unitmx \/ W i = 0) ->
  neg_logdet svd2 (rW W) mu = omap rW (neg_logdet svd1 W mu).
Proof.
move=> m0 uW; have [h1 h2] := permH pn.
rewrite /neg_logdet (for_all_move (pi := pi) (f := fun i => prox_neg_logdet svd1 (W i) mu) (h := fun i Z => Pm *m Z *m Pm^H)).
  case: (for_all _) => [V|//]; apply: (f_equal (fun q => Some q)); apply: functional_extensionality => i; by rewrite rWP.
move=> i; rewrite rWP; case: (uW (pi i)) => [u|->]; first by apply: logdet_rel => //; rewrite mulmx1C.
rewrite mulmx0 mul0mx (logdet_zero m0 z2) (logdet_zero m0 z1) /=.
by rewrite scalar_mxC -mulmxA h2 mulmx1.
Qed.
Variables (prox prox' : 'I_Q -> prox_t F n T).
Hypothesis hprox : forall q Z mu, prox' q (rY Z) mu = omap rY (prox q Z mu).
Definition rA (s : admm_state F n T Q) : admm_state F n T Q :=
  AdmmState (rW (a_filter s)) (rW (auxiliary1 s)) (fun q => rY (auxiliary2 s q)) (rW (dual1 s)) (fun q => rY (dual2 s q)).
(** the matrix whose proximal point is taken is invertible or zero *)
Definition admm_regular alpha (X : spec) (s : admm_state F n T Q) : Prop := forall W i,
  for_all (fun i => admm_filter (X i) (auxiliary1 s i - dual1 s i) (fun q => auxiliary2 s q i - dual2 s q i)) = Some W ->
  let M := c alpha *: W i + c (1 - alpha) *: auxiliary1 s i + dual1 s i in M \in unitmx \/ M = 0.
Lemma admm_order rho alpha X s : (0 < rho)%coqR -> admm_regular alpha X s ->
  admm_update svd2 rho alpha prox' (rX X) (rA s) = omap rA (admm_update svd1 rho alpha prox X s).
Proof.
move=> r0 reg; rewrite /admm_update [auxiliary1 (rA s)]/= [auxiliary2 (rA s)]/= [dual1 (rA s)]/= [dual2 (rA s)]/=.
rewrite (for_all_move (pi := pi) (f := fun i => admm_filter (X i) (auxiliary1 s i - dual1 s i) (fun q => auxiliary2 s q i - dual2 s q i)) (h := fun i Z => Pm *m Z *m Pm^H)); last first.
  move=> i; rewrite -(admm_filter_order X (subW (auxiliary1 s) (dual1 s)) (fun q => subT (auxiliary2 s q) (dual2 s q))); congr admm_filter.
    by rewrite (rW_sub (A := P) pn pi o).
  by apply: functional_extensionality => q; rewrite -[RHS]/(Prop_GradRun.rY pn pi pj _ _) rY_sub.
case eW: (for_all _) => [W|]; last by [].
rewrite [omap _ (Some W)]/=; cbv iota.
have -> : (fun i => Pm *m W (pi i) *m Pm^H) = rW W by apply: functional_extensionality => i; rewrite rWP.
case: (_ || _); first by [].
have i0 : (0 < (1 / rho)%R)%coqR by rewrite div1r; apply/RltP; rewrite invr_gt0; apply/RltP.
rewrite -!(rW_scale (A := P) pn pi o) -!(rW_add (A := P) pn pi o) logdet_order0 //; last by move=> i; exact: reg eW.
case: (neg_logdet _ _ _) => [V|]; last by [].
rewrite [omap _ (Some V)]/=; cbv iota; rewrite (sepE (A := P) pn pi pj o).
rewrite (for_all_in_order (pn := pn) (pi := pi) (pj := pj) (f := fun q => prox q (addT (addT (scaleT alpha (separate X W)) (scaleT (1 - alpha) (auxiliary2 s q))) (dual2 s q)) (1 / rho))); last first.
  by move=> q; rewrite -!rY_scale -!rY_add; exact: hprox.
case: (for_all_in _) => [Z|]; last by [].
rewrite [omap _ (Some Z)]/=; cbv iota; apply: (f_equal (fun q => Some q)); rewrite /rA /=.
rewrite -(rW_sub (A := P) pn pi o); congr AdmmState.
apply: functional_extensionality => q; change (reorder pn pi pj) with (Prop_GradRun.rY pn pi pj).
by rewrite -!rY_scale -!rY_add -!rY_sub.
Qed.
(** C93: runs *)
Theorem C93_run rho alpha X k s : (0 < rho)%coqR -> along (admm_regular alpha X) (admm_update svd1 rho alpha prox X) k s ->
  admm_run svd2 rho alpha prox' (rX X) k (rA s) = omap rA (admm_run svd1 rho alpha prox X k s).
Proof.
move=> r0; elim: k s => [|k IH] s //= [reg al]; rewrite admm_order //.
by case: (admm_update _ _ _ _ _ _) al => [s'|//] /= /(_ _ erefl) /IH.
Qed.
(** C93: calls *)
Theorem C93_call rho alpha X r k : (0 < rho)%coqR ->
  along (admm_regular alpha X) (admm_update svd1 rho alpha prox X) k (admm_init F n T Q) ->
  admm_call svd2 prox' rho alpha (rY X) r k = omap rY (admm_call svd1 prox rho alpha X (pn r) k).
Proof.
move=> r0 al; rewrite /admm_call -rX_perm.
have {1}-> : admm_init F n T Q = rA (admm_init F n T Q).
  have z : rW (fun _ => 0) = fun _ => 0 by apply: functional_extensionality => i; rewrite rWP mulmx0 mul0mx.
  have zY : rY (fun _ => 0) = fun _ => 0 by apply: functional_extensionality => i; apply/matrixP => a t; rewrite !mxE.
  by rewrite /rA /admm_init /= z zY -[fun _ => 1%:M]/(@eyes F n) rW_eyes.
rewrite C93_run //; case: (admm_run _ _ _ _ _ _ _) => [s|]; last by [].
rewrite [omap _ (Some s)]/=; cbv iota beta; rewrite [a_filter (rA _)]/=.
rewrite (restore_order pn pi pj (uA (A := P) o) X (a_filter s) (hr_perm pn r)).
case: (restore_f X (pn r) _) => [Y|]; last by [].
apply: (f_equal (fun q => Some q)); by apply: functional_extensionality => i; rewrite scale1r.
Qed.
End AdmmOrder.

(** C93: the routine that computes singular vectors does not matter, as long as those of the zero
    matrix are the unit vectors *)
Theorem C93_routines F n T Q (svd1 svd2 : svd_t) (prox : 'I_Q -> prox_t F n T) rho alpha X r k :
  svd_contract svd1 -> svd_contract svd2 -> svd1 n 0 = (1%:M, 0, 1%:M) -> svd2 n 0 = (1%:M, 0, 1%:M) -> (0 < rho)%coqR ->
  along (admm_regular alpha X) (admm_update svd1 rho alpha prox X) k (admm_init F n T Q) ->
  admm_call svd2 prox rho alpha X r k = admm_call svd1 prox rho alpha X r k.
Proof.
move=> s1 s2 z1 z2 r0 al.
have idE A (o : option A) (f : A -> A) : (forall x, f x = x) -> omap f o = o by move=> h; case: o => //= x; rewrite h.
have := C93_call (pn := 1%g) (pi := 1%g) (pj := 1%g) (prox := prox) (prox' := prox) s1 s2 z1 z2 _ r r0 al.
rewrite reorder1 perm1 idE; last by move=> Y; rewrite reorder1.
by apply=> q Z mu; rewrite reorder1 // idE // => Y; rewrite reorder1.
Qed.
Section TwoUpdates.
Variables (F n T Q : nat) (svd : svd_t) (rho alpha : R) (prox : 'I_Q.+1 -> prox_t F n T) (X : 'I_F -> 'M[Cx]_(n, T)) (u : Cx).
Hypotheses (r0 : (0 < rho)%coqR) (zs : svd (0 : 'M[Cx]_n) = (u%:M, 0, 1%:M)).
Hypothesis pz : forall q mu, (0 < mu)%coqR -> prox q (fun _ => 0) mu = Some (fun _ => 0).
Let v : 'M[Cx]_n := (u * c (R_sqrt.sqrt (1 / rho)%R))%:M.
Lemma first_update : admm_update svd rho alpha prox X (admm_init F n T Q.+1) =
  Some (AdmmState (fun _ => 0) (fun _ => v) (fun _ _ => 0) (fun _ => - v) (fun _ _ => 0)).
Proof.
have i0 : (0 < (1 / rho)%R)%coqR by rewrite div1r; apply/RltP; rewrite invr_gt0; apply/RltP.
rewrite /admm_update /=.
have -> : for_all (fun i => admm_filter (X i) (0 - 0) (fun _ : 'I_Q.+1 => 0 - 0)) = Some (fun _ => 0).
  have e i : admm_filter (X i) (0 - 0) (fun _ : 'I_Q.+1 => 0 - 0) = Some 0.
    have -> : (fun _ : 'I_Q.+1 => 0 - 0) = (fun _ => (0 : 'M[Cx]_(n, T))) by apply: functional_extensionality => q; rewrite subrr.
    by rewrite subrr admm_filter0.
  rewrite /for_all; case: forallP => [_|[]]; last by move=> i; rewrite e.
  by apply: (f_equal (fun q => Some q)); apply: functional_extensionality => i; rewrite e.
have -> : (rho == 0) || false = false by rewrite orbF; apply/eqP; rewrite -R0E; lra.
have aW (a b : R) : addW (addW (scaleW a (fun _ : 'I_F => (0 : 'M[Cx]_n))) (scaleW b (fun _ => 0))) (fun _ => 0) = fun _ => 0.
  by apply: functional_extensionality => i; rewrite /addW /scaleW !scaler0 !addr0.
have aT (a b : R) : addT (addT (scaleT a (separate X (fun _ => 0))) (scaleT b (fun _ => 0))) (fun _ => 0) = fun _ => 0.
  by apply: functional_extensionality => i; rewrite /addT /scaleT /separate mul0mx !scaler0 !addr0.
rewrite aW.
have -> : neg_logdet svd (fun _ : 'I_F => 0) (1 / rho)%R = Some (fun _ => v).
  rewrite /neg_logdet /for_all; under eq_forallb do rewrite (logdet_zero i0 zs).
  case: forallP => [_|[]//]; by rewrite (logdet_zero i0 zs).
have -> : for_all_in (fun q : 'I_Q.+1 => prox q (addT (addT (scaleT alpha (separate X (fun _ => 0))) (scaleT (1 - alpha) (fun _ => 0))) (fun _ => 0)) (1 / rho)) = Some (fun _ _ => 0).
  rewrite /for_all_in; under eq_forallb do rewrite aT pz //.
  case: forallP => [_|[]//]; apply: (f_equal (fun q => Some q)); by apply: functional_extensionality => q; rewrite aT pz.
apply: (f_equal (fun q => Some q)); congr AdmmState.
  by apply: functional_extensionality => i; rewrite /subW /addW /scaleW !scaler0 !addr0 sub0r.
apply: functional_extensionality => q; apply: functional_extensionality => i.
by rewrite /subT /addT /scaleT /separate mul0mx !scaler0 !addr0 subr0.
Qed.
Lemma second_filter i : admm_filter (X i) (v - - v) (fun _ : 'I_Q.+1 => 0 - 0) = Some (invmx (Q.+1%:R *: (X i *m (X i)^H) + 1%:M)^T *m (v + v)).
Proof.
rewrite admm_filter_def big1 ?mul0mx ?addr0 ?opprK // => q _; by rewrite subrr.
Qed.
End TwoUpdates.
Lemma filter_of F n T Q (svd : svd_t) rho alpha (prox : 'I_Q -> prox_t F n T) X s s' i : admm_update svd rho alpha prox X s = Some s' ->
  admm_filter (X i) (auxiliary1 s i - dual1 s i) (fun q => auxiliary2 s q i - dual2 s q i) = Some (a_filter s' i).
Proof.
rewrite /admm_update; case E: (for_all _) => [W|//]; case: (_ || _) => //; case: (neg_logdet _ _ _) => // V.
case: (for_all_in _) => // Z [<-] /=; move: E; rewrite /for_all; case: forallP => // /(_ i) h [<-]; by case: (admm_filter _ _ _) h.
Qed.
Lemma l1_zero F n T mu : (0 < mu)%coqR -> @prox_l1_array F n T (fun _ => 0) mu = Some (fun _ => 0).
Proof.
move=> m0; have e : prox_l1 0 mu = Some 0.
  rewrite /prox_l1 /shrink cabs0; case: RltbP => [_|[]]; last exact: m0.
  have /eqP/negbTE -> : mu <> 0 by apply: Rgt_not_eq.
  by rewrite /= mulr0.
rewrite /prox_l1_array; case: forallP => [_|[]]; last first.
  by move=> i; apply/forallP => a; apply/forallP => t; rewrite mxE e.
by apply: (f_equal (fun q => Some q)); apply: functional_extensionality => i; apply/matrixP => a t; rewrite !mxE e.
Qed.
Lemma second_of F n T Q (svd : svd_t) rho alpha (X : 'I_F -> 'M[Cx]_(n, T)) u t i : (0 < rho)%coqR -> svd n 0 = (u%:M, 0, 1%:M) ->
  admm_run svd rho alpha (fun _ : 'I_Q.+1 => @prox_l1_array F n T) X 2 (admm_init F n T Q.+1) = Some t ->
  a_filter t i = invmx (Q.+1%:R *: (X i *m (X i)^H) + 1%:M)^T *m (2%:R * (u * c (R_sqrt.sqrt (1 / rho)%R)))%:M.
Proof.
move=> r0 zs /=; rewrite (first_update alpha X r0 zs (fun _ => @l1_zero F n T)).
case e: (admm_update _ _ _ _ _ _) => [t'|//] [<-].
have := filter_of i e; rewrite [auxiliary1 _]/= [dual1 _]/= second_filter => -[<-]; congr (_ *m _).
by rewrite -raddfD /= mulr_natl mulr2n.
Qed.
(** C93: otherwise it does matter *)
Theorem C93_zero_refuted : exists (svd1 svd2 : svd_t) (X : 'I_1 -> 'M[Cx]_1) t1 t2,
  [/\ svd_contract svd1, svd_contract svd2,
      admm_run svd1 1%coqR 1%coqR (fun _ : 'I_1 => @prox_l1_array 1 1 1) X 2 (admm_init 1 1 1 1) = Some t1,
      admm_run svd2 1%coqR 1%coqR (fun _ : 'I_1 => @prox_l1_array 1 1 1) X 2 (admm_init 1 1 1 1) = Some t2 &
      a_filter t1 0 <> a_filter t2 0].
Proof.
have [svd h] := svd_contract_sat; pose X : 'I_1 -> 'M[Cx]_1 := fun _ => 1%:M.
have h1 := plain_zero_contract h; have h2 := flip_zero_contract h.
have ip (q : 'I_1) : is_prox (@pen_l1 1 1 1) (@prox_l1_array 1 1 1) := @C68_l1 1 1 1.
have l0 : (0 < 1)%coqR by lra.
have [t1 e1] := @C68_admm_defined (plain_zero svd) 1 1 1 1 h1 (fun _ => @pen_l1 1 1 1) (fun _ => @prox_l1_array 1 1 1) ip 1%coqR 1%coqR X 2 (admm_init 1 1 1 1) isT l0.
have [t2 e2] := @C68_admm_defined (flip_zero svd) 1 1 1 1 h2 (fun _ => @pen_l1 1 1 1) (fun _ => @prox_l1_array 1 1 1) ip 1%coqR 1%coqR X 2 (admm_init 1 1 1 1) isT l0.
exists (plain_zero svd), (flip_zero svd), X, t1, t2; split=> //.
rewrite (second_of 0 l0 _ e1 (u := 1)); last by rewrite /plain_zero eqxx.
rewrite (second_of 0 l0 _ e2 (u := -1)); last by rewrite /flip_zero eqxx raddfN.
have -> : (1 / 1%coqR)%R = 1%coqR by rewrite (_ : 1%coqR = 1%R) // divr1.
rewrite sqrt_1 c1 mulr1 (mulr1 (-1)).
have u : invmx (1 *: (X 0 *m (X 0)^H) + 1%:M)^T \in unitmx by rewrite unitmx_inv unitmx_tr (gram_unit (X 0) 1).
move/(can_inj (mulKmx u)) => /matrixP /(_ 0 0); rewrite !mxE !mulr1n mulrN1 => /eqP; rewrite -subr_eq0 opprK.
by rewrite mulr1 -natrD pnatr_eq0.
Qed.
(** two microphones that record one source each: the hypotheses hold for two iterations, and the
    call returns signals *)
Example C93_instance (svd : svd_t) : svd_contract svd -> svd 2%N 0 = (1%:M, 0, 1%:M) ->
  let X : 'I_1 -> 'M[Cx]_2 := fun _ => 1%:M in
  along (admm_regular 1%coqR X) (admm_update svd 1%coqR 1%coqR (fun _ : 'I_1 => @prox_l1_array 1 2 2) X) 2 (admm_init 1 2 2 1) /\
  exists Y, admm_call svd (fun _ : 'I_1 => @prox_l1_array 1 2 2) 1%coqR 1%coqR X 0 2 = Some Y.
Proof.
move=> h zs X; have l0 : (0 < 1)%coqR by lra.
have fo s W i : for_all (fun i => admm_filter (X i) (auxiliary1 s i - dual1 s i) (fun q : 'I_1 => auxiliary2 s q i - dual2 s q i)) = Some W ->
  admm_filter (X i) (auxiliary1 s i - dual1 s i) (fun q => auxiliary2 s q i - dual2 s q i) = Some (W i).
  by rewrite /for_all; case: forallP => // /(_ i) hh [<-]; case: (admm_filter _ _ _) hh.
have sq : (1 / 1%coqR)%R = 1%coqR by rewrite (_ : 1%coqR = 1%R) // divr1.
have g : invmx (1%:R *: (X 0 *m (X 0)^H) + 1%:M)^T *m (2%:R)%:M = 1%:M.
  rewrite /X mul1mx ctr1 scale1r -raddfD /= -[1 + 1]/(2%:R) tr_scalar_mx mulVmx //.
  by rewrite unitmxE det_scalar unitrX // unitfE pnatr_eq0.
split.
  split=> [W i /fo /= e|s']; first right.
    move: (e i); rewrite !subrr.
    by rewrite admm_filter0 => -[<-]; rewrite !scaler0 !addr0.
  rewrite (first_update _ X l0 zs (fun _ => @l1_zero 1 2 2)) => -[<-]; split=> // W i /fo /= e; right.
  move: (e i); rewrite second_filter => -[<-]; rewrite (ord1 i) sq sqrt_1 c1 !mulr1.
  by rewrite -raddfD /= -[1 + 1]/(2%:R) g; rewrite subrr c0 scale0r scale1r addr0 subrr.
have ip (q : 'I_1) : is_prox (@pen_l1 1 2 2) (@prox_l1_array 1 2 2) := @C68_l1 1 2 2.
have [t e] := @C68_admm_defined svd 1 2 2 1 h (fun _ => @pen_l1 1 2 2) (fun _ => @prox_l1_array 1 2 2) ip 1%coqR 1%coqR X 2 (admm_init 1 2 2 1) isT l0.
rewrite /admm_call e /restore_f.
have E : a_filter t 0 = 1%:M by rewrite (second_of 0 l0 zs e) sq sqrt_1 c1 !mulr1 g.
have [|Y -> _] := @all_bins_ex _ _ X (fun i => omap fst (apply_pb (X i) (a_filter t i) 0)) (fun _ _ => True); last by exists Y.
by move=> i; rewrite (ord1 i) E /apply_pb /pb_filter /np_inv unitmx1 /=; eexists.
Qed.
