(** Derivatives of sums, of the logarithm of a determinant, and small steps. *)
From Coq Require Import Reals Lra FunctionalExtensionality.
From mathcomp Require Import all_ssreflect all_algebra fingroup perm.
From mathcomp Require Import ring zify.
From Verif Require Import RStruct MxC CxR NpLin RealLemmas SpatialISS Gradient.
Import Order.TTheory GRing.Theory Num.Theory.
Set Implicit Arguments.
Unset Strict Implicit.
Unset Printing Implicit Defensive.
Local Open Scope ring_scope.

(** * Real functions *)
Definition deriv0 (f : R -> R) (l : R) := derivable_pt_lim f 0%coqR l.

Lemma deriv0_ext f g l l' : (forall s, f s = g s) -> l = l' -> deriv0 f l -> deriv0 g l'.
Proof. by move=> E <-; exact: derivable_pt_lim_ext. Qed.
Lemma deriv0_const a : deriv0 (fun _ => a) 0%coqR.
Proof. exact: derivable_pt_lim_const. Qed.
Lemma deriv0D f g a b : deriv0 f a -> deriv0 g b -> deriv0 (fun s => (f s + g s)%coqR) (a + b)%coqR.
Proof. exact: derivable_pt_lim_plus. Qed.
Lemma deriv0N f a : deriv0 f a -> deriv0 (fun s => (- f s)%coqR) (- a)%coqR.
Proof. exact: derivable_pt_lim_opp. Qed.
Lemma deriv0B f g a b : deriv0 f a -> deriv0 g b -> deriv0 (fun s => (f s - g s)%coqR) (a - b)%coqR.
Proof. exact: derivable_pt_lim_minus. Qed.
Lemma deriv0Z k f a : deriv0 f a -> deriv0 (fun s => (k * f s)%coqR) (k * a)%coqR.
Proof. exact: derivable_pt_lim_scal. Qed.
Lemma deriv0M f g a b : deriv0 f a -> deriv0 g b -> deriv0 (fun s => (f s * g s)%coqR) (a * g 0%coqR + f 0%coqR * b)%coqR.
Proof. exact: derivable_pt_lim_mult. Qed.
Lemma deriv0_sum I (r : seq I) (P : pred I) (f : I -> R -> R) (l : I -> R) :
  (forall i, P i -> deriv0 (f i) (l i)) -> deriv0 (fun s => \sum_(i <- r | P i) f i s) (\sum_(i <- r | P i) l i).
Proof.
move=> H; elim: r => [|i r IH].
  by apply: (@deriv0_ext (fun _ => 0%coqR) _ 0%coqR); [move=> s; rewrite big_nil|rewrite big_nil|exact: deriv0_const].
case Pi: (P i).
  by apply: (deriv0_ext _ _ (deriv0D (H i Pi) IH)) => [s|]; rewrite big_cons Pi.
by apply: (deriv0_ext _ _ IH) => [s|]; rewrite big_cons Pi.
Qed.
Lemma deriv0_comp f g a b : deriv0 f a -> derivable_pt_lim g (f 0%coqR) b -> deriv0 (fun s => g (f s)) (b * a)%coqR.
Proof. by move=> Hf Hg; apply: (derivable_pt_lim_comp f g). Qed.
(** a monomial: only the linear one has a slope at 0 *)
Lemma deriv0_pow k : deriv0 (fun s => s ^+ k) (k == 1%N)%:R.
Proof.
apply: (deriv0_ext _ _ (derivable_pt_lim_pow 0%coqR k)) => [s|]; first by rewrite RpowE.
case: k => [|[|k]]; first by rewrite /= Rmult_0_l.
  by rewrite /= Rmult_1_l.
have -> : (Nat.pred k.+2) = k.+1 by [].
by rewrite pow_ne_zero // Rmult_0_r.
Qed.

(** a function with a negative slope is smaller just after 0, one with a positive slope larger *)
Lemma deriv0_descent f l : deriv0 f l -> (l < 0)%coqR ->
  exists e0, (0 < e0)%coqR /\ forall e, (0 < e < e0)%coqR -> (f e < f 0%coqR)%coqR.
Proof.
move=> H l0; have [|d Hd] := H (- l / 2)%coqR; first by lra.
exists d; split=> [|e [e0 ed]]; first exact: cond_pos.
have {Hd} := Hd e; rewrite Rplus_0_l Rabs_right; last by lra.
move=> Hd; have {Hd} : (Rabs ((f e - f 0) / e - l) < - l / 2)%coqR by apply: Hd; lra.
move/Rabs_def2 => [h _]; have : ((f e - f 0) / e < 0)%coqR by lra.
move=> h'; have : ((f e - f 0) / e * e < 0 * e)%coqR by apply: Rmult_lt_compat_r.
set z := (_ * e)%coqR => hz.
have E : z = (f e - f 0)%coqR by rewrite /z /Rdiv Rmult_assoc Rinv_l ?Rmult_1_r //; lra.
by lra.
Qed.
(** a function that is not 0 at 0 and has a slope there is not 0 around *)
Lemma deriv0_neq0 f l : deriv0 f l -> f 0%coqR <> 0%coqR ->
  exists e0, (0 < e0)%coqR /\ forall e, (Rabs e < e0)%coqR -> f e <> 0%coqR.
Proof.
move=> H f0.
have C : continuity_pt f 0%coqR by apply: derivable_continuous_pt; exists l.
have [|a [a0 Ha]] := C (Rabs (f 0%coqR)); first exact: Rabs_pos_lt.
exists a; split=> // e ea fe.
have := Ha e; rewrite /dist /= /R_dist fe Rminus_0_l Rabs_Ropp Rminus_0_r => h.
apply: (Rlt_irrefl (Rabs (f 0%coqR))); apply: h; split=> //.
by split=> // e0; apply: f0; rewrite {1}e0.
Qed.

(** * Complex functions of a real variable, by their two parts *)
Definition cderiv0 (f : R -> Cx) (z : Cx) := deriv0 (fun s => re (f s)) (re z) /\ deriv0 (fun s => im (f s)) (im z).

Lemma imD x y : im (x + y) = im x + im y. Proof. by rewrite (mkCE x) (mkCE y) mkCD !im_mkC. Qed.
Lemma im_sum I (r : seq I) (P : pred I) (F : I -> Cx) :
  im (\sum_(i <- r | P i) F i) = \sum_(i <- r | P i) im (F i).
Proof. by apply: (big_morph im imD); rewrite -c0. Qed.
Lemma imMc x z : im (c x * z) = x * im z.
Proof. by rewrite (mkCE z) c_mkC mkCM im_mkC mul0r addr0. Qed.
Lemma reM x y : re (x * y) = re x * re y - im x * im y.
Proof. by rewrite (mkCE x) (mkCE y) mkCM re_mkC. Qed.
Lemma cabs2E z : cabs z ^+ 2 = re z ^+ 2 + im z ^+ 2.
Proof. by rewrite {1}(mkCE z) cabs_mkC. Qed.
Lemma reMconj x y : re (x^* * y) = re x * re y + im x * im y.
Proof. by rewrite (mkCE x) (mkCE y) mkC_conj mkCM !re_mkC !im_mkC mulNr opprK. Qed.

Lemma cderiv0_sum I (r : seq I) (P : pred I) (f : I -> R -> Cx) (l : I -> Cx) :
  (forall i, P i -> cderiv0 (f i) (l i)) -> cderiv0 (fun s => \sum_(i <- r | P i) f i s) (\sum_(i <- r | P i) l i).
Proof.
move=> H; split.
  by apply: (deriv0_ext _ _ (deriv0_sum r (fun i Pi => (H i Pi).1))) => [s|]; rewrite re_sum.
by apply: (deriv0_ext _ _ (deriv0_sum r (fun i Pi => (H i Pi).2))) => [s|]; rewrite im_sum.
Qed.
Lemma cderiv0_mono a k : cderiv0 (fun s => a * c s ^+ k) (if k == 1%N then a else 0).
Proof.
have E s : a * c s ^+ k = c (s ^+ k) * a by rewrite cX mulrC.
split.
  apply: (deriv0_ext _ _ (deriv0Z (re a) (deriv0_pow k))) => [s|]; first by rewrite E reMc mulrC.
  by case: (k == 1%N); rewrite ?re0; [exact: mulr1|exact: mulr0].
apply: (deriv0_ext _ _ (deriv0Z (im a) (deriv0_pow k))) => [s|]; first by rewrite E imMc mulrC.
by case: (k == 1%N); [exact: mulr1|exact: mulr0].
Qed.

(** the logarithm of the modulus *)
Lemma deriv0_ln_cabs f z : cderiv0 f z -> f 0%coqR != 0 ->
  deriv0 (fun s => ln (cabs (f s))) (re (z / f 0%coqR)).
Proof.
move=> [Hr Hi] f0.
set g := fun s => (re (f s) * re (f s) + im (f s) * im (f s))%coqR.
have gE s : g s = (cabs (f s) * cabs (f s))%coqR.
  by rewrite /g; have := cabs2E (f s); rewrite !expr2 => h; exact: esym h.
have p0 := cabs_gt0 f0.
have g0 : (0 < g 0)%coqR by rewrite gE; apply: Rmult_lt_0_compat.
have Hg := deriv0D (deriv0M Hr Hr) (deriv0M Hi Hi).
have := deriv0Z (/ 2)%coqR (deriv0_comp Hg (derivable_pt_lim_ln _ g0)).
apply: deriv0_ext => [s|].
  rewrite -/(g s) gE; case: (Req_dec (cabs (f s)) 0%coqR) => [->|nz].
    have l0 : ln 0%coqR = 0%coqR.
      by rewrite /ln; case: Rlt_dec => // h; exfalso; lra.
    by rewrite Rmult_0_l l0 Rmult_0_r.
  have p : (0 < cabs (f s))%coqR by have := cabs_ge0 (f s); lra.
  by rewrite ln_mult //; Rfield.
rewrite -/(g 0%coqR).
have -> : z / f 0%coqR = c (/ g 0)%coqR * ((f 0%coqR)^* * z).
  have -> : c (/ g 0)%coqR = (f 0%coqR * (f 0%coqR)^*)^-1.
    by rewrite RinvE; [rewrite gE cV -cabs_sqr expr2|lra].
  by rewrite invfM -mulrA mulKf ?fmorph_eq0 // mulrC.
rewrite reMc reMconj; toR; move: g0; rewrite -/(g 0%coqR); generalize (g 0%coqR) => q q0.
Rfield; lra.
Qed.

(** * The determinant *)
Lemma det_line n (A : 'M[Cx]_n) (s : R) :
  \det (1%:M + c s *: A) = \sum_(i < n.+1) ((char_poly A)`_i * (-1) ^+ (n - i)) * c s ^+ (n - i).
Proof.
have [->|s0] := eqVneq s 0.
  rewrite c0 scale0r addr0 det1 big_ord_recr /= subnn expr0 mulr1 big1 ?add0r.
    have /monicP := char_poly_monic A; rewrite /lead_coef size_char_poly /= => ->; by rewrite mulr1.
  by move=> i _; rewrite expr0n subn_eq0 leqNgt ltn_ord mulr0.
have cs : c s != 0 by rewrite c_eq0.
have -> : 1%:M + c s *: A = - c s *: ((- (c s)^-1)%:M - A).
  rewrite scalerBr scale_scalar_mx mulrNN divff // scaleNr opprK //.
rewrite detZ.
have -> : \det ((- (c s)^-1)%:M - A) = (char_poly A).[- (c s)^-1].
  rewrite /char_poly -horner_evalE -det_map_mx; congr (\det _).
  apply/matrixP=> i j; rewrite !mxE /= /horner_eval hornerD hornerN !hornerC.
  by rewrite hornerMn hornerX.
rewrite (horner_coef_wide _ (n:=n.+1)) ?size_char_poly // mulr_sumr.
apply: eq_bigr => i _; have le : (i <= n)%N by rewrite -ltnS.
rewrite -{1}(subnK le) exprD -[- (c s)^-1]invrN exprVn.
rewrite mulrCA -!mulrA; congr (_ * _).
have nz : (- c s) ^+ i != 0 by rewrite expf_neq0 // oppr_eq0.
by rewrite divff // mulr1 [LHS]exprNn.
Qed.

Lemma cderiv0_det n (W D : 'M[Cx]_n) : W \in unitmx ->
  cderiv0 (fun s => \det (W + c s *: D)) (\det W * \tr (invmx W *m D)).
Proof.
move=> uW; set A := invmx W *m D.
have E s : \det (W + c s *: D) =
   \sum_(i < n.+1) (\det W * (char_poly A)`_i * (-1) ^+ (n - i)) * c s ^+ (n - i).
  have -> : W + c s *: D = W *m (1%:M + c s *: A).
    by rewrite mulmxDr mulmx1 -scalemxAr mulKVmx.
  by rewrite det_mulmx det_line mulr_sumr; apply: eq_bigr => i _; rewrite !mulrA.
have H := @cderiv0_sum _ (index_enum [finType of 'I_n.+1]) predT _ _ (fun (i : 'I_n.+1) _ =>
   cderiv0_mono (\det W * (char_poly A)`_i * (-1) ^+ (n - i)) (n - i)).
have V : \sum_(i < n.+1) (if (n - i == 1)%N then \det W * (char_poly A)`_i * (-1) ^+ (n - i) else 0) = \det W * \tr A.
  case: n W D uW A {E H} => [|m] W D uW A.
    by rewrite big_ord1 /= /mxtrace big_ord0 mulr0.
  rewrite (bigD1 (inord m)) //= inordK // subSnn eqxx big1 ?addr0.
    by rewrite expr1 -mulrA mulrN1 -[in RHS](opprK (\tr A)) -char_poly_trace // opprK.
  move=> i /eqP ni; case: eqP => // e; case: ni; apply: val_inj => /=; rewrite inordK //.
  by have := ltn_ord i; lia.
by case: H => H1 H2; split; [apply: (deriv0_ext _ _ H1)|apply: (deriv0_ext _ _ H2)] => [s||s|]; rewrite ?E ?V.
Qed.
Lemma deriv0_logdet n (W D : 'M[Cx]_n) : W \in unitmx ->
  deriv0 (fun s => ln (cabs (\det (W + c s *: D)))) (re (\tr (invmx W *m D))).
Proof.
move=> uW; have d0 : \det W != 0 by move: uW; rewrite unitmxE unitfE.
have E0 : \det (W + c 0%coqR *: D) = \det W by rewrite c0 scale0r addr0.
have := @deriv0_ln_cabs _ _ (cderiv0_det D uW); rewrite E0 => /(_ d0).
by rewrite mulrAC divff // mul1r.
Qed.
(** the filters stay invertible along a small step *)
Lemma unit_small n (W D : 'M[Cx]_n) : W \in unitmx ->
  exists e0, (0 < e0)%coqR /\ forall e, (Rabs e < e0)%coqR -> W + c e *: D \in unitmx.
Proof.
move=> uW; have d0 : \det W != 0 by move: uW; rewrite unitmxE unitfE.
have [Hr Hi] := cderiv0_det D uW.
have := deriv0D (deriv0M Hr Hr) (deriv0M Hi Hi); move/deriv0_neq0.
have gE s : (re (\det (W + c s *: D)) * re (\det (W + c s *: D)) + im (\det (W + c s *: D)) * im (\det (W + c s *: D)))%coqR
   = cabs (\det (W + c s *: D)) ^+ 2 by rewrite cabs2E !expr2.
case=> [|e0 [p H]].
  by rewrite gE c0 scale0r addr0; apply/eqP; rewrite expf_neq0 // cabs_eq0.
exists e0; split=> // e /H; rewrite gE => /eqP; rewrite expf_eq0 /= cabs_eq0 => h.
by rewrite unitmxE unitfE.
Qed.
(** finitely many thresholds *)
Lemma small_all (F : nat) (P : 'I_F -> R -> Prop) :
  (forall i, exists e0, (0 < e0)%coqR /\ forall e, (Rabs e < e0)%coqR -> P i e) ->
  exists e0, (0 < e0)%coqR /\ forall e, (Rabs e < e0)%coqR -> forall i, P i e.
Proof.
elim: F P => [|F IH] P H; first by exists 1%coqR; split=> [|e _ [] //]; exact: Rlt_0_1.
have [e1 [p1 H1]] := IH _ (fun i => H (lift ord0 i)).
have [e2 [p2 H2]] := H ord0.
exists (Rmin e1 e2); split=> [|e em i]; first exact: Rmin_pos.
have h1 := Rmin_l e1 e2; have h2 := Rmin_r e1 e2.
case: (unliftP ord0 i) => [j|] ->; [apply: H1|apply: H2]; lra.
Qed.

(** * Slope of a loss along a line, over the reals or the complex numbers *)
Lemma deriv0_local f g l (e0 : R) : (0 < e0)%coqR -> (forall e, (Rabs e < e0)%coqR -> f e = g e) -> deriv0 f l -> deriv0 g l.
Proof.
move=> p E; apply: (@derivable_pt_lim_locally_ext f g 0%coqR (- e0) e0); first by lra.
by move=> z hz; apply: E; apply: Rabs_def1; lra.
Qed.

Lemma sumR_eq0 (I : finType) (f : I -> R) : (forall i, (0 <= f i)%coqR) -> \sum_i f i = 0 -> forall i, f i = 0.
Proof. by move=> p z i; apply: (psumr_eq0P _ z) => // j _; apply/RleP. Qed.
Section Pairing.
Variables (K : fieldType) (cj : {rmorphism K -> K}).
Hypothesis cjK : involutive cj.
Local Notation h M := (map_mx cj M)^T.
Lemma hM m n p (A : 'M[K]_(m, n)) (B : 'M[K]_(n, p)) : h (A *m B) = h B *m h A.
Proof. by rewrite map_mxM trmx_mul. Qed.
Lemma hK m n (A : 'M[K]_(m, n)) : h (h A) = A.
Proof. by apply/matrixP=> i j; rewrite !mxE cjK. Qed.
Lemma PhiYE n T (Phi Y : 'M[K]_(n, T)) : PhiY cj Phi Y = (T%:R)^-1 *: (Phi *m h Y).
Proof. by apply/matrixP=> a b; rewrite !mxE; congr (_ * _); apply: eq_bigr => t _; rewrite !mxE. Qed.
(** the pairing of the gradient with a direction *)
Lemma grad_pairing n T (X Phi : 'M[K]_(n, T)) (W D : 'M[K]_n) : W \in unitmx ->
  \tr (h ((PhiY cj Phi (W *m X) - 1%:M) *m map_mx cj (invmx W)^T) *m D) =
  (T%:R)^-1 * (\sum_s \sum_t cj (Phi s t) * (D *m X) s t) - \tr (invmx W *m D).
Proof.
move=> uW; rewrite hM -map_trmx hK PhiYE map_mxB map_scalar_mx rmorph1 linearB /= tr_scalar_mx.
rewrite map_mxZ linearZ /= fmorphV rmorph_nat hM hK.
rewrite mulmxBr mulmxBl mulmx1 linearB /=; congr (_ - _).
rewrite -scalemxAr -scalemxAl linearZ /=; congr (_ * _).
rewrite !mulmxA mulVmx // mul1mx -mulmxA mxtrace_mulC /mxtrace exchange_big /=.
apply: eq_bigr => t _; rewrite -mulmxA mxE; apply: eq_bigr => s _; by rewrite !mxE.
Qed.
(** the pairing with the directions of the natural gradient *)
Lemma natural_pairing n (P Q W : 'M[K]_n) : W \in unitmx ->
  \tr (h (P *m map_mx cj (invmx W)^T) *m (Q *m W)) = \tr (h P *m Q).
Proof.
move=> uW; rewrite hM -map_trmx hK mulmxA mxtrace_mulC !mulmxA mulmxV // mul1mx //.
Qed.
Lemma tr_h n p (A B : 'M[K]_(n, p)) : \tr (h A *m B) = \sum_b \sum_a cj (A a b) * B a b.
Proof. by rewrite /mxtrace; apply: eq_bigr => b _; rewrite mxE; apply: eq_bigr => a _; rewrite !mxE. Qed.
End Pairing.

Section Slope.
Variables (K : fieldType) (cj : {rmorphism K -> K}) (emb : R -> K) (rp : K -> R) (kappa : R) (F n T : nat).
Notation spec := ('I_F -> 'M[K]_(n, T)).
Notation filt := ('I_F -> 'M[K]_n).
Variable ld : 'M[K]_n -> R.
Hypothesis cjK : involutive cj.
Hypothesis emb0 : emb 0%coqR = 0.
Hypothesis embT : (T%:R)^-1 = emb ((T%:R)^-1)%R.
Hypothesis rpD : forall x y, rp (x + y) = (rp x + rp y)%R.
Hypothesis rp0 : rp 0 = 0%R.
Hypothesis rpZ : forall x z, rp (emb x * z) = (x * rp z)%R.
Hypothesis rp_ge0 : forall z, (0 <= rp (cj z * z))%coqR.
Hypothesis rp_eq0 : forall z, rp (cj z * z) = 0%R -> z = 0.
Hypothesis kappa0 : (0 < kappa)%coqR.
Hypothesis ld_slope : forall W D : 'M[K]_n, W \in unitmx ->
  deriv0 (fun e => ld (W + emb e *: D)) (rp (\tr (invmx W *m D))).
Hypothesis ld_unit : forall W D : 'M[K]_n, W \in unitmx ->
  exists e0, (0 < e0)%coqR /\ forall e, (Rabs e < e0)%coqR -> W + emb e *: D \in unitmx.

(** the loss as a total function, and as the code has it *)
Definition lossR (G : spec -> 'M[R]_(n, T)) (X : spec) (W : filt) : R :=
  (\sum_s meanR (fun t => G (sep X W) s t) - kappa * (\sum_i ld (W i)))%R.
Definition lossO G X W : option R :=
  if (T != 0%N) && [forall i, W i \in unitmx] then Some (lossR G X W) else None.
Definition shift (W D : filt) (e : R) : filt := fun i => W i + emb e *: D i.
Definition slope_at (G : spec -> 'M[R]_(n, T)) (score : spec -> spec) (Y : spec) :=
  forall (H : spec) s t, deriv0 (fun e => G (fun i => Y i + emb e *: H i) s t)
    (kappa * (\sum_i rp (cj (score Y i s t) * H i s t))%R)%coqR.
Definition grad (score : spec -> spec) X W : filt := fun i =>
  directions cj score true X W i *m map_mx cj (invmx (W i))^T.

Lemma rp_sum I (r : seq I) (P : pred I) (f : I -> K) :
  rp (\sum_(i <- r | P i) f i) = (\sum_(i <- r | P i) rp (f i))%R.
Proof. by apply: (big_morph rp rpD rp0). Qed.
Lemma rpN z : rp (- z) = (- rp z)%R.
Proof. by apply/eqP; rewrite -subr_eq0 opprK -rpD addNr rp0. Qed.
Lemma rpB x y : rp (x - y) = (rp x - rp y)%R. Proof. by rewrite rpD rpN. Qed.

Lemma lossR_slope G score X W D : (forall i, W i \in unitmx) -> slope_at G score (sep X W) ->
  deriv0 (fun e => lossR G X (shift W D e)) (kappa * (\sum_i rp (\tr ((map_mx cj (grad score X W i))^T *m D i)))%R)%coqR.
Proof.
move=> uW HG.
have H1 s : deriv0 (fun e => meanR (fun t => G (sep X (shift W D e)) s t))
   (T%:R^-1 * (\sum_t (kappa * (\sum_i rp (cj (score (sep X W) i s t) * (D i *m X i) s t)))%R))%R.
  apply: deriv0Z; apply: deriv0_sum => t _.
  apply: (deriv0_ext _ _ (HG (fun i => D i *m X i) s t)) => // e.
  rewrite /shift /sep; congr (G _ s t); apply: functional_extensionality => i.
  by rewrite mulmxDl scalemxAl.
have H2 := @deriv0_sum _ (index_enum [finType of 'I_n]) predT _ _ (fun s _ => H1 s).
have H3 := deriv0Z kappa (@deriv0_sum _ (index_enum [finType of 'I_F]) predT _ _ (fun i _ => ld_slope (D i) (uW i))).
apply: (deriv0_ext _ _ (deriv0B H2 H3)) => // {H1 H2 H3}.
rewrite RsubE !RmulE.
have E i : rp (\tr ((map_mx cj (grad score X W i))^T *m D i)) =
  (T%:R^-1 * (\sum_s \sum_t rp (cj (score (sep X W) i s t) * (D i *m X i) s t)) - rp (\tr (invmx (W i) *m D i)))%R.
  rewrite /grad /directions /direction -[X in \tr (_ *m X)]/(D i).
  rewrite (grad_pairing cjK (X i) (score (sep X W) i) (D i) (uW i)) rpB embT rpZ; congr (_ * _ - _)%R.
  by rewrite rp_sum; apply: eq_bigr => s _; rewrite rp_sum.
rewrite (eq_bigr _ (fun i _ => E i)) sumrB mulrBr; congr (_ - _)%R.
rewrite -mulr_sumr -[in RHS]mulr_sumr [in RHS]mulrCA; congr (_ * _)%R.
rewrite [in RHS]exchange_big /= mulr_sumr; apply: eq_bigr => s _.
by rewrite [in RHS]exchange_big /= mulr_sumr.
Qed.
Lemma near_unit (W D : filt) : (forall i, W i \in unitmx) ->
  exists e0, (0 < e0)%coqR /\ forall e, (Rabs e < e0)%coqR -> forall i, shift W D e i \in unitmx.
Proof. by move=> uW; apply: small_all => i; exact: ld_unit. Qed.
Lemma lossO_slope G score X W D : T <> 0%N -> (forall i, W i \in unitmx) -> slope_at G score (sep X W) ->
  deriv0 (fun e => odflt 0%R (lossO G X (shift W D e)))
    (kappa * (\sum_i rp (\tr ((map_mx cj (grad score X W i))^T *m D i)))%R)%coqR.
Proof.
move=> T0 uW HG; have [e0 [p U]] := near_unit D uW.
apply: (deriv0_local p _ (lossR_slope D uW HG)) => e /U uE.
rewrite /lossO (introF eqP T0) /=.
by have /forallP -> : forall i, shift W D e i \in unitmx by [].
Qed.
Lemma lossO_some G X W : T <> 0%N -> (forall i, W i \in unitmx) -> lossO G X W = Some (lossR G X W).
Proof.
by move=> T0 uW; rewrite /lossO (introF eqP T0) /=; have /forallP -> : forall i, W i \in unitmx by [].
Qed.
Lemma shift0 W D : shift W D 0%coqR = W.
Proof. by apply: functional_extensionality => i; rewrite /shift emb0 scale0r addr0. Qed.

(** a direction on which the gradient is negative decreases the loss *)
Lemma descent G score X W D : T <> 0%N -> (forall i, W i \in unitmx) -> slope_at G score (sep X W) ->
  (\sum_i rp (\tr ((map_mx cj (grad score X W i))^T *m D i)) < 0)%coqR ->
  exists e0, (0 < e0)%coqR /\ forall e, (0 < e < e0)%coqR ->
    exists l l', [/\ lossO G X W = Some l, lossO G X (shift W D e) = Some l' & (l' < l)%coqR].
Proof.
move=> T0 uW HG neg; have [e1 [p1 U]] := near_unit D uW.
have [|e2 [p2 L]] := deriv0_descent (lossR_slope D uW HG).
  by rewrite -(Rmult_0_r kappa); apply: Rmult_lt_compat_l.
exists (Rmin e1 e2); split=> [|e [q0 qm]]; first exact: Rmin_pos.
have h1 := Rmin_l e1 e2; have h2 := Rmin_r e1 e2.
have ue : forall i, shift W D e i \in unitmx by apply: U; rewrite Rabs_right; lra.
exists (lossR G X W), (lossR G X (shift W D e)); split; try exact: lossO_some.
by have := L e; rewrite shift0; apply; lra.
Qed.
Lemma ascent G score X W D : T <> 0%N -> (forall i, W i \in unitmx) -> slope_at G score (sep X W) ->
  (0 < \sum_i rp (\tr ((map_mx cj (grad score X W i))^T *m D i)))%coqR ->
  exists e0, (0 < e0)%coqR /\ forall e, (0 < e < e0)%coqR ->
    exists l l', [/\ lossO G X W = Some l, lossO G X (shift W D e) = Some l' & (l < l')%coqR].
Proof.
move=> T0 uW HG pos; have [e1 [p1 U]] := near_unit D uW.
have [|e2 [p2 L]] := deriv0_descent (deriv0N (lossR_slope D uW HG)).
  apply: Ropp_lt_gt_0_contravar; exact: Rmult_lt_0_compat.
exists (Rmin e1 e2); split=> [|e [q0 qm]]; first exact: Rmin_pos.
have h1 := Rmin_l e1 e2; have h2 := Rmin_r e1 e2.
have ue : forall i, shift W D e i \in unitmx by apply: U; rewrite Rabs_right; lra.
exists (lossR G X W), (lossR G X (shift W D e)); split; try exact: lossO_some.
apply: Ropp_lt_cancel; by have := L e; rewrite shift0; apply; lra.
Qed.

(** the square of a matrix *)
Lemma sq_ge0 m p (A : 'M[K]_(m, p)) : (0 <= rp (\tr ((map_mx cj A)^T *m A)))%coqR.
Proof.
rewrite tr_h rp_sum; apply: sumR_ge0 => b _; rewrite rp_sum; apply: sumR_ge0 => a _; exact: rp_ge0.
Qed.
Lemma sq_gt0 m p (A : 'M[K]_(m, p)) : A <> 0 -> (0 < rp (\tr ((map_mx cj A)^T *m A)))%coqR.
Proof.
move=> nz; case: (sq_ge0 A) => // /esym; rewrite tr_h rp_sum => z.
case: nz; apply/matrixP=> a b; rewrite mxE; apply: rp_eq0.
have P1 b' : (0 <= rp (\sum_a' cj (A a' b') * A a' b'))%coqR.
  by rewrite rp_sum; apply: sumR_ge0 => a' _; exact: rp_ge0.
have z1 := sumR_eq0 P1 z b; rewrite rp_sum in z1.
exact: (sumR_eq0 (fun a' => rp_ge0 (A a' b)) z1 a).
Qed.

(** the displacements of the steps *)
Lemma grad_neg score X W i : rp (\tr ((map_mx cj (grad score X W i))^T *m (- grad score X W i))) =
  (- rp (\tr ((map_mx cj (grad score X W i))^T *m grad score X W i)))%R.
Proof. by rewrite mulmxN linearN rpN. Qed.
Lemma natural_neg score hol X W i : W i \in unitmx ->
  rp (\tr ((map_mx cj (grad score X W i))^T *m (- (directions cj score hol X W i *m W i)))) =
  (- rp (\tr ((map_mx cj (directions cj score hol X W i))^T *m directions cj score hol X W i)))%R.
Proof.
move=> uW; rewrite mulmxN linearN /= rpN /grad (natural_pairing cjK) //; congr (- rp _)%R.
rewrite !tr_h; apply: eq_bigr => b _; apply: eq_bigr => a _; rewrite /directions.
case: hol => //; rewrite /direction !mxE; case: eqP => [->|ne]; last by rewrite !subr0 !mul1r.
by rewrite subrr !mul0r !mulr0.
Qed.
End Slope.
