(** Matrix theory over an algebraically closed numeric field: conjugate
    transpose, positive definite matrices, Cauchy-Schwarz and the determinant of
    a matrix with one row replaced.  No project code is modelled here. *)
From mathcomp Require Import all_ssreflect all_algebra.
From mathcomp.algebra_tactics Require Import ring.
Import Order.TTheory GRing.Theory Num.Theory.
Set Implicit Arguments.
Unset Strict Implicit.
Unset Printing Implicit Defensive.
Local Open Scope ring_scope.

Section Ctr.
Variable C : numClosedFieldType.

Definition ctr m n (A : 'M[C]_(m, n)) : 'M[C]_(n, m) := (map_mx conjC A)^T.
Local Notation "A ^H" := (ctr A) (at level 2, format "A ^H").

Lemma ctrE m n (A : 'M[C]_(m, n)) i j : A^H i j = (A j i)^*.
Proof. by rewrite !mxE. Qed.
Lemma ctrK m n (A : 'M[C]_(m, n)) : A^H^H = A.
Proof. by apply/matrixP=> i j; rewrite !ctrE conjCK. Qed.
Lemma ctr_inj m n : injective (@ctr m n).
Proof. exact: (can_inj (@ctrK m n)). Qed.
Lemma ctrD m n (A B : 'M[C]_(m, n)) : (A + B)^H = A^H + B^H.
Proof. by apply/matrixP=> i j; rewrite !(ctrE, mxE) rmorphD. Qed.
Lemma ctrN m n (A : 'M[C]_(m, n)) : (- A)^H = - A^H.
Proof. by apply/matrixP=> i j; rewrite !(ctrE, mxE) rmorphN. Qed.
Lemma ctrB m n (A B : 'M[C]_(m, n)) : (A - B)^H = A^H - B^H.
Proof. by rewrite ctrD ctrN. Qed.
Lemma ctrZ m n (a : C) (A : 'M[C]_(m, n)) : (a *: A)^H = a^* *: A^H.
Proof. by apply/matrixP=> i j; rewrite !(ctrE, mxE) rmorphM. Qed.
Lemma ctrM m n p (A : 'M[C]_(m, n)) (B : 'M[C]_(n, p)) : (A *m B)^H = B^H *m A^H.
Proof. by rewrite /ctr map_mxM trmx_mul. Qed.
Lemma ctr0 m n : (0 : 'M[C]_(m, n))^H = 0.
Proof. by apply/matrixP=> i j; rewrite !(ctrE, mxE) conjC0. Qed.
Lemma ctr1 n : (1%:M : 'M[C]_n)^H = 1%:M.
Proof. by apply/matrixP=> i j; rewrite !(ctrE, mxE) eq_sym conjC_nat. Qed.
Lemma ctr_scalar n (a : C) : (a%:M : 'M[C]_n)^H = (a^*)%:M.
Proof. by apply/matrixP=> i j; rewrite !(ctrE, mxE) eq_sym rmorphMn. Qed.
Lemma ctr_sum m n I (r : seq I) (P : pred I) (F : I -> 'M[C]_(m, n)) :
  (\sum_(i <- r | P i) F i)^H = \sum_(i <- r | P i) (F i)^H.
Proof. exact: (big_morph _ (@ctrD m n) (@ctr0 m n)). Qed.
Lemma det_ctr n (A : 'M[C]_n) : \det A^H = (\det A)^*.
Proof. by rewrite /ctr det_tr det_map_mx. Qed.
Lemma ctr_unit n (A : 'M[C]_n) : (A^H \in unitmx) = (A \in unitmx).
Proof. by rewrite !unitmxE det_ctr !unitfE conjC_eq0. Qed.
Lemma ctr_inv n (A : 'M[C]_n) : (invmx A)^H = invmx A^H.
Proof. by rewrite /ctr map_invmx trmx_inv. Qed.
Lemma ctr_delta m n i j : (delta_mx i j : 'M[C]_(m, n))^H = delta_mx j i.
Proof. by apply/matrixP=> k l; rewrite !(ctrE, mxE) andbC conjC_nat. Qed.
Lemma ctr_diag n (d : 'rV[C]_n) : (diag_mx d)^H = diag_mx (map_mx conjC d).
Proof.
apply/matrixP=> i j; rewrite !(ctrE, mxE) rmorphMn /= eq_sym.
by case: eqP => [->|].
Qed.
Lemma ctr_row m n (A : 'M[C]_(m, n)) i : (row i A)^H = col i A^H.
Proof. by apply/matrixP=> k l; rewrite !(ctrE, mxE). Qed.
Lemma ctr_col m n (A : 'M[C]_(m, n)) i : (col i A)^H = row i A^H.
Proof. by apply/matrixP=> k l; rewrite !(ctrE, mxE). Qed.

Lemma invmx_mul n (A B : 'M[C]_n) :
  A \in unitmx -> B \in unitmx -> invmx (A *m B) = invmx B *m invmx A.
Proof.
move=> uA uB; have uAB : A *m B \in unitmx by rewrite unitmx_mul uA.
rewrite -[RHS](mulmxK uAB) mulmxA -[_ *m invmx A *m A]mulmxA mulVmx // mulmx1.
by rewrite mulVmx // mul1mx.
Qed.

(** ** Sesquilinear form [x^H U y] *)
Definition form n (U : 'M[C]_n) (x y : 'cV[C]_n) : C := (x^H *m U *m y) 0 0.

Lemma mx11E (A : 'M[C]_1) : A = (A 0 0)%:M.
Proof. by apply/matrixP=> i j; rewrite !ord1 !mxE eqxx mulr1n. Qed.
Lemma mulmx_11 n (A : 'M[C]_1) (B : 'M[C]_(1, n)) : A *m B = A 0 0 *: B.
Proof. by rewrite [A in LHS]mx11E mul_scalar_mx. Qed.
Lemma mulmx_n1 n (A : 'M[C]_(n, 1)) (B : 'M[C]_1) : A *m B = B 0 0 *: A.
Proof. by rewrite [B in LHS]mx11E mul_mx_scalar. Qed.

Lemma formDl n (U : 'M[C]_n) x y z : form U (x + y) z = form U x z + form U y z.
Proof. by rewrite /form ctrD !mulmxDl mxE. Qed.
Lemma formDr n (U : 'M[C]_n) x y z : form U z (x + y) = form U z x + form U z y.
Proof. by rewrite /form !mulmxDr mxE. Qed.
Lemma formZl n (U : 'M[C]_n) a x y : form U (a *: x) y = a^* * form U x y.
Proof. by rewrite /form ctrZ -!scalemxAl mxE. Qed.
Lemma formZr n (U : 'M[C]_n) a x y : form U x (a *: y) = a * form U x y.
Proof. by rewrite /form -!scalemxAr mxE. Qed.
Lemma formNl n (U : 'M[C]_n) x y : form U (- x) y = - form U x y.
Proof. by rewrite -scaleN1r formZl rmorphN conjC1 mulN1r. Qed.
Lemma formNr n (U : 'M[C]_n) x y : form U x (- y) = - form U x y.
Proof. by rewrite -scaleN1r formZr mulN1r. Qed.
Lemma form0l n (U : 'M[C]_n) x : form U 0 x = 0.
Proof. by rewrite /form ctr0 !mul0mx mxE. Qed.
Lemma form0r n (U : 'M[C]_n) x : form U x 0 = 0.
Proof. by rewrite /form !mulmx0 mxE. Qed.
Lemma form_conj n (U : 'M[C]_n) x y : (form U x y)^* = form U^H y x.
Proof.
rewrite /form.
transitivity ((x^H *m U *m y)^H 0 0); first by rewrite ctrE.
by rewrite !ctrM ctrK mulmxA.
Qed.
Lemma formM m n (A : 'M[C]_(m, n)) (U : 'M[C]_m) x y :
  form U (A *m x) (A *m y) = form (A^H *m U *m A) x y.
Proof. by rewrite /form ctrM !mulmxA. Qed.
Lemma formMU n (U V : 'M[C]_n) x y : form (U *m V) x y = form U x (V *m y).
Proof. by rewrite /form !mulmxA. Qed.

(** ** Positive (semi)definite matrices *)
Definition psd n (U : 'M[C]_n) : Prop := U^H = U /\ forall x, 0 <= form U x x.
Definition pd n (U : 'M[C]_n) : Prop :=
  U^H = U /\ forall x : 'cV_n, x != 0 -> 0 < form U x x.

Lemma pd_psd n (U : 'M[C]_n) : pd U -> psd U.
Proof.
move=> [hU pU]; split=> // x; case: (eqVneq x 0) => [->|/pU/ltW //].
by rewrite form0l.
Qed.

Lemma pd_unit n (U : 'M[C]_n) : pd U -> U \in unitmx.
Proof.
move=> [hU pU]; rewrite -unitmx_tr -row_free_unit; apply/negPn/negP => nf.
have /rowV0Pn[v /sub_kermxP vU v0] : kermx U^T != 0 by rewrite kermx_eq0.
have := pU v^T; rewrite trmx_eq0 => /(_ v0).
by rewrite /form -mulmxA -[U]trmxK -trmx_mul vU trmx0 mulmx0 mxE ltxx.
Qed.

Lemma psd_congr m n (U : 'M[C]_m) (A : 'M[C]_(m, n)) : psd U -> psd (A^H *m U *m A).
Proof.
move=> [hU pU]; split; first by rewrite !ctrM ctrK hU mulmxA.
by move=> x; rewrite -formM.
Qed.

Lemma pd_congr m n (U : 'M[C]_m) (A : 'M[C]_(m, n)) :
  pd U -> (forall x : 'cV_n, A *m x = 0 -> x = 0) -> pd (A^H *m U *m A).
Proof.
move=> [hU pU] iA; split; first by rewrite !ctrM ctrK hU mulmxA.
move=> x x0; rewrite -formM; apply: pU.
by apply: contraNneq x0 => /iA ->.
Qed.

Lemma unit_inj n p (A : 'M[C]_n) (x : 'M[C]_(n, p)) : A \in unitmx -> A *m x = 0 -> x = 0.
Proof. by move=> uA /(congr1 (mulmx (invmx A))); rewrite mulKmx // mulmx0. Qed.

Lemma pd_congr_unit n (U A : 'M[C]_n) : pd U -> A \in unitmx -> pd (A^H *m U *m A).
Proof. by move=> pU uA; apply: pd_congr => // x; apply: unit_inj. Qed.

Lemma pd_inv n (U : 'M[C]_n) : pd U -> pd (invmx U).
Proof.
move=> pU; have uU := pd_unit pU.
rewrite -[invmx U](_ : (invmx U)^H *m U *m invmx U = _).
  by apply: pd_congr_unit => //; rewrite unitmx_inv.
by rewrite ctr_inv (proj1 pU) mulVmx // mul1mx.
Qed.

Lemma pd1 n : pd (1%:M : 'M[C]_n).
Proof.
split; first exact: ctr1.
move=> x /eqP x0; rewrite /form mulmx1 mxE lt_neqAle eq_sym.
have pos i : true -> 0 <= x^H 0 i * x i 0 by rewrite ctrE mulrC mul_conjC_ge0.
rewrite sumr_ge0 // andbT.
apply/eqP => /psumr_eq0P H0; case: x0; apply/matrixP=> i j; rewrite ord1 mxE.
by have /eqP := H0 pos i isT; rewrite ctrE mulrC mul_conjC_eq0 => /eqP.
Qed.

Lemma form1_ge0 n (x : 'cV[C]_n) : 0 <= form 1%:M x x.
Proof. exact: (proj2 (pd_psd (@pd1 n))). Qed.

Lemma pdD n (U V : 'M[C]_n) : pd U -> psd V -> pd (U + V).
Proof.
move=> [hU pU] [hV pV]; split; first by rewrite ctrD hU hV.
move=> x x0; rewrite /form mulmxDr mulmxDl mxE.
by rewrite ltr_paddr //; [exact: pV|exact: pU].
Qed.

Lemma psdD n (U V : 'M[C]_n) : psd U -> psd V -> psd (U + V).
Proof.
move=> [hU pU] [hV pV]; split; first by rewrite ctrD hU hV.
by move=> x; rewrite /form mulmxDr mulmxDl mxE addr_ge0 //; [exact: pU|exact: pV].
Qed.

Lemma psdZ n (a : C) (U : 'M[C]_n) : 0 <= a -> psd U -> psd (a *: U).
Proof.
move=> a0 [hU pU]; split; first by rewrite ctrZ hU (CrealP (ger0_real a0)).
by move=> x; rewrite /form -scalemxAr -scalemxAl mxE mulr_ge0 //; exact: pU.
Qed.

Lemma pdZ n (a : C) (U : 'M[C]_n) : 0 < a -> pd U -> pd (a *: U).
Proof.
move=> a0 [hU pU]; split; first by rewrite ctrZ hU (CrealP (gtr0_real a0)).
move=> x x0; rewrite /form -scalemxAr -scalemxAl mxE mulr_gt0 //; exact: pU.
Qed.

Lemma psd0 n : psd (0 : 'M[C]_n).
Proof. by split; rewrite ?ctr0 // => x; rewrite /form mulmx0 mul0mx mxE. Qed.

Lemma psd_sum n I (r : seq I) (P : pred I) (F : I -> 'M[C]_n) :
  (forall i, P i -> psd (F i)) -> psd (\sum_(i <- r | P i) F i).
Proof. by move=> H; apply: big_ind => //; [exact: psd0|exact: psdD]. Qed.

Lemma psd_outer m n (x : 'M[C]_(m, n)) : psd (x *m x^H).
Proof.
rewrite -[x in x *m _]ctrK -[x^H^H]mulmx1.
by apply: psd_congr; apply: pd_psd; apply: pd1.
Qed.

(** ** Cauchy-Schwarz *)
Lemma psd_real n (U : 'M[C]_n) x : psd U -> form U x x \is Num.real.
Proof. by move=> [_ /(_ x)/ger0_real]. Qed.

Lemma cauchy_schwarz n (U : 'M[C]_n) x y : psd U ->
  `|form U x y| ^+ 2 <= form U x x * form U y y.
Proof.
move=> pU; have [hU posU] := pU.
set a := form U x x; set b := form U x y; set c := form U y y.
have hb : form U y x = b^* by rewrite form_conj hU.
have a0 : 0 <= a by apply: posU.
have c0 : 0 <= c by apply: posU.
have ra : a^* = a by apply: CrealP; apply: ger0_real.
have rc : c^* = c by apply: CrealP; apply: ger0_real.
have key s t : 0 <= s^* * s * a + s^* * t * b + t^* * s * b^* + t^* * t * c.
  have := posU (s *: x + t *: y).
  by rewrite !(formDl, formDr, formZl, formZr) hb -/a -/b -/c; congr (0 <= _); ring.
case: (eqVneq c 0) => [cz|cn0].
  case: (eqVneq b 0) => [->|bn0]; first by rewrite normr0 expr0n /= mulr_ge0.
  have bb : b * b^* != 0 by rewrite mul_conjC_eq0.
  have := key 1 (- ((a + 1) / (b * b^*)) * b^*).
  rewrite cz conjC1 !rmorphM /= rmorphN rmorphM fmorphV rmorphM conjCK rmorphD /= ra conjC1.
  rewrite [X in 0 <= X](_ : _ = - (a + 2%:R)); last first.
    have: b^* != 0 by rewrite conjC_eq0.
    by move: bn0; move: (b^*) => b'; clear; move: a b => a b b0 b'0; field; rewrite b0 b'0.
  by rewrite oppr_ge0 lt_geF // ltr_paddl // ltr0n.
have cp : 0 < c by rewrite lt_def cn0.
have := key c (- b^*).
rewrite rc rmorphN conjCK normCK.
rewrite [X in 0 <= X](_ : _ = c * (a * c - b * b^*)); last by ring.
by rewrite pmulr_rge0 // subr_ge0.
Qed.

Lemma cauchy_schwarz_inv n (U : 'M[C]_n) x y : pd U ->
  `|form 1%:M x y| ^+ 2 <= form U x x * form (invmx U) y y.
Proof.
move=> pU; have uU := pd_unit pU; have [hU _] := pU.
have := cauchy_schwarz x (invmx U *m y) (pd_psd pU).
by rewrite formM ctr_inv hU mulVmx // mul1mx -formMU mulmxV.
Qed.

(** ** Replacing one row *)
Definition setrow m n (k : 'I_m) (r : 'rV[C]_n) (A : 'M[C]_(m, n)) : 'M[C]_(m, n) :=
  \matrix_(i, j) if i == k then r 0 j else A i j.

Lemma row_setrow m n (k : 'I_m) (r : 'rV[C]_n) A : row k (setrow k r A) = r.
Proof. by apply/matrixP=> i j; rewrite !mxE eqxx ord1. Qed.
Lemma row_setrow_neq m n (k i : 'I_m) (r : 'rV[C]_n) A :
  i != k -> row i (setrow k r A) = row i A.
Proof. by move=> ik; apply/matrixP=> a j; rewrite !mxE (negbTE ik). Qed.
Lemma setrow_id m n (k : 'I_m) (A : 'M[C]_(m, n)) : setrow k (row k A) A = A.
Proof. by apply/matrixP=> i j; rewrite !mxE; case: eqP => [->|]. Qed.
Lemma setrow_setrow m n (k : 'I_m) (r s : 'rV[C]_n) A :
  setrow k r (setrow k s A) = setrow k r A.
Proof. by apply/matrixP=> i j; rewrite !mxE; case: eqP. Qed.
Lemma setrowM m n p (k : 'I_m) (r : 'rV[C]_n) A (B : 'M[C]_(n, p)) :
  setrow k r A *m B = setrow k (r *m B) (A *m B).
Proof.
apply/matrixP=> i j; rewrite !mxE; case: eqP => [->|/eqP ik].
  by apply: eq_bigr => l _; rewrite mxE eqxx.
by apply: eq_bigr => l _; rewrite mxE (negbTE ik).
Qed.

Lemma det_setrow1 n (k : 'I_n) (r : 'rV[C]_n) : \det (setrow k r 1%:M) = r 0 k.
Proof.
rewrite (expand_det_row _ k).
have cof j : cofactor (setrow k r 1%:M) k j = (j == k)%:R.
  have -> : cofactor (setrow k r 1%:M) k j = cofactor (1%:M : 'M[C]_n) k j.
    rewrite /cofactor; congr (_ * \det _).
    by apply/matrixP=> a b; rewrite !mxE eq_sym (negbTE (neq_lift _ _)).
  have : (\adj (1%:M : 'M[C]_n)) j k = (j == k)%:R.
    by rewrite -[\adj _]mul1mx mul_mx_adj det1 !mxE.
  by rewrite mxE.
rewrite (bigD1 k) //= big1 ?addr0; last by move=> j jk; rewrite cof (negbTE jk) mulr0.
by rewrite cof !mxE !eqxx mulr1.
Qed.

Lemma det_setrow n (k : 'I_n) (r : 'rV[C]_n) (W : 'M[C]_n) : W \in unitmx ->
  \det (setrow k r W) = (r *m invmx W) 0 k * \det W.
Proof.
move=> uW; rewrite -[setrow k r W](mulmxKV uW) det_mulmx setrowM mulmxV //.
by rewrite det_setrow1.
Qed.

End Ctr.
Notation "A ^H" := (ctr A) (at level 2, format "A ^H") : ring_scope.

(** ** Replacing two rows *)
Section TwoRows.
Variable C : numClosedFieldType.

Lemma setrowC m n (i k : 'I_m) (r s : 'rV[C]_n) A : i != k ->
  setrow i r (setrow k s A) = setrow k s (setrow i r A).
Proof.
move=> ik; apply/matrixP=> a b; rewrite !mxE; case: eqP => [->|//].
by rewrite (negbTE ik).
Qed.

Lemma det_setrow_lin n (k : 'I_n) a b (r s : 'rV[C]_n) A :
  \det (setrow k (a *: r + b *: s) A) = a * \det (setrow k r A) + b * \det (setrow k s A).
Proof.
have row'_set (t u : 'rV[C]_n) : row' k (setrow k t A) = row' k (setrow k u A).
  by apply/matrixP=> i j; rewrite !mxE eq_sym (negbTE (neq_lift _ _)).
apply: (@determinant_multilinear _ _ _ (setrow k r A) (setrow k s A) k).
- by rewrite !row_setrow.
- exact: row'_set.
- exact: row'_set.
Qed.

Lemma det_setrow_expand n (k : 'I_n) (r : 'rV[C]_n) A :
  \det (setrow k r A) = \sum_j r 0 j * \det (setrow k (delta_mx 0 j) A).
Proof.
rewrite {1}[r]row_sum_delta.
have: forall s : seq 'I_n, \det (setrow k (\sum_(j <- s) r 0 j *: delta_mx 0 j) A) =
    \sum_(j <- s) r 0 j * \det (setrow k (delta_mx 0 j) A); last by apply.
elim=> [|j s IH]; rewrite ?big_nil ?big_cons.
  have := det_setrow_lin k 0 0 0 0 A; rewrite !mul0r addr0 !scale0r addr0.
  by [].
by rewrite -IH -[\sum_(j0 <- s) _]scale1r det_setrow_lin mul1r scale1r.
Qed.

Lemma det_setrow_eq n (i k : 'I_n) (A : 'M[C]_n) : i != k ->
  \det (setrow k (row i A) A) = 0.
Proof.
move=> ik; apply: (determinant_alternate ik) => j; rewrite !mxE eqxx.
by rewrite (negbTE ik).
Qed.

Lemma det_setrow2_1 n (m k : 'I_n) (r s : 'rV[C]_n) : m != k ->
  \det (setrow m r (setrow k s 1%:M)) = r 0 m * s 0 k - r 0 k * s 0 m.
Proof.
move=> mk; have km : k != m by rewrite eq_sym.
pose e j : 'rV[C]_n := delta_mx 0 j.
have e1 j : row j 1%:M = e j by apply/rowP => l; rewrite !mxE !eqxx eq_sym.
pose F (r s : 'rV[C]_n) := \det (setrow m r (setrow k s 1%:M)).
have Fl a b x y z : F (a *: x + b *: y) z = a * F x z + b * F y z by apply: det_setrow_lin.
have Fr a b x y z : F z (a *: x + b *: y) = a * F z x + b * F z y.
  by rewrite /F !(setrowC _ _ _ mk); apply: det_setrow_lin.
have Fd x : F x x = 0.
  rewrite /F.
  have {1}-> : x = row k (setrow k x 1%:M) by rewrite row_setrow.
  by rewrite det_setrow_eq.
have Fm x : F (e m) x = x 0 k.
  rewrite /F setrowC // -e1 setrow_id det_setrow1 //.
have Fk x : F x (e k) = x 0 m.
  by rewrite /F -[e k]e1 setrow_id det_setrow1.
have Fjl j x : j != m -> j != k -> F (e j) x = 0.
  move=> jm jk; rewrite /F.
  have -> : e j = row j (setrow k x 1%:M) by rewrite row_setrow_neq // e1.
  by rewrite det_setrow_eq.
have Fjr j x : j != m -> j != k -> F x (e j) = 0.
  move=> jm jk; rewrite /F setrowC //.
  have -> : e j = row j (setrow m x 1%:M) by rewrite row_setrow_neq // e1.
  by rewrite det_setrow_eq.
have Fkm : F (e k) (e m) = -1.
  have := Fd (1 *: e m + 1 *: e k).
  rewrite Fl !Fr !mul1r !Fd add0r addr0 Fk !mxE !eqxx /= => /eqP.
  by rewrite addrC addr_eq0 => /eqP.
have Fks x : F (e k) x = - x 0 m.
  rewrite /F setrowC // det_setrow_expand (bigD1 m) //= -setrowC // -/(F _ _) Fkm mulrN1.
  rewrite big1 ?addr0 // => j jm; rewrite -setrowC // -/(F _ _).
  case: (eqVneq j k) => [->|jk]; first by rewrite Fd mulr0.
  by rewrite Fjr // mulr0.
rewrite det_setrow_expand (bigD1 m) //= (bigD1 k) //= -!/(F _ _) -!/(e _) Fm Fks.
rewrite big1 ?addr0 ?mulrN // => j /andP[jm jk].
by rewrite -/(F _ _) -/(e _) Fjl // mulr0.
Qed.

Lemma det_setrow2 n (m k : 'I_n) (r s : 'rV[C]_n) (W : 'M[C]_n) : m != k -> W \in unitmx ->
  \det (setrow m r (setrow k s W)) =
  ((r *m invmx W) 0 m * (s *m invmx W) 0 k - (r *m invmx W) 0 k * (s *m invmx W) 0 m) * \det W.
Proof.
move=> mk uW; rewrite -[setrow m r _](mulmxKV uW) det_mulmx !setrowM mulmxV //.
by rewrite det_setrow2_1.
Qed.
End TwoRows.
