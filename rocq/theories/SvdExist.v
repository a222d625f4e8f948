(** Every square matrix has a singular value decomposition: the contract assumed of
    [np.linalg.svd] (Prox.v) can be met on all inputs. *)
From Coq Require Import Reals Lra ClassicalEpsilon.
From mathcomp Require Import all_ssreflect all_algebra.
From Verif Require Import RStruct MxC CxR NpLin RealLemmas Eigh EighProofs Prox ProxProofs.
Import Order.TTheory GRing.Theory Num.Theory.
Set Implicit Arguments.
Unset Strict Implicit.
Unset Printing Implicit Defensive.
Local Open Scope ring_scope.

Definition svd_contract (svd : svd_t) : Prop := forall n (X : 'M[Cx]_n), svd_spec X (svd n X).

(** two decreasing 0/1 sequences with the same sum are equal *)
Lemma mono01 n (f g : 'I_n -> bool) :
  (forall i j : 'I_n, (i <= j)%N -> f j -> f i) -> (forall i j : 'I_n, (i <= j)%N -> g j -> g i) ->
  (\sum_i f i = \sum_i g i)%N -> f =1 g.
Proof.
have half (f' g' : 'I_n -> bool) : (forall i j : 'I_n, (i <= j)%N -> f' j -> f' i) ->
    (forall i j : 'I_n, (i <= j)%N -> g' j -> g' i) -> (\sum_i f' i = \sum_i g' i)%N -> forall i, f' i -> g' i.
  move=> mf mg e i fi; apply: contraT => ngi.
  have le k : (g' k <= f' k)%N.
    case: (leqP k i) => [ki|/ltnW ik]; first by rewrite (mf k i ki fi); case: (g' k).
    by case E: (g' k) => //; rewrite (mg i k ik E) in ngi.
  have : (\sum_k g' k < \sum_k f' k)%N.
    rewrite (bigD1 i) //= [X in (_ < X)%N](bigD1 i) //= fi (negbTE ngi) -addSn leq_add //.
    by apply: leq_sum => k _.
  by rewrite e ltnn.
by move=> mf mg e i; apply/idP/idP; apply: half.
Qed.
Lemma ctrMM_eq0 m n (A : 'M[Cx]_(m, n)) : A^H *m A = 0 -> A = 0.
Proof.
move=> /matrixP e; apply/matrixP => a b; have := e b b; rewrite !mxE => /eqP.
rewrite psumr_eq0 => [/allP/(_ a (mem_index_enum a))|k _]; rewrite /ctr !mxE mulrC.
  by rewrite mul_conjC_eq0 => /eqP.
exact: mul_conjC_ge0.
Qed.
Lemma rdiag_sum n (d : 'rV[R]_n) : \tr (rdiag d) = c (\sum_i d 0 i).
Proof. by rewrite c_sum; apply: eq_bigr => i _; rewrite rdiagE eqxx. Qed.
Lemma cmxN n (d : 'rV[R]_n) : 1%:M - rdiag d = rdiag (\row_i (1 - d 0 i)).
Proof. by rewrite -rdiag1; apply/matrixP => i j; rewrite !mxE -mulrnBl cB. Qed.

Theorem svd_exists_all n (X : 'M[Cx]_n) : exists r, svd_spec X r.
Proof.
have pA : psd (X^H *m X) by have := psd_congr X (pd_psd (@pd1 Cx n)); rewrite mulmx1.
have [[l P] sp] := eigh_exists (proj1 pA); have [/= uP eP al] := sp; have PP := mulmx1C uP.
have l0 i : (0 <= l 0%R i)%coqR := eigh_val_ge0 i pA sp.
pose s : 'rV[R]_n := map_mx R_sqrt.sqrt l.
pose D : 'rV[R]_n := \row_i (if l 0 i == 0 then 0 else (/ R_sqrt.sqrt (l 0%R i))%coqR).
pose E : 'rV[R]_n := \row_i (l 0 i != 0)%:R.
have sq i : (R_sqrt.sqrt (l 0%R i) * R_sqrt.sqrt (l 0%R i) = l 0%R i)%coqR by apply: sqrt_sqrt.
have sn0 i : l 0 i != 0 -> R_sqrt.sqrt (l 0%R i) <> 0%coqR.
  by move=> /eqP nz e; apply: nz; rewrite -(sq i) e Rmult_0_l.
have DE : rmul D E = D.
  by apply/rowP => i; rewrite !mxE; case: ifP => _; rewrite ?mulr0 ?mulr1.
have Ds : rmul D s = E.
  apply/rowP => i; rewrite !mxE; case: (boolP (l 0 i == 0)) => [_|nz]; first by rewrite mul0r.
  by rewrite -[LHS]/(_ * _)%coqR Rinv_l //; exact: sn0.
have DlD : rmul (rmul D l) D = E.
  apply/rowP => i; rewrite !mxE; case: (boolP (l 0 i == 0)) => [_|nz]; first by rewrite mul0r mulr0.
  have := sq i; have := sn0 i nz; move: (R_sqrt.sqrt _) => r r1 <-; toR.
  by rewrite mulr1n; Rfield.
have EE : rmul E E = E by apply/rowP => i; rewrite !mxE; case: (_ != _); rewrite ?mulr0 ?mulr1.
pose E' : 'rV[R]_n := \row_i (1 - E 0 i).
have EE' : rmul E E' = 0.
  by apply/rowP => i; rewrite !mxE; case: (_ != _); rewrite ?subrr ?mulr0 ?mul0r.
have E'E' : rmul E' E' = E'.
  by apply/rowP => i; rewrite !mxE; case: (_ != _); rewrite ?subrr ?subr0 ?mulr0 ?mulr1.
have rC (a b : 'rV[R]_n) : rmul a b = rmul b a by apply/rowP => i; rewrite !mxE mulrC.
have r0 : rdiag (0 : 'rV[R]_n) = 0.
  by apply/matrixP => i j; rewrite !mxE c0 mul0rn.
have E's : rmul E' s = 0.
  apply/rowP => i; rewrite !mxE; case: eqP => [->|_] /=; last by rewrite subrr mul0r.
  by rewrite sqrt_0 mulr0.
have PlP : P^H *m (X^H *m X) *m P = rdiag l by rewrite -mulmxA eP mulmxA uP mul1mx.
pose U0 := X *m P *m rdiag D.
have U0U0 : U0^H *m U0 = rdiag E.
  rewrite /U0 !ctrM rdiag_ctr -!mulmxA (mulmxA X^H) (mulmxA (X^H *m X)) (mulmxA P^H) (mulmxA P^H) PlP.
  by rewrite !mulmxA !rdiagM DlD.
have U0E : U0 *m rdiag E = U0 by rewrite /U0 -mulmxA rdiagM DE.
have XPE' : X *m P *m rdiag E' = 0.
  apply: ctrMM_eq0; rewrite !ctrM rdiag_ctr -!mulmxA (mulmxA X^H) (mulmxA (X^H *m X)) (mulmxA P^H) (mulmxA P^H) PlP.
  rewrite !mulmxA !rdiagM; suff -> : rmul (rmul E' l) E' = 0 by [].
  by apply/rowP => i; rewrite !mxE; case: eqP => [->|_]; rewrite ?mulr0 ?subrr ?mul0r.
pose Q := 1%:M - U0 *m U0^H.
have hQ : Q^H = Q by rewrite /Q ctrB ctrM ctrK ctr1.
have QQ : Q *m Q = Q.
  have QU0 : Q *m U0 = 0 by rewrite /Q mulmxBl mul1mx -mulmxA U0U0 U0E subrr.
  by rewrite {2}/Q mulmxBr mulmx1 mulmxA QU0 mul0mx subr0.
have U0Q : U0^H *m Q = 0.
  by rewrite /Q mulmxBr mulmx1 mulmxA U0U0 -rdiag_ctr -ctrM U0E subrr.
have [[q Rr] sq'] := eigh_exists hQ; have [/= uR eR aq] := sq'; have RR := mulmx1C uR.
have q01 i : q 0 i = (q 0 i != 0)%:R.
  have : rdiag q *m rdiag q = rdiag q.
    have e : rdiag q = Rr^H *m Q *m Rr by rewrite -mulmxA eR mulmxA uR mul1mx.
    by rewrite {1 2}e -!mulmxA (mulmxA Rr) RR mul1mx (mulmxA Q) QQ mulmxA.
  rewrite rdiagM => /matrixP/(_ i i); rewrite !rdiagE eqxx !mulr1n !mxE => /c_inj/eqP.
  rewrite -subr_eq0 -{3}[q 0 i]mulr1 -mulrBr mulf_eq0 subr_eq0 => /orP[/eqP->|/eqP->]; by rewrite ?eqxx ?oner_eq0.
have trQ : \sum_i q 0 i = \sum_i E' 0 i.
  apply: c_inj; rewrite -!rdiag_sum.
  have -> : rdiag q = Rr^H *m Q *m Rr by rewrite -mulmxA eR mulmxA uR mul1mx.
  rewrite mxtrace_mulC mulmxA RR mul1mx /Q -cmxN !raddfB /=; congr (_ - _).
  by rewrite mxtrace_mulC U0U0.
have key : forall i, q 0 (rev_ord i) = E' 0 i.
  have E'b i : E' 0 i = (l 0 i == 0)%:R.
    by rewrite !mxE; case: (_ == _); rewrite ?subrr ?subr0.
  have := @mono01 n (fun i => q 0 (rev_ord i) != 0) (fun i => l 0 i == 0); move=> H.
  move=> i; rewrite q01 E'b; congr (_%:R); congr (nat_of_bool _); apply: H => [a b ab|a b ab|].
  - apply: contra => /eqP z; have /aq : (rev_ord b <= rev_ord a)%N by rewrite /= leq_sub2l.
    rewrite z.
    move=> h; apply/negPn/negP => nz; move: h; by rewrite q01 nz => /RleP; rewrite ler10.
  - by move=> /eqP z; have := al a b ab; have := l0 a; rewrite z => h1 h2; apply/eqP; apply: Rle_antisym.
  - have := trQ; rewrite (eq_bigr (fun i => (q 0 i != 0)%:R)) // -natr_sum.
    rewrite (eq_bigr (fun i => (l 0 i == 0)%:R)) // -natr_sum => /eqP; rewrite eqr_nat => /eqP <-.
    by rewrite [in RHS](reindex_inj rev_ord_inj).
pose R' : 'M[Cx]_n := \matrix_(a, b) Rr a (rev_ord b).
have R'R' : R'^H *m R' = 1%:M.
  apply/matrixP => i j; have /matrixP/(_ (rev_ord i) (rev_ord j)) := uR.
  rewrite !mxE (inj_eq rev_ord_inj) => <-; apply: eq_bigr => k _; by rewrite !ctrE !mxE.
have QR' : Q *m R' = R' *m rdiag E'.
  apply/matrixP => i j.
  have -> : (R' *m rdiag E') i j = Rr i (rev_ord j) * c (E' 0 j) by rewrite /rdiag mul_mx_diag !mxE.
  have : (Q *m Rr) i (rev_ord j) = Rr i (rev_ord j) * c (q 0 (rev_ord j)) by rewrite eR /rdiag mul_mx_diag !mxE.
  by rewrite key => <-; rewrite [LHS]mxE [RHS]mxE; apply: eq_bigr => k _; rewrite [R' _ _]mxE.
pose U := U0 + R' *m rdiag E'.
have x0 : U0^H *m (R' *m rdiag E') = 0.
  by rewrite -QR' mulmxA U0Q mul0mx.
exists (U, s, P^H); split=> /=.
- rewrite /U ctrD mulmxDl !mulmxDr x0 addr0 U0U0.
  rewrite -[X in _ + (X + _)]ctrK ctrM ctrK x0 ctr0 add0r ctrM rdiag_ctr -!mulmxA (mulmxA R'^H) R'R' mul1mx rdiagM E'E'.
  by rewrite -cmxN addrC subrK.
- by rewrite ctrK.
- by move=> i; rewrite mxE; apply: sqrt_pos.
- rewrite /U mulmxDl -(mulmxA R').
  rewrite rdiagM E's r0 mulmx0 addr0 /U0 -(mulmxA (X *m P)) rdiagM Ds.
  have -> : X *m P *m rdiag E = X *m P by apply/eqP; rewrite -subr_eq0 -oppr_eq0 opprB -{1}[X *m P]mulmx1 -mulmxBr cmxN XPE'.
  by rewrite -mulmxA PP mulmx1.
Qed.
Theorem svd_contract_sat : exists svd : svd_t, svd_contract svd.
Proof.
exists (fun n X => proj1_sig (constructive_indefinite_description _ (svd_exists_all X))) => n X.
by case: (constructive_indefinite_description _ _).
Qed.
