(** The spectral theorem for Hermitian matrices.  It shows that the contract
    assumed of [np.linalg.eigh] (Eigh.v) can be met for every Hermitian input. *)
From mathcomp Require Import all_ssreflect perm all_algebra.
From Verif Require Import MxC.
Import Order.TTheory GRing.Theory Num.Theory.
Set Implicit Arguments.
Unset Strict Implicit.
Unset Printing Implicit Defensive.
Local Open Scope ring_scope.

Section Spectral.
Variable C : numClosedFieldType.

Lemma exists_eigenvalue n (A : 'M[C]_n) : (0 < n)%N -> exists a, eigenvalue A a.
Proof.
move=> n0; have /closed_rootP[x rx] : size (char_poly A) != 1%N.
  by rewrite size_char_poly eqSS -lt0n.
by exists x; rewrite eigenvalue_root_char.
Qed.

(** an invariant non-zero subspace contains an eigenvector *)
Lemma exists_eigvec m n (V : 'M[C]_(m, n)) (A : 'M[C]_n) :
  V != 0 -> (V *m A <= V)%MS ->
  exists a (x : 'rV_n), [/\ x != 0, (x <= V)%MS & x *m A = a *: x].
Proof.
move=> V0 sV; pose f := row_base V *m A *m pinvmx (row_base V).
have rV : (0 < \rank V)%N by rewrite lt0n mxrank_eq0.
have [a /eigenvalueP[x xf x0]] := @exists_eigenvalue _ f rV.
exists a, (x *m row_base V); split.
- apply: contra x0 => /eqP e; apply/eqP; apply: (row_free_inj (row_base_free V)).
  by rewrite e mul0mx.
- by rewrite -(eq_row_base V) submxMl.
have st : (row_base V *m A <= row_base V)%MS.
  rewrite eq_row_base; apply: submx_trans sV.
  by rewrite submxMr // eq_row_base.
by rewrite scalemxAl -xf /f -[RHS]mulmxA mulmxKpV // mulmxA.
Qed.

Lemma herm_eig_real n (A : 'M[C]_n) a (x : 'rV[C]_n) :
  A^H = A -> x != 0 -> x *m A = a *: x -> a \is Num.real.
Proof.
move=> hA x0 e.
have xx : (x *m x^H) 0 0 != 0.
  have := proj2 (@pd1 C n) x^H; rewrite /form ctrK mulmx1 => H.
  apply: lt0r_neq0; apply: H; apply: contra x0 => /eqP e0.
  by rewrite -[x]ctrK e0 ctr0.
have e1 : (x *m A *m x^H) 0 0 = a * (x *m x^H) 0 0 by rewrite e -scalemxAl mxE.
have e2 : (x *m A *m x^H) 0 0 = a^* * (x *m x^H) 0 0.
  by rewrite -mulmxA -[A]hA -ctrM e ctrZ -scalemxAr mxE.
apply/CrealP; apply: (mulIf xx); by rewrite -e1 -e2.
Qed.

Lemma spectral_partial n (A : 'M[C]_n) k : A^H = A -> (k <= n)%N ->
  exists (V : 'M[C]_(k, n)) (d : 'rV[C]_k),
    [/\ V *m V^H = 1%:M, forall i, row i V *m A = d 0 i *: row i V & forall i, d 0 i \is Num.real].
Proof.
move=> hA; elim: k => [|k IH] kn.
  by exists 0, 0; split=> [|i|i]; [apply/matrixP; case|case: i|case: i].
have [V [d [oV eV rd]]] := IH (ltnW kn).
pose K := kermx V^H.
have eV' : V *m A = diag_mx d *m V.
  apply/row_matrixP => i; rewrite row_mul eV; apply/rowP => j.
  by rewrite mul_diag_mx !mxE.
have rfV : row_free V by apply/row_freeP; exists V^H.
have K0 : K != 0.
  rewrite -mxrank_eq0 mxrank_ker -lt0n subn_gt0.
  rewrite (leq_ltn_trans _ kn) //; exact: rank_leq_col.
have sK : (K *m A <= K)%MS.
  apply/sub_kermxP; rewrite -mulmxA -[A]hA -ctrM eV' ctrM mulmxA.
  by rewrite mulmx_ker mul0mx.
have [a [x [x0 xK xA]]] := exists_eigvec K0 sK.
have xV : x *m V^H = 0 by apply/sub_kermxP.
have ra := herm_eig_real hA x0 xA.
have xx : 0 < (x *m x^H) 0 0.
  have := proj2 (@pd1 C n) x^H; rewrite /form ctrK mulmx1 => H; apply: H.
  by apply: contra x0 => /eqP e0; rewrite -[x]ctrK e0 ctr0.
pose s := sqrtC ((x *m x^H) 0 0).
have s0 : 0 < s by rewrite sqrtC_gt0.
pose y := s^-1 *: x.
have sr : s^* = s by apply/CrealP; rewrite gtr0_real.
have yy : y *m y^H = 1%:M.
  rewrite /y ctrZ -scalemxAl -scalemxAr scalerA fmorphV sr -invfM -expr2 sqrtCK.
  by rewrite [X in _ *: X]mx11E scale_scalar_mx mulVf // gt_eqF.
have yV : y *m V^H = 0 by rewrite /y -scalemxAl xV scaler0.
have Vy : V *m y^H = 0 by apply: ctr_inj; rewrite ctrM ctrK yV ctr0.
have yA : y *m A = a *: y by rewrite /y -scalemxAl xA scalerA mulrC -scalerA.
rewrite -addn1.
exists (col_mx V y), (row_mx d (a%:M)); split.
- have -> : (col_mx V y)^H = row_mx V^H y^H.
    by rewrite /ctr map_col_mx tr_col_mx.
  by rewrite mul_col_row oV Vy yV yy -scalar_mx_block.
- move=> i; case: (split_ordP i) => j ->.
    by rewrite rowKu row_mxEl eV.
  by rewrite rowKd row_mxEr ord1 mxE eqxx mulr1n; have -> : row 0 y = y by apply/rowP => l; rewrite mxE.
- move=> i; case: (split_ordP i) => j ->; rewrite ?row_mxEl ?row_mxEr //.
  by rewrite ord1 mxE eqxx.
Qed.

(** the sorted spectral decomposition: [A V = V diag(d)], [V] unitary, [d]
    non-decreasing and real *)
Theorem spectral_theorem n (A : 'M[C]_n) : A^H = A ->
  exists (V : 'M[C]_n) (d : 'rV[C]_n),
    [/\ V^H *m V = 1%:M, A *m V = V *m diag_mx d, forall i, d 0 i \is Num.real &
        forall i j : 'I_n, (i <= j)%N -> d 0 i <= d 0 j].
Proof.
move=> hA; have [V [d [oV eV rd]]] := spectral_partial hA (leqnn n).
pose t : n.-tuple C := [tuple d 0 i | i < n].
pose st : n.-tuple C := [tuple of sort <=%R t].
have : perm_eq st t by rewrite /= perm_sort perm_refl.
case/tuple_permP => p ep.
have tst i : tnth st i = d 0 (p i).
  have -> : st = [tuple tnth t (p i) | i < n] by apply: val_inj.
  by rewrite !tnth_mktuple.
exists (row_perm p V)^H, (\row_i tnth st i); split.
- rewrite ctrK.
  rewrite /row_perm; apply/matrixP => i j.
  transitivity ((V *m V^H) (p i) (p j)); last by rewrite oV !mxE (inj_eq perm_inj).
  by rewrite !mxE; apply: eq_bigr => k _; rewrite !mxE.
- rewrite -[A]hA -ctrM; apply: ctr_inj; rewrite ctrK ctrM ctrK ctr_diag.
  apply/row_matrixP => i; rewrite row_mul; apply/rowP => j.
  have -> : row i (row_perm p V) = row (p i) V by apply/rowP => k; rewrite !mxE.
  by rewrite eV mul_diag_mx !mxE tst (CrealP (rd _)).
- by move=> i; rewrite mxE tst.
move=> i j ij; rewrite !mxE !(tnth_nth 0).
have srt : sorted <=%R (sort <=%R t).
  apply: (@sort_sorted_in _ [pred x | x \is Num.real]).
    by move=> x y; apply: real_leVge.
  by apply/allP => x /mapP[k _ ->]; apply: rd.
apply: (sorted_leq_nth le_trans le_refl 0 srt) => //; rewrite ?inE size_sort size_tuple //.
Qed.
End Spectral.
