(** C54: on whitened data the demixing filters of FastICA, FastIVA and FasterIVA are unitary after
    every update. *)
From Coq Require Import Reals Lra FunctionalExtensionality.
From mathcomp Require Import all_ssreflect all_algebra.
From Verif Require Import RStruct MxC CxR NpLin RealLemmas Eigh EighProofs SpatialISS Scale Prox ProxProofs AuxIVA SvdExist Gradient.
Import Order.TTheory GRing.Theory Num.Theory.
Set Implicit Arguments.
Unset Strict Implicit.
Unset Printing Implicit Defensive.
Local Open Scope ring_scope.

(** ** FastICA *)
Section FastICA.
Variables (n T : nat) (score dscore : 'rV[R]_T -> 'rV[R]_T).
Definition dot (u v : 'rV[R]_n) : R := \sum_k u 0 k * v 0 k.
Lemma dotDl u v w : dot (u + v) w = dot u w + dot v w.
Proof. by rewrite /dot -big_split; apply: eq_bigr => k _; rewrite mxE mulrDl. Qed.
Lemma dotC u v : dot u v = dot v u. Proof. by apply: eq_bigr => k _; rewrite mulrC. Qed.
Lemma dotZl a u w : dot (a *: u) w = a * dot u w.
Proof. by rewrite /dot mulr_sumr; apply: eq_bigr => k _; rewrite mxE mulrA. Qed.
Lemma dotBl u v w : dot (u - v) w = dot u w - dot v w.
Proof. by rewrite dotDl -scaleN1r dotZl mulN1r. Qed.
Lemma dot_suml (I : finType) (P : pred I) (f : I -> 'rV[R]_n) w : dot (\sum_(i | P i) f i) w = \sum_(i | P i) dot (f i) w.
Proof.
apply: (big_morph (fun v => dot v w)) => [u v|]; first exact: dotDl.
by rewrite /dot big1 // => k _; rewrite mxE mul0r.
Qed.
Definition ortho_upto (s : nat) (W : 'M[R]_n) : Prop :=
  forall i j : 'I_n, (i < s)%N -> (j < s)%N -> dot (row i W) (row j W) = (i == j)%:R.

Lemma deflate_ortho s (W : 'M[R]_n) (k : 'I_n) w : k = s :> nat -> ortho_upto s W ->
  forall i : 'I_n, (i < s)%N -> dot (deflate W k w) (row i W) = 0.
Proof.
move=> ks oW i is_; rewrite /deflate ks (leq_ltn_trans (leq0n i) is_) dotBl dot_suml.
have dE (j : 'I_n) : \sum_k0 W j k0 * w 0 k0 = dot w (row j W).
  by apply: eq_bigr => k0 _; rewrite mxE mulrC.
rewrite (bigD1 i) //= dotZl oW // eqxx mulr1 dE big1 ?addr0 ?subrr // => j /andP[js ji].
by rewrite dotZl oW // (negbTE ji) mulr0.
Qed.
Lemma row_set W (s : 'I_n) w i : row i (set_row W s w) = if i == s then w else row i W.
Proof. by apply/rowP => k; rewrite !mxE; case: eqP => // _; rewrite mxE. Qed.
Lemma ica_source_ortho s (Z : 'M[R]_(n, T)) W (k : 'I_n) W' : k = s :> nat -> ortho_upto s W ->
  ica_source score dscore Z W k = Some W' -> ortho_upto s.+1 W'.
Proof.
move=> ks oW; rewrite /ica_source; set w := deflate _ _ _; case: eqP => // nz [<-] i j.
set a := R_sqrt.sqrt _ in nz *.
have aa : dot w w = a * a.
  rewrite /a -[_ * _]/(_ * _)%coqR sqrt_sqrt; last first.
    by apply/RleP; apply: sumr_ge0 => t _; exact: sqr_ge0.
  by apply: eq_bigr => t _; rewrite expr2.
have a0 : a != 0 by apply/eqP.
have ik (i' : 'I_n) : (i' < s.+1)%N -> i' != k -> (i' < s)%N.
  by rewrite ltnS leq_eqVlt => /orP[/eqP e|//]; rewrite -val_eqE /= ks e eqxx.
move=> /ik iS /ik jS; rewrite !row_set.
case: (altP (i =P k)) => [->|/[dup] ni /iS iS']; case: (altP (j =P k)) => [->|/[dup] nj /jS jS'].
- by rewrite dotZl dotC dotZl aa eqxx mulrA -invfM mulVf // mulf_neq0.
- by rewrite dotZl (deflate_ortho _ ks oW jS') mulr0 eq_sym (negbTE nj).
- by rewrite dotC dotZl (deflate_ortho _ ks oW iS') mulr0 (negbTE ni).
- exact: oW.
Qed.
(** C54 (FastICA): after an update from any filter, for any score functions, the rows of the filter
    are orthonormal; hence on white data the outputs are white. *)
Theorem C54_fastica (Z : 'M[R]_(n, T)) W W' Y : fastica_step score dscore Z W = Some (W', Y) ->
  [/\ W' *m W'^T = 1%:M, W'^T *m W' = 1%:M, Y = W' *m Z &
      (T%:R)^-1 *: (Z *m Z^T) = 1%:M -> (T%:R)^-1 *: (Y *m Y^T) = 1%:M].
Proof.
rewrite /fastica_step; case: ifP => // _.
have gen (l : seq 'I_n) s V V' : map val l = iota s (size l) -> ortho_upto s V ->
    foldl (fun o k => if o is Some U then ica_source score dscore Z U k else None) (Some V) l = Some V' ->
    ortho_upto (s + size l) V'.
  elim: l s V => [|k l IH] s V /=; first by move=> _ oV [<-]; rewrite addn0.
  case=> ks ls oV; case E: (ica_source score dscore Z V k) => [V1|]; last first.
    by have -> : forall l', foldl (fun o k0 => if o is Some U then ica_source score dscore Z U k0 else None) None l' = None by elim.
  by rewrite addnS -addSn; apply: IH => //; apply: ica_source_ortho E.
case E: (foldl _ _ _) => [V|] //= [<- <-].
have o : ortho_upto (0 + size (enum 'I_n)) V.
  by apply: gen E => //; rewrite val_enum_ord size_enum_ord.
rewrite size_enum_ord add0n in o.
have u : V *m V^T = 1%:M.
  apply/matrixP => i j; rewrite !mxE -(o i j (ltn_ord i) (ltn_ord j)).
  by apply: eq_bigr => k _; rewrite !mxE.
split=> //; first exact: mulmx1C.
have -> : V *m Z *m (V *m Z)^T = V *m (Z *m Z^T) *m V^T by rewrite trmx_mul !mulmxA.
by move=> z; rewrite scalemxAl scalemxAr z mulmx1.
Qed.
(** C54 (FastICA): an update fails only when there is no frame, or when the new direction of some
    source vanishes once the rows above it have been updated. *)
Theorem C54_fastica_fails (Z : 'M[R]_(n, T)) W : fastica_step score dscore Z W = None ->
  T = 0%N \/ exists l1 s l2 V, [/\ enum 'I_n = l1 ++ s :: l2,
    foldl (fun o k => if o is Some U then ica_source score dscore Z U k else None) (Some W) l1 = Some V &
    deflate V s (ica_raw score dscore Z (row s V)) = 0].
Proof.
rewrite /fastica_step; case: eqP => [|_]; first by left.
have gen (l : seq 'I_n) V : foldl (fun o k => if o is Some U then ica_source score dscore Z U k else None) (Some V) l = None ->
    exists l1 s l2 V', [/\ l = l1 ++ s :: l2,
    foldl (fun o k => if o is Some U then ica_source score dscore Z U k else None) (Some V) l1 = Some V' &
    deflate V' s (ica_raw score dscore Z (row s V')) = 0].
  elim: l V => [//|s l IH] V /=; case E: (ica_source score dscore Z V s) => [V1|].
    by move/IH => [l1 [s' [l2 [V' [-> e2 e3]]]]]; exists (s :: l1), s', l2, V'; split=> //=; rewrite E.
  move=> _; exists [::], s, l, V; split=> //.
  move: E; rewrite /ica_source; set w := deflate _ _ _; case: eqP => // e _.
  have ge : (0 <= \sum_k w 0 k ^+ 2)%coqR by apply/RleP; apply: sumr_ge0 => t _; exact: sqr_ge0.
  have /eqP := sqrt_eq_0 _ ge e; rewrite psumr_eq0; last by move=> t _; exact: sqr_ge0.
  move=> /allP z; apply/rowP => k; rewrite mxE; have := z k (mem_index_enum k).
  by rewrite sqrf_eq0 => /eqP.
case E: (foldl _ _ _) => [//|] _; right; exact: gen E.
Qed.
End FastICA.

(** ** FastIVA and FasterIVA *)
Lemma polarP n (svd : svd_t) (W : 'M[Cx]_n) : svd_spec W (svd n W) ->
  [/\ polar_factor svd W *m (polar_factor svd W)^H = 1%:M, (polar_factor svd W)^H *m polar_factor svd W = 1%:M &
   exists P, [/\ psd P, P *m P = W *m W^H & P *m polar_factor svd W = W]].
Proof.
rewrite /polar_factor; case: (svd n W) => [[u s] v] [/= uu vv s0 WE].
split.
- by rewrite ctrM !mulmxA -(mulmxA u) vv mulmx1 mulmx1C.
- by rewrite ctrM !mulmxA -(mulmxA v^H) uu mulmx1 mulmx1C.
exists (recompose s u); split; first exact: recompose_psd.
- by rewrite /recompose WE !ctrM rdiag_ctr !mulmxA -(mulmxA _ u^H u) uu mulmx1 -(mulmxA _ v) vv mulmx1.
- by rewrite /recompose !mulmxA -(mulmxA _ u^H u) uu mulmx1 -WE.
Qed.
Lemma c_natr m : c (m%:R) = m%:R.
Proof. by elim: m => [|m IH]; [exact: c0|rewrite -addn1 !natrD cD IH c1]. Qed.
Lemma eigh_top n (U : 'M[Cx]_n) r (l : 'I_n) : val l = n.-1 -> eigh_spec U r ->
  [/\ U *m col l r.2 = c (r.1 0 l) *: col l r.2, (col l r.2)^H *m col l r.2 = 1%:M &
      forall x : 'cV[Cx]_n, form U x x <= c (r.1 0 l) * form 1%:M x x].
Proof.
move=> ln sp; have rE := eigh_recompose sp; case: r sp rE => d P [/= uP e asc] rE; split.
- rewrite {1}colE mulmxA e -colE; apply/colP => k; rewrite /rdiag mul_mx_diag !mxE; exact: mulrC.
- apply/matrixP => a b; rewrite !ord1; have /matrixP/(_ l l) := uP; rewrite !mxE eqxx => <-.
  by apply: eq_bigr => k _; rewrite /ctr !mxE.
- move=> x; rewrite {1}rE form_recompose form_rdiag -(recompose1 uP) form_recompose rdiag1 form1E -cM cle.
  rewrite mulr_sumr; apply: ler_sum => k _; apply: ler_wpmul2r; first exact: sqr_ge0.
  by apply/RleP/asc; rewrite ln -ltnS prednK ?ltn_ord //; case: (n) k => [[]|].
Qed.

Section FastIVA.
Variables (F n T : nat) (fl : R -> R) (svd : svd_t) (dG ddG : 'I_n -> 'I_T -> R -> R) (eig : eigh_t).
Hypothesis hs : svd_contract svd.
Notation spec := ('I_F -> 'M[Cx]_(n, T)).
Notation filt := ('I_F -> 'M[Cx]_n).

Definition unitary_filters (W : filt) : Prop := forall i, W i *m (W i)^H = 1%:M /\ (W i)^H *m W i = 1%:M.
(** C54 (FastIVA): after an update from any filters the filters are unitary; they are the documented
    (W W^H)^{-1/2} W of the filters given by the fixed-point formula. *)
Theorem C54_fastiva (Z : spec) W W' : fastiva_step fl svd dG ddG Z W = Some W' ->
  unitary_filters W' /\
  let Y i := W i *m Z i in
  let r s t := R_sqrt.sqrt (\sum_i cabs (Y i s t) ^+ 2) in
  let phi s t := (dG s t (r s t) / fl (2 * r s t))%coqR in
  forall i, exists V P, [/\ psd P, P *m P = V *m V^H, P *m W' i = V &
    forall s k, (V s k)^* = (T%:R)^-1 * (\sum_t c (phi s t) * ((W i s k)^* - (Y i s t)^* * Z i k t))
      - (T%:R)^-1 * (\sum_t c ((2 * phi s t - ddG s t (r s t)) / fl (2 * r s t))%coqR * c (cabs (Y i s t) ^+ 2) * (W i s k)^*)].
Proof.
rewrite /fastiva_step; case: ifP => // _ [<-]; split=> [i|i].
  by have [a b _] := polarP (hs (fastiva_raw (weight fl dG (norms (separate_all Z W)))
     (\matrix_(s, t) ((2 * weight fl dG (norms (separate_all Z W)) s t - ddG s t (norms (separate_all Z W) s t)) / fl (2 * norms (separate_all Z W) s t))%coqR)
     (Z i) (separate_all Z W i) (W i))).
set V := fastiva_raw _ _ _ _ _; have [_ _ [P [p1 p2 p3]]] := polarP (hs V); exists V, P; split=> // s k.
rewrite mxE conjCK /meanC cV c_natr; congr (_ * _ - _ * _); apply: eq_bigr => t _; rewrite !mxE //.
by rewrite cM mulrC.
Qed.
(** the update fails only on frames at which the floored norm vanishes *)
Theorem C54_fastiva_defined (Z : spec) W : (0 < T)%N ->
  (forall s t, fl (2 * R_sqrt.sqrt (\sum_i cabs ((W i *m Z i) s t) ^+ 2))%coqR <> 0) ->
  exists W', fastiva_step fl svd dG ddG Z W = Some W'.
Proof.
move=> T0 nz; rewrite /fastiva_step -lt0n T0 /=.
have -> : [forall s, finite_weight fl (norms (separate_all Z W)) s]; last by eexists.
by apply/forallP => s; apply/forallP => t; rewrite mxE; apply/eqP; exact: nz.
Qed.
Theorem C54_fasteriva_defined (Z : spec) W : (0 < T)%N ->
  (forall s t, fl (2 * R_sqrt.sqrt (\sum_i cabs ((W i *m Z i) s t) ^+ 2))%coqR <> 0) ->
  exists W', fasteriva_step fl svd dG eig Z W = Some W'.
Proof.
move=> T0 nz; rewrite /fasteriva_step -lt0n T0 /=.
have -> : [forall s, finite_weight fl (norms (separate_all Z W)) s]; last by eexists.
by apply/forallP => s; apply/forallP => t; rewrite mxE; apply/eqP; exact: nz.
Qed.
(** C54 (FasterIVA): the same; the rows are the eigenvectors of the weighted covariance matrices
    with the largest eigenvalues. *)
Theorem C54_fasteriva (Z : spec) W W' : eigh_contract eig -> fasteriva_step fl svd dG eig Z W = Some W' ->
  unitary_filters W' /\
  let Y i := W i *m Z i in
  let r s t := R_sqrt.sqrt (\sum_i cabs (Y i s t) ^+ 2) in
  let phi s t := (dG s t (r s t) / fl (2 * r s t))%coqR in
  let U i s := \matrix_(a, b) ((T%:R)^-1 * (\sum_t c (phi s t) * (Z i a t * (Z i b t)^*))) in
  forall i, exists V P, [/\ psd P, P *m P = V *m V^H, P *m W' i = V &
    forall s, exists la : R,
      [/\ U i s *m (row s V)^H = c la *: (row s V)^H, (row s V) *m (row s V)^H = 1%:M &
          forall x : 'cV[Cx]_n, form (U i s) x x <= c la * form 1%:M x x]].
Proof.
move=> he; rewrite /fasteriva_step; case: ifP => // _ [<-]; split=> [i|i].
  by have [a b _] := polarP (hs (fasteriva_raw eig (weight fl dG (norms (separate_all Z W))) (Z i))).
set V := fasteriva_raw _ _ _; have [_ _ [P [p1 p2 p3]]] := polarP (hs V); exists V, P; split=> // s.
set U := \matrix_(a, b) _.
have UE : wcov (weight fl dG (norms (separate_all Z W))) (Z i) s = U.
  by apply/matrixP => a b; rewrite !mxE /meanC cV c_natr; congr (_ * _); apply: eq_bigr => t _; rewrite !mxE.
have hU : U^H = U.
  apply/matrixP => a b; rewrite /ctr !mxE rmorphM fmorphV rmorph_nat; congr (_ * _); rewrite rmorph_sum.
  by apply: eq_bigr => t _; rewrite !rmorphM c_conj conjCK [_^* * Z i a t]mulrC.
have n0 : (n.-1 < n)%N by rewrite prednK //; apply: leq_ltn_trans (ltn_ord s).
have [] := eigh_top (l := Ordinal n0) (erefl _) (he _ _ hU).
have -> : col (Ordinal n0) (eig U).2 = (row s V)^H.
  apply/colP => k; rewrite /ctr !mxE; case: insubP => [l _ lE|]; last by rewrite n0.
  by rewrite UE conjCK; congr (_ _ _); apply/val_inj.
by rewrite ctrK => a1 a2 a3; exists ((eig U).1 0 (Ordinal n0)).
Qed.
(** C54: after any positive number of updates the filters are unitary, and on white data so are the
    outputs. *)
Theorem C54_run step k (Z : spec) W W' Y : (forall V V', step Z V = Some V' -> unitary_filters V') -> (0 < k)%N ->
  fast_run step k Z W = Some (W', Y) ->
  [/\ unitary_filters W', forall i, Y i = W' i *m Z i &
      forall i, (T%:R)^-1 *: (Z i *m (Z i)^H) = 1%:M -> (T%:R)^-1 *: (Y i *m (Y i)^H) = 1%:M].
Proof.
move=> hst k0; have gen : fast_run step k Z W = Some (W', Y) -> unitary_filters W' /\ forall i, Y i = W' i *m Z i.
  elim: k k0 W => [//|k IH] _ W /=; case E: (step Z W) => [V|] //.
  case: k IH => [_ /= [<- <-]|k IH]; last exact: IH.
  by split=> //; apply: hst E.
move=> /gen [uW yE]; split=> // i zi; have [ww _] := uW i.
by rewrite yE ctrM -(mulmxA (W' i)) (mulmxA (Z i)) scalemxAr scalemxAl zi mul1mx.
Qed.
End FastIVA.

(** ** Instances *)
Lemma ica_sourceE n T score dscore (Z : 'M[R]_(n, T)) W s : deflate W s (ica_raw score dscore Z (row s W)) != 0 ->
  exists a, [/\ a != 0, ica_source score dscore Z W s = Some (set_row W s (a *: deflate W s (ica_raw score dscore Z (row s W)))) &
    a ^+ 2 * (\sum_k deflate W s (ica_raw score dscore Z (row s W)) 0 k ^+ 2) = 1].
Proof.
rewrite /ica_source; set w := deflate _ _ _ => w0.
have ge : (0 <= \sum_k w 0%R k ^+ 2)%coqR by apply/RleP; apply: sumr_ge0 => t _; exact: sqr_ge0.
have nz : R_sqrt.sqrt (\sum_k w 0 k ^+ 2) != 0.
  apply: contraNneq w0 => /(sqrt_eq_0 _ ge)/eqP; rewrite psumr_eq0; last by move=> t _; exact: sqr_ge0.
  move=> /allP z; apply/eqP/rowP => k; rewrite mxE; have := z k (mem_index_enum k).
  by rewrite sqrf_eq0 => /eqP.
exists (R_sqrt.sqrt (\sum_k w 0 k ^+ 2))^-1; split; rewrite ?invr_eq0 ?(negbTE nz) //.
have {2}-> : \sum_k w 0 k ^+ 2 = R_sqrt.sqrt (\sum_k w 0 k ^+ 2) ^+ 2.
  by rewrite expr2; symmetry; apply: sqrt_sqrt.
by rewrite exprVn mulVf // sqrf_eq0.
Qed.
(** a filter that is not orthogonal, on white data, is made orthogonal *)
Example C54_fastica_instance : exists (score dscore : 'rV[R]_2 -> 'rV[R]_2) (Z W : 'M[R]_2) W' Y,
  [/\ (2%:R)^-1 *: (Z *m Z^T) = 1%:M, W *m W^T <> 1%:M & fastica_step score dscore Z W = Some (W', Y)].
Proof.
pose Z : 'M[R]_2 := \matrix_(i, j) (if (i == 1) && (j == 1) then -1 else 1).
pose W : 'M[R]_2 := \matrix_(i, j) (if (i == 1) && (j == 0) then 0 else 1).
pose sc (y : 'rV[R]_2) : 'rV[R]_2 := 0; pose ds (y : 'rV[R]_2) : 'rV[R]_2 := const_mx 1.
have n2 : (2%:R : R) != 0 by rewrite pnatr_eq0.
have raw w : ica_raw sc ds Z w = w.
  rewrite /ica_raw /rmean; have -> : (\sum_t ds (w *m Z) 0 t) = 2%:R by rewrite big_ord_recl big_ord1 !mxE.
  rewrite mulVf // scale1r -[RHS]subr0; congr (_ - _); apply/rowP => k; rewrite !mxE big1 ?mulr0 // => t _.
  by rewrite !mxE mul0r.
have [W'' [Y E]] : exists W' Y, fastica_step sc ds Z W = Some (W', Y); last first.
  exists sc, ds, Z, W, W'', Y; split=> //.
    apply/matrixP => i j; rewrite !mxE big_ord_recl big_ord1 !mxE.
    have [->|->] : i = 0 \/ i = 1 by case: i => [[|[|]]] //= h; [left|right]; apply/val_inj.
      have [->|->] : j = 0 \/ j = 1 by case: j => [[|[|]]] //= h; [left|right]; apply/val_inj.
        by rewrite /= !mulr1 mulVf.
      by rewrite /= !mulr1 !mulrN !mul1r subrr mulr0.
    have [->|->] : j = 0 \/ j = 1 by case: j => [[|[|]]] //= h; [left|right]; apply/val_inj.
      by rewrite /= !mulr1 addrN mulr0.
    by rewrite /= mulrNN !mulr1 mulVf.
  move=> /matrixP/(_ 0 1); rewrite !mxE big_ord_recl big_ord1 !mxE /= mulr0 mulr1 add0r => /eqP.
  by rewrite oner_eq0.
rewrite /fastica_step /=.
have -> : enum 'I_2 = [:: 0; 1].
  by apply: (inj_map val_inj); rewrite val_enum_ord.
rewrite [foldl _ _ _]/=.
have d0 : deflate W 0 (ica_raw sc ds Z (row 0 W)) != 0.
  rewrite raw /deflate /=; apply/eqP => /rowP/(_ 0); rewrite !mxE /= => /eqP; by rewrite oner_eq0.
have [a [a0 -> an]] := ica_sourceE d0; set V := set_row _ _ _.
have V0 k : V 0 k = a by rewrite /V raw /deflate /= !mxE /= mulr1.
have V1 k : V 1 k = (k == 1)%:R.
  rewrite /V !mxE /=; have [->|->] : k = 0 \/ k = 1 by case: k => [[|[|]]] //= h; [left|right]; apply/val_inj.
    by [].
  by [].
have {}an : a ^+ 2 + a ^+ 2 = 1.
  by rewrite -an raw /deflate /= big_ord_recl big_ord1 !mxE /= expr1n mulrDr mulr1.
clearbody V.
have d1 : deflate V 1 (ica_raw sc ds Z (row 1 V)) != 0.
  rewrite raw /deflate /=; apply/eqP => /rowP/(_ 1); rewrite !mxE V1 /=.
  rewrite summxE big_mkcond big_ord_recl big_ord1 /= addr0 !mxE big_ord_recl big_ord1 !mxE !V0 V1 /= V1.
  rewrite mulr0 add0r mulr1 -expr2 -{1}an addrK => /eqP; rewrite sqrf_eq0 (negbTE a0) //.
by have [b [b0 -> _]] := ica_sourceE d1; do 2 eexists.
Qed.
(** the contracts of the routines can be met together, and with [max_flooring] the updates are
    defined on all inputs *)
Example C54_fastiva_instance : exists (svd : svd_t) (eig : eigh_t), [/\ svd_contract svd, eigh_contract eig &
  forall F n T (dG ddG : 'I_n -> 'I_T -> R -> R) eps (Z : 'I_F -> 'M[Cx]_(n, T)) W, (0 < T)%N -> (0 < eps)%coqR ->
   (exists W', fastiva_step (max_flooring eps) svd dG ddG Z W = Some W') /\
   (exists W', fasteriva_step (max_flooring eps) svd dG eig Z W = Some W')].
Proof.
have [svd hs] := svd_contract_sat; have [eig he] := eigh_contract_sat; exists svd, eig; split=> // F n T dG ddG eps Z W T0 e0.
have nz (x : R) : max_flooring eps x <> 0 by rewrite /max_flooring => e; have := Rmax_r x eps; rewrite e -[0]/0%coqR; lra.
split; [exact: C54_fastiva_defined|exact: C54_fasteriva_defined].
Qed.
Print Assumptions C54_fastica.
Print Assumptions C54_fastica_fails.
Print Assumptions C54_fastiva.
Print Assumptions C54_fastiva_defined.
Print Assumptions C54_fasteriva.
Print Assumptions C54_fasteriva_defined.
Print Assumptions C54_run.
