(** C91: what complete calls of FastIVA and FasterIVA depend on. *)
From Coq Require Import Reals Lra FunctionalExtensionality.
From mathcomp Require Import all_ssreflect all_algebra all_fingroup.
From mathcomp Require Import ring.
From Verif Require Import RealLemmas NmfMM RStruct MxC CxR NpLin RealLemmas Eigh EighProofs SpatialISS Scale ScaleProofs Prox ProxProofs AuxIVA AuxIVAProofs AuxIVARun AuxIVACall SvdExist Gradient FastRun IpsdtaProofs.
From Verif Require Import Prop_Fast Prop_Bins Prop_Scale.
Import Order.TTheory GRing.Theory Num.Theory.
Set Implicit Arguments.
Unset Strict Implicit.
Unset Printing Implicit Defensive.
Local Open Scope ring_scope.

(** * Which eigenvectors a routine may return *)
Lemma eig_change n (A : 'M[Cx]_n) (r q : 'rV[R]_n * 'M[Cx]_n) : eigh_spec A r -> eigh_spec A q ->
  exists M, [/\ r.2 *m M = q.2, M^H *m M = 1%:M & forall a b, M a b != 0 -> r.1 0 a = q.1 0 b].
Proof.
move=> hr; have [u e _] := hr => -[v f _]; exists (r.2^H *m q.2); split.
- by rewrite mulmxA (mulmx1C u) mul1mx.
- rewrite ctrM ctrK !mulmxA -(mulmxA _ r.2) (mulmx1C u) mulmx1; exact: v.
move=> a b nz.
have hA : A^H = A by rewrite (eigh_recompose hr) /recompose !ctrM ctrK rdiag_ctr mulmxA.
have E : rdiag r.1 *m (r.2^H *m q.2) = (r.2^H *m q.2) *m rdiag q.1.
  rewrite -mulmxA -f mulmxA; have -> : rdiag r.1 *m r.2^H = r.2^H *m A; last by rewrite mulmxA.
  by apply: ctr_inj; rewrite !ctrM ctrK rdiag_ctr hA e.
move: (r.2^H *m q.2) nz E => N nz /matrixP/(_ a b); rewrite /rdiag mul_diag_mx mul_mx_diag !mxE mulrC => /(mulfI nz); exact: c_inj.
Qed.
Section Eig.
Variables (n : nat) (r q : 'rV[R]_n * 'M[Cx]_n) (M : 'M[Cx]_n).
Hypotheses (M_q : r.2 *m M = q.2) (M_uni : M^H *m M = 1%:M) (M_eq : forall a b, M a b != 0 -> r.1 0 a = q.1 0 b).
Hypothesis upr : forall i j : 'I_n, (i <= j)%N -> (r.1 0%R i <= r.1 0%R j)%coqR.
Hypothesis upq : forall i j : 'I_n, (i <= j)%N -> (q.1 0%R i <= q.1 0%R j)%coqR.
Lemma M_row a : exists b, M a b != 0.
Proof.
apply/existsP; apply: contraT => /existsPn z; exfalso.
have /matrixP/(_ a a) := mulmx1C M_uni; rewrite [LHS]mxE [RHS]mxE eqxx big1 => [/eqP|b _]; first by rewrite eq_sym oner_eq0.
by have := z b; rewrite negbK => /eqP ->; rewrite mul0r.
Qed.
Lemma M_col b : exists a, M a b != 0.
Proof.
apply/existsP; apply: contraT => /existsPn z; exfalso.
have /matrixP/(_ b b) := M_uni; rewrite [LHS]mxE [RHS]mxE eqxx big1 => [/eqP|a _]; first by rewrite eq_sym oner_eq0.
by have := z a; rewrite negbK => /eqP ->; rewrite mulr0.
Qed.
Lemma M_one b : (forall a, M a b != 0 -> a = b) -> M b b * (M b b)^* = 1 /\ forall k, q.2 k b = r.2 k b * M b b.
Proof.
move=> o; have z a : a != b -> M a b = 0 by move=> ab; apply/eqP; apply: contraNT ab => /o ->.
split.
  have /matrixP/(_ b b) := M_uni; rewrite [LHS]mxE [RHS]mxE eqxx (bigD1 b) //= big1 => [|a /z ->]; last by rewrite mulr0.
  by rewrite addr0 ctrE mulrC.
by move=> k; rewrite -M_q mxE (bigD1 b) //= big1 ?addr0 // => a /z ->; rewrite mulr0.
Qed.
(** the eigenvector of the largest eigenvalue, if that is simple *)
Lemma eig_top_ (l : 'I_n) : val l = n.-1 -> (forall a, a <> l -> (r.1 0%R a < r.1 0%R l)%coqR) ->
  exists d : Cx, d * d^* = 1 /\ forall k, q.2 k l = r.2 k l * d.
Proof.
move=> ln sm; exists (M l l); apply: M_one => a nz.
have [//|/eqP al] := eqVneq a l; have := sm a al; rewrite (M_eq nz).
have [b /M_eq ->] := M_row l.
move: (upq (i := b) (j := l)); rewrite ln -ltnS prednK ?ltn_ord //; last by case: (n) l {ln sm nz al} => [[]|].
by move=> /(_ isT); lra.
Qed.
(** all of them *)
Lemma eig_all_ : (forall a b, r.1 0 a = r.1 0 b -> a = b) ->
  q.1 = r.1 /\ exists d : 'rV[Cx]_n, (forall a, d 0 a * (d 0 a)^* = 1) /\ q.2 = r.2 *m diag_mx d.
Proof.
move=> inj.
have C b : {a | M a b != 0} by exists (xchoose (M_col b)); exact: (xchooseP (M_col b)).
pose f b := sval (C b).
have fE b : q.1 0 b = r.1 0 (f b) by apply/esym/M_eq; exact: (svalP (C b)).
have fS b a : M a b != 0 -> a = f b by move=> nz; apply: inj; rewrite -fE; exact: M_eq.
have fI : injective f.
  move=> b b' e; apply/eqP; apply: contraT => bb; exfalso.
  have /matrixP/(_ b b') := M_uni; rewrite [LHS]mxE [RHS]mxE (negbTE bb) (bigD1 (f b)) //= big1 => [|a af].
    rewrite addr0 ctrE => /eqP; rewrite mulf_eq0 conjC_eq0 (negbTE (svalP (C b))) /=.
    by rewrite {1}e (negbTE (svalP (C b'))).
  by have [->|/fS /eqP] := eqVneq (M a b') 0; [rewrite mulr0|rewrite -e (negbTE af)].
have fm (a b : 'I_n) : (a < b)%N -> (f a < f b)%N.
  move=> ab; rewrite ltn_neqAle; apply/andP; split; first by apply/eqP => /val_inj /fI e; move: ab; rewrite e ltnn.
  rewrite leqNgt; apply/negP => ba; have := upr (ltnW ba); rewrite -!fE => h1.
  have h2 := upq (ltnW ab).
  have /fI e : f a = f b by apply: inj; rewrite -!fE; apply: Rle_antisym.
  by move: ab; rewrite e ltnn.
have lo k : forall a : 'I_n, val a = k -> (k <= f a)%N.
  elim: k => [//|k IH] a ak; have kn : (k < n)%N by rewrite -ltnS -ak ltnW ?ltnS ?ltn_ord.
  by apply: leq_ltn_trans (IH (Ordinal kn) erefl) (fm _ _ _); rewrite /= ak.
have fid b : f b = b.
  have s : (\sum_a f a = \sum_(a < n) a)%N by rewrite [RHS](reindex_inj fI).
  move: s; rewrite (bigD1 b) //= [in RHS](bigD1 b) //= => s.
  have h : (\sum_(a | a != b) a <= \sum_(a | a != b) f a)%N by apply: leq_sum => a _; exact: lo.
  apply/val_inj/eqP; rewrite eqn_leq (lo _ b erefl) andbT.
  by rewrite -(leq_add2r (\sum_(a | a != b) f a)%N) s leq_add2l.
have o b := M_one (fun a nz => etrans (fS b a nz) (fid b)).
split; first by apply/rowP => b; rewrite fE fid.
exists (\row_b M b b); split=> [a|]; first by rewrite mxE; have [] := o a.
by apply/matrixP => k b; rewrite mul_mx_diag !mxE; have [_ ->] := o b.
Qed.
End Eig.
Lemma eig_top n (A : 'M[Cx]_n) r q (l : 'I_n) : eigh_spec A r -> eigh_spec A q ->
  val l = n.-1 -> (forall a, a <> l -> (r.1 0%R a < r.1 0%R l)%coqR) ->
  exists d : Cx, d * d^* = 1 /\ forall k, q.2 k l = r.2 k l * d.
Proof. move=> hr hq; have [M [h1 h2 h3]] := eig_change hr hq; exact: (eig_top_ h1 h2 h3 (let: And3 _ _ u := hq in u)). Qed.
Lemma eig_all n (A : 'M[Cx]_n) r q : eigh_spec A r -> eigh_spec A q -> (forall a b, r.1 0 a = r.1 0 b -> a = b) ->
  q.1 = r.1 /\ exists d : 'rV[Cx]_n, (forall a, d 0 a * (d 0 a)^* = 1) /\ q.2 = r.2 *m diag_mx d.
Proof. move=> hr hq; have [M [h1 h2 h3]] := eig_change hr hq; exact: (eig_all_ h1 h2 h3 (let: And3 _ _ u := hr in u) (let: And3 _ _ u := hq in u)). Qed.

(** * Whitening and polar factors *)
Definition phases n (d : 'rV[Cx]_n) : Prop := forall a, d 0 a * (d 0 a)^* = 1.
Definition distinct n (l : 'rV[R]_n) : Prop := forall a b, l 0 a = l 0 b -> a = b.
Lemma diag_ctr n (d : 'rV[Cx]_n) : (diag_mx d)^H = diag_mx (map_mx conjC d).
Proof.
apply/matrixP => a b; rewrite ctrE !mxE eq_sym; case: eqP => [->|_]; rewrite ?mulr1n ?mulr0n //; exact: conjC0.
Qed.
Lemma diag_mulE n p (d : 'rV[Cx]_n) (A : 'M[Cx]_(n, p)) a b : (diag_mx d *m A) a b = d 0 a * A a b.
Proof. by rewrite mul_diag_mx mxE. Qed.
Lemma mul_diagE n p (d : 'rV[Cx]_n) (A : 'M[Cx]_(p, n)) a b : (A *m diag_mx d) a b = A a b * d 0 b.
Proof. by rewrite mul_mx_diag mxE. Qed.
Lemma mul_diagHE n p (d : 'rV[Cx]_n) (A : 'M[Cx]_(p, n)) a b : (A *m (diag_mx d)^H) a b = A a b * (d 0 b)^*.
Proof. by rewrite diag_ctr mul_diagE mxE. Qed.
Lemma phases_uni n (d : 'rV[Cx]_n) : phases d -> diag_mx d *m (diag_mx d)^H = 1%:M.
Proof.
move=> h; apply/matrixP => a b; rewrite mul_diagHE !mxE; case: eqP => [->|_]; last by rewrite mulr0n mul0r.
by rewrite mulr1n h.
Qed.
Lemma phases_abs n (d : 'rV[Cx]_n) a : phases d -> cabs (d 0 a) = 1.
Proof.
move=> h; have := h a; rewrite -cabs_sqr -c1 => /c_inj; have := cabs_ge0 (d 0 a).
by rewrite -RpowE; move: (cabs _) => x x0; rewrite -[1 : R]/1%coqR => e; apply: Rsqr_inj => //; [lra|rewrite Rsqr_1 /Rsqr; rewrite -e; rewrite /=; lra].
Qed.

Section Whiten.
Variables (n T : nat) (eig1 eig2 : eigh_t) (pj : {perm 'I_T}).
Hypotheses (h1 : eigh_contract eig1) (h2 : eigh_contract eig2).
Lemma cov_herm (X : 'M[Cx]_(n, T)) : (covariance X)^H = covariance X.
Proof. by rewrite /covariance ctrZ ctrM ctrK fmorphV conjC_nat. Qed.
Lemma gram_frames (X : 'M[Cx]_(n, T)) : col_perm pj X *m (col_perm pj X)^H = X *m X^H.
Proof.
apply/matrixP => a b; rewrite [LHS]mxE [RHS]mxE [RHS](reindex_inj (@perm_inj _ pj)); apply: eq_bigr => t _.
by rewrite !ctrE !mxE.
Qed.
Lemma cov_rel (X : 'M[Cx]_(n, T)) e (Q : 'M[Cx]_n) :
  covariance (e *: (Q *m col_perm pj X)) = c (cabs e ^+ 2) *: (Q *m covariance X *m Q^H).
Proof.
rewrite /covariance ctrZ ctrM -scalemxAl -!scalemxAr -scalemxAl !scalerA cabs_sqr !mulmxA -(mulmxA Q) gram_frames.
by rewrite !mulmxA; congr (_ *: _); rewrite -mulrA mulrC.
Qed.
Lemma eig_back (A Q : 'M[Cx]_n) (b : R) r : (0 < b)%coqR -> Q *m Q^H = 1%:M -> eigh_spec (c b *: (Q *m A *m Q^H)) r ->
  eigh_spec A (\row_a (/ b * r.1 0%R a)%coqR, Q^H *m r.2).
Proof.
move=> b0 uQ [u e up]; split; cbn [fst snd].
- by rewrite ctrM ctrK mulmxA -(mulmxA _ Q) uQ mulmx1.
- have zb : c b != 0 by apply: c_neq0; lra.
  have -> : A *m (Q^H *m r.2) = (c b)^-1 *: (Q^H *m (c b *: (Q *m A *m Q^H) *m r.2)).
    by rewrite -!scalemxAl -!scalemxAr scalerA mulVf // scale1r !mulmxA (mulmx1C uQ) mul1mx.
  rewrite e -!mulmxA scalemxAr; congr (_ *m _); rewrite scalemxAr; congr (_ *m _).
  by apply/matrixP => x y; rewrite !mxE -cRV ?cRM; [rewrite mulrnAr|lra].
- move=> i j ij; rewrite !mxE; apply: Rmult_le_compat_l; last exact: up.
  by apply: Rlt_le; apply: Rinv_0_lt_compat.
Qed.
(** whitening a recording multiplied by a factor and a unitary matrix, with any routine for
    eigenvectors: the rows of the whitened recording are multiplied by phases *)
Lemma whiten_rel (X : 'M[Cx]_(n, T)) e (Q : 'M[Cx]_n) : e != 0 -> Q *m Q^H = 1%:M -> distinct (eig1 (covariance X)).1 ->
  exists d, phases d /\ whiten eig2 3 true (e *: (Q *m col_perm pj X)) =
    match whiten eig1 3 true X with Ok Z => Ok (diag_mx d *m col_perm pj Z) | LinAlgError => LinAlgError | ValueError => ValueError end.
Proof.
move=> e0 uQ di; rewrite /whiten /= /whiten_bin; case: (altP (T =P 0%N)) => T0.
  by exists (const_mx 1); split=> // a; rewrite mxE mul1r conjC1.
rewrite cov_rel; have b0 : (0 < cabs e ^+ 2)%coqR by rewrite -RpowE; apply: pow_lt; exact: cabs_gt0.
have s2 := h2 (A := c (cabs e ^+ 2) *: (Q *m covariance X *m Q^H)).
have {s2}/s2 s2 : (c (cabs e ^+ 2) *: (Q *m covariance X *m Q^H))^H = c (cabs e ^+ 2) *: (Q *m covariance X *m Q^H).
  by rewrite ctrZ c_conj !ctrM ctrK cov_herm mulmxA.
have [eL [d [hd eV]]] := eig_all (h1 (cov_herm X)) (eig_back b0 uQ s2) di.
move: (h1 (cov_herm X)) di eL eV s2; case: (eig1 (covariance X)) => [l V]; case: (eig2 _) => [l' V'] /= s1 di eL eV s2.
have lE a : l' 0 a = (cabs e ^+ 2 * l 0%R a)%coqR.
  by move/rowP/(_ a): eL; rewrite mxE => <-; rewrite -Rmult_assoc Rinv_r ?Rmult_1_l //; apply: Rgt_not_eq.
have VE : V' = Q *m V *m diag_mx d by rewrite -mulmxA -eV mulmxA uQ mul1mx.
have pos a : Rltb 0 (l' 0 a) = Rltb 0 (l 0 a).
  by rewrite lE; apply/RltbP/RltbP => h; [apply: (Rmult_lt_reg_l _ _ _ b0); rewrite Rmult_0_r|apply: Rmult_lt_0_compat].
have ae := cabs_gt0 e0; have ca : c (cabs e) != 0 by apply: c_neq0; lra.
pose u := e / c (cabs e).
have uu : u * u^* = 1.
  rewrite /u rmorphM fmorphV c_conj mulrACA -cabs_sqr expr2 cM -invfM mulfV //; exact: mulf_neq0.
exists (\row_a (u * (d 0 a)^*)); split.
  by move=> a; rewrite mxE rmorphM conjCK mulrACA uu mul1r mulrC hd.
rewrite (eq_forallb pos); case hp: [forall a, _]; last by [].
apply: f_equal; rewrite -scalemxAr VE ctrM ctrM !mulmxA -(mulmxA _ Q^H Q) (mulmx1C uQ) mulmx1 -mulmxA scalemxAl.
have -> : forall (A : 'M[Cx]_n) (B : 'M[Cx]_(n, T)), col_perm pj (A *m B) = A *m col_perm pj B.
  by move=> A B; apply/matrixP => x y; rewrite !mxE; apply: eq_bigr => k _; rewrite mxE.
rewrite !mulmxA; congr (_ *m _); rewrite scalemxAl; congr (_ *m _).
apply/matrixP => x y; rewrite mxE mul_diagHE diag_mulE !mxE.
case: (x =P y) => [<-|]; last by rewrite !mulr0n !mul0r !mulr0.
rewrite !mulr1n lE.
have lx : (0 < l 0%R x)%coqR by have /forallP/(_ x)/RltbP := hp.
have -> : (1 / R_sqrt.sqrt (cabs e ^+ 2 * l 0%R x) = / cabs e * (1 / R_sqrt.sqrt (l 0%R x)))%coqR.
  rewrite sqrt_mult_alt; last exact: Rlt_le.
  rewrite -RpowE sqrt_pow2; last exact: cabs_ge0.
  rewrite /Rdiv !Rmult_1_l Rinv_mult //.
rewrite cRM cRV; last lra.
by rewrite /u; move: (c (1 / _)%coqR) => w; rewrite !mulrA [RHS]mulrAC.
Qed.
End Whiten.

Lemma polar_rel n (svd1 svd2 : svd_t) (V E D : 'M[Cx]_n) : svd_contract svd1 -> svd_contract svd2 -> V \in unitmx ->
  E *m E^H = 1%:M -> D *m D^H = 1%:M -> polar_factor svd2 (E *m V *m D^H) = E *m polar_factor svd1 V *m D^H.
Proof.
move=> c1 c2 uV uE uD.
have [_ _ [P [pP PP PV]]] := polarP (c1 n V).
have [_ _ [P' [pP' PP' PV']]] := polarP (c2 n (E *m V *m D^H)).
have uP : P \in unitmx by move: uV; rewrite -PV unitmx_mul => /andP [].
have uEm : E \in unitmx by have [] := mulmx1_unit uE.
have uDm : D^H \in unitmx by have [] := mulmx1_unit uD.
have uP' : P' \in unitmx.
  have : E *m V *m D^H \in unitmx by rewrite !unitmx_mul uEm uV.
  by rewrite -PV' unitmx_mul => /andP [].
have PE : E^H *m P' *m E = P.
  apply: pd_sqrt_uniq; [|exact: psd_unit_pd|].
    by apply: pd_congr_unit => //; exact: psd_unit_pd.
  rewrite !mulmxA -(mulmxA _ E) uE mulmx1 -(mulmxA _ P' P') PP' PP !ctrM ctrK !mulmxA -(mulmxA _ D^H) (mulmx1C uD) mulmx1.
  by rewrite (mulmx1C uE) mul1mx -!mulmxA (mulmx1C uE) mulmx1.
have P'E : P' = E *m P *m E^H by rewrite -PE !mulmxA uE mul1mx -mulmxA uE mulmx1.
apply: (can_inj (mulKmx uP')); rewrite PV' P'E !mulmxA -(mulmxA _ E^H) (mulmx1C uE) mulmx1 -(mulmxA _ P) PV //.
Qed.

(** * Updates *)
Section Steps.
Variables (F n T : nat) (fl : R -> R) (svd1 svd2 : svd_t) (eig1 eig2 : eigh_t).
Hypotheses (s1 : svd_contract svd1) (s2 : svd_contract svd2) (h1 : eigh_contract eig1) (h2 : eigh_contract eig2).
Variables (pi : {perm 'I_F}) (pj : {perm 'I_T}).
Notation spec := ('I_F -> 'M[Cx]_(n, T)).
Notation filt := ('I_F -> 'M[Cx]_n).
Notation fn := ('I_n -> 'I_T -> R -> R).
Implicit Types (X Y Z : spec) (W : filt) (G dG ddG : fn).
(** phases of the whitened channels *)
Variable D : 'I_F -> 'rV[Cx]_n.
Hypothesis hD : forall i, phases (D i).
(** a contrast function that depends on the frame is moved with the frames *)
Definition fr G : fn := fun s t => G s (pj t).
Definition dY (E : 'I_F -> 'rV[Cx]_n) Y : spec := fun i => diag_mx (E i) *m col_perm pj (Y (pi i)).
Definition tw (E : 'I_F -> 'rV[Cx]_n) W : filt := fun i => diag_mx (E i) *m W (pi i) *m (diag_mx (D i))^H.
Lemma col_permM p (A : 'M[Cx]_(p, n)) (B : 'M[Cx]_(n, T)) : col_perm pj (A *m B) = A *m col_perm pj B.
Proof. by apply/matrixP => x y; rewrite !mxE; apply: eq_bigr => k _; rewrite mxE. Qed.
Lemma sep_tw E Z W : separate_all (dY D Z) (tw E W) = dY E (separate_all Z W).
Proof.
apply: functional_extensionality => i; rewrite /separate_all /separate /dY /tw col_permM !mulmxA.
by rewrite -(mulmxA _ (diag_mx (D i))^H) (mulmx1C (phases_uni (hD i))) mulmx1.
Qed.
Lemma norms_tw E Y : (forall i, phases (E i)) -> norms (dY E Y) = col_perm pj (norms Y).
Proof.
move=> hE; apply/matrixP => s t; rewrite [LHS]mxE [RHS]mxE [RHS]mxE; apply: f_equal.
rewrite [RHS](reindex_inj (@perm_inj _ pi)); apply: eq_bigr => i _.
by rewrite /dY diag_mulE cabsM (phases_abs _ (hE i)) mul1r mxE.
Qed.
Lemma meanC_perm (g : 'I_T -> Cx) : meanC (fun t => g (pj t)) = meanC g.
Proof. by rewrite /meanC [in RHS](reindex_inj (@perm_inj _ pj)). Qed.
Lemma meanR_perm (g : 'I_T -> R) : meanR (fun t => g (pj t)) = meanR g.
Proof. by rewrite /meanR [in RHS](reindex_inj (@perm_inj _ pj)). Qed.
Lemma weight_tw dG (r : 'M[R]_(n, T)) : weight fl (fr dG) (col_perm pj r) = col_perm pj (weight fl dG r).
Proof. by apply/matrixP => s t; rewrite !mxE. Qed.
Lemma finite_tw (r : 'M[R]_(n, T)) : [forall s, finite_weight fl (col_perm pj r) s] = [forall s, finite_weight fl r s].
Proof.
apply: eq_forallb => s; rewrite /finite_weight -(forall_bins pj (fun t => fl (2 * r s t)%coqR != 0)).
by apply: eq_forallb => t; rewrite mxE.
Qed.
Lemma meanC_ext (g h : 'I_T -> Cx) : g =1 h -> meanC g = meanC h.
Proof. by move=> e; rewrite /meanC (eq_bigr h). Qed.
Lemma meanCZ (a : Cx) (g : 'I_T -> Cx) : meanC (fun t => a * g t) = a * meanC g.
Proof. by rewrite /meanC -mulr_sumr mulrCA. Qed.
Lemma raw_tw (phi Q : 'M[R]_(n, T)) (d e : 'rV[Cx]_n) (Z Y : 'M[Cx]_(n, T)) (W : 'M[Cx]_n) : phases d -> phases e ->
  fastiva_raw (col_perm pj phi) (col_perm pj Q) (diag_mx d *m col_perm pj Z) (diag_mx e *m col_perm pj Y) (diag_mx e *m W *m (diag_mx d)^H)
  = diag_mx e *m fastiva_raw phi Q Z Y W *m (diag_mx d)^H.
Proof.
move=> hd he; apply/matrixP => s k; rewrite mul_diagHE diag_mulE [LHS]mxE [X in _ = _ * X * _]mxE !mul_diagHE !diag_mulE.
have conjP (a b x y : Cx) : x = a^* * b * y -> x^* = a * y^* * b^*.
  by move=> ->; rewrite !rmorphM conjCK mulrAC.
apply: conjP; rewrite mulrBr -!meanCZ; congr (_ - _).
- rewrite -[RHS]meanC_perm; apply: meanC_ext => t; rewrite !diag_mulE [col_perm _ _ _ _]mxE ![(col_perm _ _) _ _]mxE !rmorphM conjCK.
  by move: ((e 0 s)^* ) ((W s k)^* ) ((Y s _)^* ) (c _) => e' w' y' p; ring.
- rewrite -[RHS]meanC_perm; apply: meanC_ext => t; rewrite !diag_mulE ![(col_perm _ _) _ _]mxE !rmorphM conjCK cabsM (phases_abs s he) mul1r.
  by move: ((e 0 s)^* ) ((W s k)^* ) (c _) => e' w' p; ring.
Qed.
Lemma wcov_tw (phi : 'M[R]_(n, T)) (d : 'rV[Cx]_n) (Z : 'M[Cx]_(n, T)) s :
  wcov (col_perm pj phi) (diag_mx d *m col_perm pj Z) s = diag_mx d *m wcov phi Z s *m (diag_mx d)^H.
Proof.
apply/matrixP => a b; rewrite mul_diagHE diag_mulE [LHS]mxE [X in _ = _ * X * _]mxE mulrAC -meanCZ -[RHS]meanC_perm.
apply: meanC_ext => t; rewrite !diag_mulE ![(col_perm _ _) _ _]mxE !rmorphM.
by move: ((d 0 b)^* ) ((Z b _)^* ) (c _) => d' z' p; ring.
Qed.
Lemma wcov_herm (phi : 'M[R]_(n, T)) (Z : 'M[Cx]_(n, T)) s : (wcov phi Z s)^H = wcov phi Z s.
Proof.
apply/matrixP => a b; rewrite ctrE [in LHS]mxE [RHS]mxE /meanC rmorphM /= c_conj; congr (_ * _).
by rewrite rmorph_sum; apply: eq_bigr => t _; rewrite !rmorphM conjCK c_conj [_^* * _]mulrC.
Qed.

(** the second factor of FastIVA and the weights along a run *)
Definition ygg dG ddG (norm : 'M[R]_(n, T)) : 'M[R]_(n, T) :=
  \matrix_(s, t) ((2 * weight fl dG norm s t - ddG s t (norm s t)) / fl (2 * norm s t))%coqR.
(** the update of FastIVA is not singular, so that its polar factor is determined *)
Definition fast_regular dG ddG Z W : Prop := forall i,
  fastiva_raw (weight fl dG (norms (separate_all Z W))) (ygg dG ddG (norms (separate_all Z W))) (Z i) (separate_all Z W i) (W i) \in unitmx.
(** the largest eigenvalues of FasterIVA are simple and their eigenvectors independent *)
Definition faster_regular dG Z W : Prop := forall i,
  (forall s l a : 'I_n, val l = n.-1 -> a <> l -> ((eig1 (wcov (weight fl dG (norms (separate_all Z W))) (Z i) s)).1 0%R a < (eig1 (wcov (weight fl dG (norms (separate_all Z W))) (Z i) s)).1 0%R l)%coqR) /\
  fasteriva_raw eig1 (weight fl dG (norms (separate_all Z W))) (Z i) \in unitmx.
Lemma fastiva_tw dG ddG E Z W : (forall i, phases (E i)) -> fast_regular dG ddG Z W ->
  fastiva_step fl svd2 (fr dG) (fr ddG) (dY D Z) (tw E W) = omap (tw E) (fastiva_step fl svd1 dG ddG Z W).
Proof.
move=> hE reg; rewrite /fastiva_step sep_tw norms_tw // finite_tw; case: (_ && _); last by [].
apply: (f_equal (fun q => Some q)); apply: functional_extensionality => i; rewrite /tw.
rewrite -(polar_rel s1 s2 (reg (pi i)) (phases_uni (hE i)) (phases_uni (hD i))); apply: f_equal.
rewrite -raw_tw //; congr fastiva_raw; [exact: weight_tw|].
by apply/matrixP => s t; rewrite !mxE.
Qed.
Lemma fasteriva_raw_tw (phi : 'M[R]_(n, T)) (d : 'rV[Cx]_n) (Z : 'M[Cx]_(n, T)) : phases d ->
  (forall s l a : 'I_n, val l = n.-1 -> a <> l -> ((eig1 (wcov phi Z s)).1 0%R a < (eig1 (wcov phi Z s)).1 0%R l)%coqR) ->
  exists e, phases e /\ fasteriva_raw eig2 (col_perm pj phi) (diag_mx d *m col_perm pj Z) = diag_mx e *m fasteriva_raw eig1 phi Z *m (diag_mx d)^H.
Proof.
move=> hd sm.
have R s : exists x : Cx, x * x^* = 1 /\ forall l : 'I_n, val l = n.-1 -> forall k,
    (eig2 (wcov (col_perm pj phi) (diag_mx d *m col_perm pj Z) s)).2 k l = d 0 k * (eig1 (wcov phi Z s)).2 k l * x.
  have ln : (n.-1 < n)%N by rewrite prednK //; case: (n) s => [[]|].
  have U2 := h2 (A := wcov (col_perm pj phi) (diag_mx d *m col_perm pj Z) s) (wcov_herm _ _ _).
  move: U2; rewrite {1}wcov_tw => U2.
  have b1 : (0 < 1)%coqR by lra.
  have U2' : eigh_spec (c 1%coqR *: (diag_mx d *m wcov phi Z s *m (diag_mx d)^H)) (eig2 (wcov (col_perm pj phi) (diag_mx d *m col_perm pj Z) s)).
    by rewrite c1 scale1r.
  have [x [hx xE]] := eig_top (h1 (wcov_herm phi Z s)) (eig_back b1 (phases_uni hd) U2') (l := Ordinal ln) erefl (fun a => sm s (Ordinal ln) a erefl).
  exists x; split=> // l el k.
  have -> : l = Ordinal ln by apply: val_inj.
  have := xE k; rewrite [X in X = _]/= diag_ctr diag_mulE mxE => e.
  by rewrite -mulrA -e mulrA hd mul1r.
have [x hx] := fin_all_exists R; exists (\row_s (x s)^* ); split.
  by move=> a; rewrite mxE conjCK mulrC; have [-> _] := hx a.
apply/matrixP => s k; rewrite mul_diagHE diag_mulE [LHS]mxE [X in _ = _ * X * _]mxE [X in _ = X * _ * _]mxE.
case: insubP => [l _ el|]; last by rewrite mulr0 mul0r.
by have [_ ->] := hx s => //; rewrite !rmorphM mulrC mulrA mulrAC.
Qed.
Lemma fasteriva_tw dG E Z W : (forall i, phases (E i)) -> faster_regular dG Z W ->
  exists E', (forall i, phases (E' i)) /\
  fasteriva_step fl svd2 (fr dG) eig2 (dY D Z) (tw E W) = omap (tw E') (fasteriva_step fl svd1 dG eig1 Z W).
Proof.
move=> hE reg; rewrite /fasteriva_step sep_tw norms_tw // finite_tw weight_tw.
have R i := fasteriva_raw_tw (hD i) (proj1 (reg (pi i))).
have [E' hE'] := fin_all_exists R; exists E'; split; first by move=> i; have [] := hE' i.
case: (_ && _); last by [].
apply: (f_equal (fun q => Some q)); apply: functional_extensionality => i; rewrite /tw.
have [pE ->] := hE' i.
exact: (polar_rel s1 s2 (proj2 (reg (pi i))) (phases_uni pE) (phases_uni (hD i))).
Qed.
Lemma fast_loss_tw G E Z W : (forall i, phases (E i)) -> fast_loss (fr G) (dY D Z) (tw E W) = fast_loss G Z W.
Proof.
move=> hE; rewrite /fast_loss sep_tw norms_tw //; case: (T != 0%N); last by [].
apply: (f_equal (fun q => Some q)); apply: eq_bigr => s _; rewrite -[RHS]meanR_perm.
by apply: eq_meanR => t; rewrite /fr mxE.
Qed.
End Steps.

(** * Runs and calls *)
(** a condition on every state that is updated *)
Fixpoint along S (ok : S -> Prop) (step : S -> option S) (k : nat) (s : S) : Prop :=
  if k is k'.+1 then ok s /\ forall s', step s = Some s' -> along ok step k' s' else True.
Lemma recorded_tw S S' P (tw : P -> S -> S') (good : P -> Prop) (ok : S -> Prop) (step : S -> option S) (step' : S' -> option S') (loss : S -> option R) (loss' : S' -> option R) (k : nat) (E : P) (s : S) :
  (forall E s, good E -> ok s -> exists E', good E' /\ step' (tw E s) = omap (tw E') (step s)) ->
  (forall E s, good E -> loss' (tw E s) = loss s) -> good E -> along ok step k s ->
  exists E', good E' /\ recorded step' loss' k (tw E s) = omap (fun p => (tw E' p.1, p.2)) (recorded step loss k s).
Proof.
move=> hs hl; elim: k E s => [|k IH] E s gE /=.
  by move=> _; exists E; rewrite hl //; split=> //; case: (loss s).
move=> [oks al]; have [E1 [g1 e1]] := hs _ _ gE oks; rewrite hl //; case: (loss s) => [l|]; last by exists E.
rewrite e1; case es: (step s) => [s'|]; last by exists E.
have [E2 [g2 e2]] := IH _ _ g1 (al _ es); exists E2; split=> //.
by rewrite [omap (tw E1) _]/=; cbv iota; rewrite e2; case: (recorded _ _ k s') => [[]|].
Qed.

Section Calls.
Variables (F n T : nat) (fl : R -> R) (svd1 svd2 : svd_t) (eig1 eig2 : eigh_t).
Hypotheses (s1 : svd_contract svd1) (s2 : svd_contract svd2) (h1 : eigh_contract eig1) (h2 : eigh_contract eig2).
Variables (pi : {perm 'I_F}) (pj : {perm 'I_T}).
Notation spec := ('I_F -> 'M[Cx]_(n, T)).
Notation filt := ('I_F -> 'M[Cx]_n).
Variables (e : 'I_F -> Cx) (Q : 'I_F -> 'M[Cx]_n).
Hypotheses (e0 : forall i, e i != 0) (uQ : forall i, Q i *m (Q i)^H = 1%:M).
(** bins and frames in another order, every bin multiplied by a factor and a unitary matrix *)
Definition mX (X : spec) : spec := fun i => e i *: (Q i *m col_perm pj (X (pi i))).
(** what a user gets *)
Definition mO (a : 'I_F -> Cx) (o : spec * seq R) : spec * seq R := (fun i => a i *: col_perm pj (o.1 (pi i)), o.2).

Lemma all_bins_move A B (d : 'I_F -> A) (d' : 'I_F -> B) (g : 'I_F -> option A) (g' : 'I_F -> option B) (h : 'I_F -> A -> B) :
  (forall i, g' i = omap (h i) (g (pi i))) -> all_bins d' g' = omap (fun u i => h i (u (pi i))) (all_bins d g).
Proof.
move=> E; rewrite /all_bins -(forall_bins pi (fun i => isSome (g i))).
have -> : [forall i, isSome (g' i)] = [forall i, isSome (g (pi i))] by apply: eq_forallb => i; rewrite E; case: (g _).
case hs: [forall i, _]; last by [].
apply: (f_equal (fun q => Some q)); apply: functional_extensionality => i; rewrite E.
by have := forallP hs i; case: (g _).
Qed.
Lemma white_move X : (forall i, distinct (eig1 (covariance (X i))).1) ->
  exists D, (forall i, phases (D i)) /\ white eig2 (mX X) = omap (dY pi pj D) (white eig1 X).
Proof.
move=> di.
have R i := whiten_rel pj h1 h2 (e0 i) (uQ i) (di (pi i)).
have [D hD] := fin_all_exists R; exists D; split; first by move=> i; have [] := hD i.
rewrite /white (all_bins_move (h := fun i Z => diag_mx (D i) *m col_perm pj Z) X (mX X) (g := fun i => if whiten eig1 3 true (X i) is Ok Z then Some Z else None)) //.
by move=> i; rewrite /mX; have [_ ->] := hD i; case: (whiten eig1 3 true (X (pi i))).
Qed.
Lemma pb_move (X Y : 'M[Cx]_(n, T)) (a b : Cx) (d : 'rV[Cx]_n) (P : 'M[Cx]_n) (r r' : 'I_n) : phases d -> row r P = b *: delta_mx 0 r' ->
  pb_data (diag_mx d *m col_perm pj Y) (a *: (P *m col_perm pj X)) r = omap (fun Z => (a * b) *: col_perm pj Z) (pb_data Y X r').
Proof.
move=> hd hr.
have d0 x : d 0 x != 0 by apply/eqP => z; have := hd x; rewrite z mul0r => /eqP; rewrite eq_sym oner_eq0.
have -> : diag_mx d *m col_perm pj Y = \matrix_(i, j) (d 0 i * (col_perm pj Y) i j).
  by apply/matrixP => x y; rewrite diag_mulE [RHS]mxE.
rewrite C30_data // /pb_data gram_frames; case: np_inv => [I|]; last by [].
apply: (f_equal (fun q => Some q)); apply/matrixP => x y; rewrite !mxE mulrCA; congr (_ * _).
have -> : a *: (P *m col_perm pj X) *m (col_perm pj Y)^H = a *: (P *m (X *m Y^H)).
  rewrite -scalemxAl; congr (_ *: _); rewrite -mulmxA; congr (_ *m _).
  apply/matrixP => u v; rewrite [LHS]mxE [RHS]mxE [RHS](reindex_inj (@perm_inj _ pj)); apply: eq_bigr => t _.
  by rewrite !ctrE !mxE.
have rE M j : (P *m M) r j = b * M r' j :> Cx.
  by have := f_equal (fun R => (R *m M) 0 j) hr; rewrite -scalemxAl -rowE -row_mul [in X in X = _]mxE [in X in _ = X]mxE [in X in _ = X]mxE.
rewrite mulr_sumr; apply: eq_bigr => j _; rewrite [in LHS]mxE rE; by rewrite !mulrA.
Qed.
Lemma refit_move (Y Z : 'M[Cx]_(n, T)) (a : Cx) (d : 'rV[Cx]_n) : phases d ->
  refit (a *: col_perm pj Y) (diag_mx d *m col_perm pj Z) = omap (fun V => a *: (V *m (diag_mx d)^H)) (refit Y Z).
Proof.
move=> hd; have ud := phases_uni hd.
have [u1 u2] := mulmx1_unit ud.
rewrite /refit /np_inv ctrM !mulmxA -(mulmxA (diag_mx d)) gram_frames !unitmx_mul u1 u2 andbT /=.
case: ifP => hu; last by [].
apply: (f_equal (fun q => Some q)); rewrite -!scalemxAl; congr (_ *: _).
have -> : col_perm pj Y *m (col_perm pj Z)^H = Y *m Z^H.
  apply/matrixP => u v; rewrite [LHS]mxE [RHS]mxE [RHS](reindex_inj (@perm_inj _ pj)); apply: eq_bigr => t _.
  by rewrite !ctrE !mxE.
have -> : invmx (diag_mx d *m (Z *m Z^H) *m (diag_mx d)^H) = diag_mx d *m invmx (Z *m Z^H) *m (diag_mx d)^H.
  have uN : diag_mx d *m (Z *m Z^H) *m (diag_mx d)^H \in unitmx by rewrite !unitmx_mul u1 u2 hu.
  rewrite -[RHS]mul1mx -(mulVmx uN) -[RHS]mulmxA; move: (invmx (_ *m _ *m _)) => J.
  rewrite -[LHS]mulmx1; congr (_ *m _).
  by rewrite !mulmxA -(mulmxA _ (diag_mx d)^H (diag_mx d)) (mulmx1C ud) mulmx1 -(mulmxA (diag_mx d) Z) -(mulmxA (diag_mx d)) mulmxV // mulmx1 ud.
by rewrite !mulmxA -(mulmxA _ (diag_mx d)^H (diag_mx d)) (mulmx1C ud) mulmx1.
Qed.
Lemma finish_move D E X Z r r' (q : 'I_F -> Cx) (o : option (filt * seq R)) : (forall i, phases (D i)) -> (forall i, phases (E i)) ->
  (forall i, row r (Q i) = q i *: delta_mx 0 r') ->
  fast_finish (mX X) (dY pi pj D Z) r (omap (fun p => (tw pi D E p.1, p.2)) o) = omap (mO (fun i => e i * q i)) (fast_finish X Z r' o).
Proof.
move=> hD hE hr; case: o => [[W ls]|]; last by [].
rewrite [omap _ (Some (W, ls))]/= /fast_finish /fast_restore.
rewrite (all_bins_move (h := fun i V => (e i * q i) *: (V *m (diag_mx (D i))^H)) W (tw pi D E W) (g := fun i => omap snd (fast_apply_pb (X i) (Z i) (W i) r'))); last first.
  move=> i; rewrite /fast_apply_pb.
  have -> : separate (dY pi pj D Z i) (tw pi D E W i) = diag_mx (E i) *m col_perm pj (separate (Z (pi i)) (W (pi i))).
    exact: (f_equal (fun Y => Y i) (sep_tw pi pj hD E Z W)).
  rewrite /mX (pb_move _ _ _ (hE i) (hr i)); case: pb_data => [Y|]; last by [].
  by rewrite [omap _ (Some Y)]/=; cbv iota; rewrite refit_move //; case: refit.
case: all_bins => [V|]; last by [].
apply: (f_equal (fun q => Some q)); rewrite /mO; congr (_, _); apply: functional_extensionality => i.
rewrite /separate_all /separate /dY -scalemxAl; congr (_ *: _).
by rewrite !mulmxA -(mulmxA _ (diag_mx (D i))^H) (mulmx1C (phases_uni (hD i))) mulmx1 col_permM.
Qed.
Lemma tw_eyes D : (forall i, phases (D i)) -> tw pi D D (@eyes F n) = @eyes F n.
Proof. by move=> hD; apply: functional_extensionality => i; rewrite /tw /eyes mulmx1 phases_uni. Qed.

Variables (G dG ddG : 'I_n -> 'I_T -> R -> R) (r r' : 'I_n) (q : 'I_F -> Cx).
Hypothesis hr : forall i, row r (Q i) = q i *: delta_mx 0 r'.
(** C91: FastIVA, with any routines for eigenvectors and singular vectors *)
Theorem C91_fastiva X k : (forall i, distinct (eig1 (covariance (X i))).1) ->
  (forall Z, white eig1 X = Some Z -> along (fast_regular fl dG ddG Z) (fastiva_step fl svd1 dG ddG Z) k (@eyes F n)) ->
  fastiva_call fl svd2 eig2 (fr pj G) (fr pj dG) (fr pj ddG) (mX X) r k =
  omap (mO (fun i => e i * q i)) (fastiva_call fl svd1 eig1 G dG ddG X r' k).
Proof.
move=> di reg; have [D [hD eD]] := white_move di; rewrite /fastiva_call eD.
case eZ: (white eig1 X) => [Z|]; last by [].
rewrite [omap _ (Some Z)]/=; cbv iota; rewrite /fastiva_rec -{1}(tw_eyes hD).
have [E' [hE' ->]] := recorded_tw (tw := tw pi D) (good := fun E => forall i, phases (E i))
  (step' := fastiva_step fl svd2 (fr pj dG) (fr pj ddG) (dY pi pj D Z)) (loss' := fast_loss (fr pj G) (dY pi pj D Z)) (loss := fast_loss G Z)
  (fun E s gE oks => ex_intro _ E (conj gE (fastiva_tw s1 s2 pi pj hD gE oks))) (fun E s gE => fast_loss_tw pi pj hD G Z s gE) hD (reg _ eZ).
exact: finish_move.
Qed.
(** C91: FasterIVA *)
Theorem C91_fasteriva X k : (forall i, distinct (eig1 (covariance (X i))).1) ->
  (forall Z, white eig1 X = Some Z -> along (faster_regular fl eig1 dG Z) (fasteriva_step fl svd1 dG eig1 Z) k (@eyes F n)) ->
  fasteriva_call fl svd2 eig2 (fr pj G) (fr pj dG) (mX X) r k =
  omap (mO (fun i => e i * q i)) (fasteriva_call fl svd1 eig1 G dG X r' k).
Proof.
move=> di reg; have [D [hD eD]] := white_move di; rewrite /fasteriva_call eD.
case eZ: (white eig1 X) => [Z|]; last by [].
rewrite [omap _ (Some Z)]/=; cbv iota; rewrite /fasteriva_rec -{1}(tw_eyes hD).
have [E' [hE' ->]] := recorded_tw (tw := tw pi D) (good := fun E => forall i, phases (E i))
  (step' := fasteriva_step fl svd2 (fr pj dG) eig2 (dY pi pj D Z)) (loss' := fast_loss (fr pj G) (dY pi pj D Z)) (loss := fast_loss G Z)
  (fun E s gE oks => fasteriva_tw s1 s2 h1 h2 pi pj hD gE oks) (fun E s gE => fast_loss_tw pi pj hD G Z s gE) hD (reg _ eZ).
exact: finish_move.
Qed.
End Calls.

(** C91: the routines that compute eigenvectors and singular vectors do not matter *)
Theorem C91_routines F n T (fl : R -> R) (svd1 svd2 : svd_t) (eig1 eig2 : eigh_t) (G dG ddG : 'I_n -> 'I_T -> R -> R)
  (X : 'I_F -> 'M[Cx]_(n, T)) r k :
  svd_contract svd1 -> svd_contract svd2 -> eigh_contract eig1 -> eigh_contract eig2 ->
  (forall i, distinct (eig1 n (covariance (X i))).1) ->
  ((forall Z, white eig1 X = Some Z -> along (fast_regular fl dG ddG Z) (fastiva_step fl svd1 dG ddG Z) k (@eyes F n)) ->
    fastiva_call fl svd2 eig2 G dG ddG X r k = fastiva_call fl svd1 eig1 G dG ddG X r k) /\
  ((forall Z, white eig1 X = Some Z -> along (faster_regular fl eig1 dG Z) (fasteriva_step fl svd1 dG eig1 Z) k (@eyes F n)) ->
    fasteriva_call fl svd2 eig2 G dG X r k = fasteriva_call fl svd1 eig1 G dG X r k).
Proof.
move=> s1 s2 h1 h2 di.
have XE : mX 1%g 1%g (fun _ => 1) (fun _ => 1%:M) X = X.
  by apply: functional_extensionality => i; rewrite /mX scale1r mul1mx perm1; apply/matrixP => a t; rewrite mxE perm1.
have fE (g : 'I_n -> 'I_T -> R -> R) : fr 1%g g = g.
  by do 2 (apply: functional_extensionality => ?); rewrite /fr perm1.
have oE (o : option (('I_F -> 'M[Cx]_(n, T)) * seq R)) : omap (mO 1%g 1%g (fun _ => 1 * 1)) o = o.
  case: o => [[Y ls]|//]; apply: (f_equal (fun q => Some q)); rewrite /mO; congr (_, _).
  apply: functional_extensionality => i; rewrite mul1r scale1r perm1; by apply/matrixP => a t; rewrite mxE perm1.
have e0 (i : 'I_F) : (1 : Cx) != 0 := oner_neq0 _.
have uQ (i : 'I_F) : (1%:M : 'M[Cx]_n) *m 1%:M^H = 1%:M by rewrite mul1mx ctr1.
have hr (i : 'I_F) : row r (1%:M : 'M[Cx]_n) = 1 *: delta_mx 0 r by rewrite scale1r rowE mulmx1.
split=> reg.
- by have := C91_fastiva s1 s2 h1 h2 1%g 1%g e0 uQ G hr di reg; rewrite XE !fE oE.
- by have := C91_fasteriva s1 s2 h1 h2 1%g 1%g e0 uQ G hr di reg; rewrite XE !fE oE.
Qed.
(** C91: microphones in another order and bins multiplied by factors: the same sources in the same
    order, at the same reference microphone, times the factors *)
Theorem C91_microphones F n T (fl : R -> R) (svd : svd_t) (eig : eigh_t) (G dG ddG : 'I_n -> 'I_T -> R -> R)
  (X : 'I_F -> 'M[Cx]_(n, T)) (p : {perm 'I_n}) (e : 'I_F -> Cx) r k :
  svd_contract svd -> eigh_contract eig -> (forall i, e i != 0) -> (forall i, distinct (eig n (covariance (X i))).1) ->
  ((forall Z, white eig X = Some Z -> along (fast_regular fl dG ddG Z) (fastiva_step fl svd dG ddG Z) k (@eyes F n)) ->
    fastiva_call fl svd eig G dG ddG (fun i => e i *: row_perm p (X i)) r k =
    omap (fun o => (fun i => e i *: o.1 i, o.2)) (fastiva_call fl svd eig G dG ddG X (p r) k)) /\
  ((forall Z, white eig X = Some Z -> along (faster_regular fl eig dG Z) (fasteriva_step fl svd dG eig Z) k (@eyes F n)) ->
    fasteriva_call fl svd eig G dG (fun i => e i *: row_perm p (X i)) r k =
    omap (fun o => (fun i => e i *: o.1 i, o.2)) (fasteriva_call fl svd eig G dG X (p r) k)).
Proof.
move=> s1 h1 e0 di.
have XE : mX 1%g 1%g e (fun _ => perm_mx p) X = (fun i => e i *: row_perm p (X i)).
  apply: functional_extensionality => i; rewrite /mX perm1 row_permE; congr (_ *: (_ *m _)).
  by apply/matrixP => a t; rewrite mxE perm1.
have fE (g : 'I_n -> 'I_T -> R -> R) : fr 1%g g = g.
  by do 2 (apply: functional_extensionality => ?); rewrite /fr perm1.
have oE (o : option (('I_F -> 'M[Cx]_(n, T)) * seq R)) : omap (mO 1%g 1%g (fun i => e i * 1)) o = omap (fun o => (fun i => e i *: o.1 i, o.2)) o.
  case: o => [[Y ls]|//]; apply: (f_equal (fun q => Some q)); rewrite /mO; congr (_, _).
  apply: functional_extensionality => i; rewrite mulr1 perm1; congr (_ *: _); by apply/matrixP => a t; rewrite mxE perm1.
have uQ (i : 'I_F) : (perm_mx p : 'M[Cx]_n) *m (perm_mx p)^H = 1%:M.
  suff -> : (perm_mx p : 'M[Cx]_n)^H = perm_mx p^-1 by rewrite -perm_mxM mulgV perm_mx1.
  apply/matrixP => a b; rewrite ctrE !mxE conjC_nat; congr (_%:R); apply: congr1.
  by apply/eqP/eqP => [<-|<-]; rewrite ?permK ?permKV.
have hr (i : 'I_F) : row r (perm_mx p : 'M[Cx]_n) = 1 *: delta_mx 0 (p r) by apply/rowP => b; rewrite !mxE mul1r eq_sym.
split=> reg.
- by have := C91_fastiva s1 s1 h1 h1 1%g 1%g e0 uQ G hr di reg; rewrite XE !fE oE.
- by have := C91_fasteriva s1 s1 h1 h1 1%g 1%g e0 uQ G hr di reg; rewrite XE !fE oE.
Qed.

(** ** The hypotheses are met *)
Section Instance.
(** two microphones, one bin, two frames: the sources are active in different frames *)
Definition lam (a : 'I_2) : R := if a == 0 then (/ 2)%coqR else 2%coqR.
Definition amp (a : 'I_2) : R := if a == 0 then 1%coqR else 2%coqR.
Definition Xd : 'I_1 -> 'M[Cx]_2 := fun _ => rdiag (\row_a amp a).
Definition fld (x : R) : R := Rmax x (/ 2).
Lemma lam_gt0 a : (0 < lam a)%coqR. Proof. by rewrite /lam; case: eqP => _; lra. Qed.
Lemma cov_d i : covariance (Xd i) = rdiag (\row_a lam a).
Proof.
rewrite /covariance /Xd rdiag_ctr; apply/matrixP => a b; rewrite [LHS]mxE /rdiag mul_mx_diag !mxE.
case: (a =P b) => [<-|]; last by rewrite mul0r mulr0.
rewrite !mulr1n -cM -(_ : c 2%coqR = 2%:R); last exact: cR2.
rewrite -cRV; last lra.
rewrite -cM /lam /amp; apply: (f_equal c); case: eqP => _; toR; lra.
Qed.
Lemma lam_spec : eigh_spec (rdiag (\row_a lam a)) (\row_a lam a, 1%:M).
Proof.
split; cbn [fst snd]; [by rewrite ctr1 mulmx1|by rewrite mulmx1 mul1mx|].
move=> i j; rewrite !mxE /lam; case: (ord2P i) => ->; case: (ord2P j) => -> //= _; lra.
Qed.
Lemma lam_inj a b : lam a = lam b -> a = b.
Proof. by rewrite /lam; case: (ord2P a) => ->; case: (ord2P b) => -> //= h; exfalso; lra. Qed.
Lemma eig_d (eig : eigh_t) i : eigh_contract eig -> (eig 2%N (covariance (Xd i))).1 = \row_a lam a /\
  exists d : 'rV[Cx]_2, phases d /\ (eig 2%N (covariance (Xd i))).2 = diag_mx d.
Proof.
move=> h; rewrite cov_d.
have hh : (rdiag (\row_a lam a))^H = rdiag (\row_a lam a) by rewrite rdiag_ctr.
have [|eL [d [hd eV]]] := eig_all lam_spec (h _ _ hh); first by move=> a b /=; rewrite !mxE => /lam_inj.
by split=> //; exists d; rewrite eV mul1mx.
Qed.
(** the whitened recording: phases times the square root of two *)
Lemma white_d (eig : eigh_t) Z : eigh_contract eig -> white eig Xd = Some Z ->
  exists z : 'I_2 -> Cx, (forall a, cabs (z a) ^+ 2 = 2%coqR) /\ forall i a t, Z i a t = if a == t then z a else 0.
Proof.
move=> h; rewrite /white => /all_binsP wZ.
have {}wZ i : whiten eig 3 true (Xd i) = Ok (Z i) by have := wZ i; case: whiten => // M [->].
have [eL [d [hd eV]]] := eig_d 0 h.
exists (fun a => c (1 / R_sqrt.sqrt (lam a))%coqR * (d 0 a)^* * c (amp a)); split.
  move=> a; rewrite !cabsM !cabs_c cabs_conj (phases_abs a hd) mulr1 exprMn -!RpowE !pow2_abs.
  have l0 := lam_gt0 a; have q0 : R_sqrt.sqrt (lam a) <> 0%coqR by apply: Rgt_not_eq; apply: R_sqrt.sqrt_lt_R0.
  have q2 : (R_sqrt.sqrt (lam a) ^ 2 = lam a)%coqR by rewrite pow2_sqrt //; lra.
  toR; have -> : ((1 / R_sqrt.sqrt (lam a)) ^ 2 * amp a ^ 2 = amp a ^ 2 / lam a)%coqR by rewrite -[in RHS]q2; Rf.
  by rewrite /amp /lam; case: eqP => _; lra.
move=> i a t; rewrite (ord1 i); have := wZ 0; rewrite /whiten /= /whiten_bin /=.
move: eL eV; case: (eig _ _) => [l V] /= -> ->; case: ifP => // _ [<-].
by rewrite /Xd /rdiag mul_mx_diag mxE mul_diagHE !mxE; case: (a =P t) => [<-|]; rewrite ?mulr1n // mulr0n !mul0r.
Qed.
(** the first update of FastIVA on it is regular *)
Lemma raw_d (phi g : 'M[R]_2) (z : 'I_2 -> Cx) (Z : 'M[Cx]_2) : (forall a, cabs (z a) ^+ 2 = 2%coqR) ->
  (forall a t, Z a t = if a == t then z a else 0) ->
  fastiva_raw phi g Z Z 1%:M = rdiag (\row_s ((phi s 0%R + phi s 1%R) / 2 - phi s s - g s s)%coqR).
Proof.
move=> hz hZ.
have hzz a : (z a)^* * z a = c 2%coqR by rewrite mulrC -cabs_sqr hz.
have c0' : cabs (0 : Cx) ^+ 2 = 0 by rewrite cabs0 expr0n.
apply/matrixP => s k; rewrite [LHS]mxE [RHS]mxE mxE /meanC !sum2 !hZ !mxE.
have e2 : c (2%:R)^-1 = c (/ 2)%coqR by rewrite -RnatE -RinvE //=; lra.
rewrite e2; case: (ord2P s) => ->; case: (ord2P k) => ->; rewrite /= ?eqxx ?hz ?c0' ?conjC0 ?conjC1 ?mul0r ?mulr0 ?subr0 ?mulr1n ?mulr0n ?addr0 ?add0r ?mul1r ?hzz ?c0 ?conjC0 ?mulr0 //.
all: rewrite ?addr0 ?mulr0 ?subr0 ?conjC0 //.
all: by rewrite (_ : 1 = c 1%coqR) // -!(cM, cB, cD) c_conj; apply: (f_equal c); toR; lra.
Qed.
Lemma fld_pos x : (0 < fld x)%coqR. Proof. rewrite /fld; have := Rmax_r x (/ 2); lra. Qed.
Lemma norms_d (z : 'I_2 -> Cx) (Z : 'I_1 -> 'M[Cx]_2) : (forall a, cabs (z a) ^+ 2 = 2%coqR) ->
  (forall i a t, Z i a t = if a == t then z a else 0) ->
  forall s t, norms Z s t = if s == t then R_sqrt.sqrt 2 else 0%coqR.
Proof.
move=> hz hZ s t; rewrite mxE big_ord1 hZ; case: eqP => _; first by rewrite hz.
by rewrite cabs0 expr0n /= R_sqrt.sqrt_0.
Qed.
Lemma phi_d (z : 'I_2 -> Cx) (Z : 'I_1 -> 'M[Cx]_2) : (forall a, cabs (z a) ^+ 2 = 2%coqR) ->
  (forall i a t, Z i a t = if a == t then z a else 0) ->
  forall s t, weight fld (fun _ _ _ => 2%coqR) (norms Z) s t = if s == t then (/ R_sqrt.sqrt 2)%coqR else 4%coqR.
Proof.
move=> hz hZ s t; rewrite mxE (norms_d hz hZ).
have q0 : (0 < R_sqrt.sqrt 2)%coqR by apply: R_sqrt.sqrt_lt_R0; lra.
have q1 : (1 < R_sqrt.sqrt 2)%coqR by rewrite -{1}R_sqrt.sqrt_1; apply: R_sqrt.sqrt_lt_1; lra.
case: eqP => _; rewrite /fld.
  rewrite Rmax_left; last lra. Rf; lra.
rewrite Rmax_right; lra.
Qed.
Lemma sep_d (Z : 'I_1 -> 'M[Cx]_2) : separate_all Z (@eyes 1 2) = Z.
Proof. by apply: functional_extensionality => j; rewrite /separate_all /separate /eyes mul1mx. Qed.
Lemma reg_d (eig : eigh_t) Z : eigh_contract eig -> white eig Xd = Some Z ->
  fast_regular fld (fun _ _ _ => 2%coqR) (fun _ _ _ => 0%coqR) Z (@eyes 1 2).
Proof.
move=> h eZ; have [z [hz hZ]] := white_d h eZ; move=> i.
have phiE := phi_d hz hZ.
rewrite sep_d (raw_d _ _ hz (hZ i)).
have q0 : (0 < R_sqrt.sqrt 2)%coqR by apply: R_sqrt.sqrt_lt_R0; lra.
have q2 : (R_sqrt.sqrt 2 * R_sqrt.sqrt 2 = 2)%coqR by apply: R_sqrt.sqrt_sqrt; lra.
have q1 : (1 < R_sqrt.sqrt 2)%coqR by rewrite -{1}R_sqrt.sqrt_1; apply: R_sqrt.sqrt_lt_1; lra.
have i1 : (/ R_sqrt.sqrt 2 < 1)%coqR by rewrite -Rinv_1; apply: Rinv_lt_contravar; lra.
rewrite unitmxE /rdiag det_diag unitfE; apply/prodf_neq0 => s _; rewrite mxE; apply: c_neq0.
rewrite [X in X <> _]mxE !phiE /ygg [X in (_ - X)%coqR]mxE phiE (norms_d hz hZ) eqxx.
have -> : (fld (2 * R_sqrt.sqrt 2) = 2 * R_sqrt.sqrt 2)%coqR by rewrite /fld Rmax_left //; lra.
have -> : ((2 * / R_sqrt.sqrt 2 - 0) / (2 * R_sqrt.sqrt 2) = / (R_sqrt.sqrt 2 * R_sqrt.sqrt 2))%coqR by Rf; lra.
rewrite q2.
case: (ord2P s) => -> /=; lra.
Qed.
(** the first update of FasterIVA on it is regular *)
Definition lamf (a : 'I_2) : R := if a == 0 then (/ R_sqrt.sqrt 2)%coqR else 4%coqR.
Definition vecf (s : 'I_2) : 'M[Cx]_2 := \matrix_(k, a) (if (s == 0) == (k == a) then 1 else 0).
Lemma wcov_d (phi : 'M[R]_2) (z : 'I_2 -> Cx) (Z : 'M[Cx]_2) s : (forall a, cabs (z a) ^+ 2 = 2%coqR) ->
  (forall a t, Z a t = if a == t then z a else 0) -> wcov phi Z s = rdiag (\row_a phi s a).
Proof.
move=> hz hZ; have hzz a : z a * (z a)^* = c 2%coqR by rewrite -cabs_sqr hz.
have e2 : c (2%:R)^-1 = c (/ 2)%coqR by rewrite -RnatE -RinvE //=; lra.
apply/matrixP => a b; rewrite [LHS]mxE /meanC sum2 !hZ !mxE e2.
case: (ord2P a) => ->; case: (ord2P b) => -> /=; rewrite ?conjC0 ?mul0r ?mulr0 ?addr0 ?add0r ?hzz ?mulr0 //.
all: by rewrite mulr1n -!cM; apply: (f_equal c); toR; lra.
Qed.
Lemma specf (s : 'I_2) : eigh_spec (rdiag (\row_a (if s == a then (/ R_sqrt.sqrt 2)%coqR else 4%coqR))) (\row_a lamf a, vecf s).
Proof.
have q1 : (1 < R_sqrt.sqrt 2)%coqR by rewrite -{1}R_sqrt.sqrt_1; apply: R_sqrt.sqrt_lt_1; lra.
have i1 : (/ R_sqrt.sqrt 2 < 1)%coqR by rewrite -Rinv_1; apply: Rinv_lt_contravar; lra.
split; cbn [fst snd].
- apply/matrixP => a b; rewrite mxE sum2 !ctrE !mxE.
  by case: (ord2P s) => ->; case: (ord2P a) => ->; case: (ord2P b) => -> /=; rewrite ?conjC0 ?conjC1 ?mul0r ?mulr0 ?mul1r ?addr0 ?add0r.
- apply/matrixP => a b; rewrite /rdiag diag_mulE mul_diagE !mxE /lamf.
  by case: (ord2P s) => ->; case: (ord2P a) => ->; case: (ord2P b) => -> /=; rewrite ?mul0r ?mulr0 ?mul1r ?mulr1.
- move=> i j; rewrite !mxE /lamf; case: (ord2P i) => ->; case: (ord2P j) => -> //= _; lra.
Qed.
Lemma regf_d (eig : eigh_t) Z : eigh_contract eig -> white eig Xd = Some Z ->
  faster_regular fld eig (fun _ _ _ => 2%coqR) Z (@eyes 1 2).
Proof.
move=> h eZ; have [z [hz hZ]] := white_d h eZ; move=> i.
have phiE := phi_d hz hZ; rewrite sep_d.
have q1 : (1 < R_sqrt.sqrt 2)%coqR by rewrite -{1}R_sqrt.sqrt_1; apply: R_sqrt.sqrt_lt_1; lra.
have i1 : (/ R_sqrt.sqrt 2 < 1)%coqR by rewrite -Rinv_1; apply: Rinv_lt_contravar; lra.
have wE s : wcov (weight fld (fun _ _ _ => 2%coqR) (norms Z)) (Z i) s = rdiag (\row_a (if s == a then (/ R_sqrt.sqrt 2)%coqR else 4%coqR)).
  by rewrite (wcov_d _ _ hz (hZ i)); apply: (f_equal (@rdiag 2)); apply/rowP => a; rewrite [LHS]mxE phiE mxE.
have eE s : (eig 2%N (wcov (weight fld (fun _ _ _ => 2%coqR) (norms Z)) (Z i) s)).1 = \row_a lamf a /\
  exists d : 'rV[Cx]_2, phases d /\ (eig 2%N (wcov (weight fld (fun _ _ _ => 2%coqR) (norms Z)) (Z i) s)).2 = vecf s *m diag_mx d.
  rewrite wE; apply: (eig_all (specf s) (h _ _ _)); first by rewrite rdiag_ctr.
  by move=> a b; rewrite !mxE /lamf; case: (ord2P a) => ->; case: (ord2P b) => -> //= hh; exfalso; lra.
split=> [s l a ln al|].
  have [-> _] := eE s; rewrite !mxE /lamf; case: (ord2P l) ln al => -> //= _; case: (ord2P a) => -> //= _; lra.
have [d [hd dE]] := (eE 0).2; have [d' [hd' dE']] := (eE 1).2.
rewrite unitmxE det2 unitfE !mxE (insubT (fun x => (x < 2)%N) (isT : (1 < 2)%N)) dE dE' !mul_mx_diag !mxE /=.
have nz (u : 'rV[Cx]_2) a : phases u -> u 0 a != 0.
  by move=> hu; apply: contra_eq_neq (hu a) => ->; rewrite mul0r eq_sym oner_neq0.
by rewrite !mul0r !mul1r conjC0 mul0r sub0r oppr_eq0 mulf_neq0 // conjC_eq0 nz.
Qed.
Lemma white_def (eig : eigh_t) : eigh_contract eig -> exists Z, white eig Xd = Some Z.
Proof.
move=> h; rewrite /white; set f := fun i : 'I_1 => _.
have [|g -> _] := @all_bins_ex _ _ Xd f (fun _ _ => True); last by exists g.
move=> i; rewrite /f /whiten /= /whiten_bin /=.
have [eL _] := eig_d i h; move: eL; case: (eig _ _) => [l V] /= ->.
have -> : [forall a, Rltb 0 ((\row_a lam a) 0 a)] by apply/forallP => a; apply/RltbP; rewrite mxE; exact: lam_gt0.
by eexists.
Qed.
(** for every eigendecomposition and singular value decomposition the hypotheses of the theorems
    hold on this recording *)
Example C91_instance (eig : eigh_t) (svd : svd_t) : eigh_contract eig -> svd_contract svd ->
  [/\ exists Z, white eig Xd = Some Z, forall i, distinct (eig 2%N (covariance (Xd i))).1,
    forall Z, white eig Xd = Some Z -> along (fast_regular fld (fun _ _ _ => 2%coqR) (fun _ _ _ => 0%coqR) Z)
      (fastiva_step fld svd (fun _ _ _ => 2%coqR) (fun _ _ _ => 0%coqR) Z) 1 (@eyes 1 2) &
    forall Z, white eig Xd = Some Z -> along (faster_regular fld eig (fun _ _ _ => 2%coqR) Z)
      (fasteriva_step fld svd (fun _ _ _ => 2%coqR) eig Z) 1 (@eyes 1 2)].
Proof.
move=> h _; split.
- exact: white_def.
- by move=> i a b; have [-> _] := eig_d i h; rewrite !mxE; exact: lam_inj.
- by move=> Z eZ; split=> //; exact: reg_d eZ.
- by move=> Z eZ; split=> //; exact: regf_d eZ.
Qed.
End Instance.
