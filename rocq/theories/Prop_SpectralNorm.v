(** C76: [normalize_by_spectral_norm] makes the operator of the primal-dual splitting have norm 1. *)
From Coq Require Import Reals Lra ClassicalEpsilon.
From mathcomp Require Import all_ssreflect all_algebra.
From Verif Require Import RStruct MxC CxR RealLemmas NpLin Eigh EighProofs NmfMM Prox ProxBss SpectralNorm.
Import Order.TTheory GRing.Theory Num.Theory.
Set Implicit Arguments.
Unset Strict Implicit.
Unset Printing Implicit Defensive.
Local Open Scope ring_scope.

Lemma sqn_ge0 m k (A : 'M[Cx]_(m, k)) : (0 <= sqn A)%coqR.
Proof. by apply: sumR_ge0 => a _; apply: sumR_ge0 => b _; rewrite -RpowE; apply: pow2_ge_0. Qed.
Lemma sqn_rows m k (A : 'M[Cx]_(m, k)) : sqn A = \sum_a sqn (row a A).
Proof.
by apply: eq_bigr => a _; rewrite /sqn big_ord1; apply: eq_bigr => b _; rewrite mxE.
Qed.
Lemma sqn_scale m k (a : R) (A : 'M[Cx]_(m, k)) : sqn (c a *: A) = a ^+ 2 * sqn A.
Proof.
rewrite /sqn mulr_sumr; apply: eq_bigr => i _; rewrite mulr_sumr; apply: eq_bigr => j _.
by rewrite mxE cabsM exprMn; congr (_ * _); rewrite cabs_c -!RpowE pow2_abs.
Qed.
Lemma sqn_row k (x : 'rV[Cx]_k) : c (sqn x) = form 1%:M (x^H) (x^H).
Proof.
rewrite form1E /sqn big_ord1; congr c; apply: eq_bigr => b _.
by rewrite !mxE cabs_conj.
Qed.
Lemma sqn_eq0 m k (A : 'M[Cx]_(m, k)) : (sqn A = 0) -> A = 0.
Proof.
move=> h; apply/matrixP => i j; rewrite mxE.
have sq a b : 0 <= cabs (A a b) ^+ 2 by apply: sqr_ge0.
move/eqP: h; rewrite psumr_eq0 => [/allP/(_ i)|a _]; last by apply: sumr_ge0 => b _.
rewrite mem_index_enum => /(_ isT); rewrite psumr_eq0 => [/allP/(_ j)|b _ //].
by rewrite mem_index_enum => /(_ isT) /=; rewrite sqrf_eq0 cabs_eq0 => /eqP.
Qed.

(** the contract can be met *)
Lemma snorm_exists m k (A : 'M[Cx]_(m.+1, k)) : exists s : R,
  [/\ (0 <= s)%coqR,
      forall x : 'rV[Cx]_m.+1, (sqn (x *m A) <= s ^+ 2 * sqn x)%coqR &
      exists2 x : 'rV[Cx]_m.+1, sqn x = 1 & sqn (x *m A) = s ^+ 2].
Proof.
have pG : psd (A *m A^H) by apply: psd_outer.
have [r sr] := eigh_exists (proj1 pG).
pose l := r.1 0 ord_max.
have l0 : (0 <= l)%coqR by apply: eigh_val_ge0 sr.
have sqE (x : 'rV[Cx]_m.+1) : c (sqn (x *m A)) = form (A *m A^H) (x^H) (x^H).
  by rewrite sqn_row /form !ctrM !ctrK mulmx1 !mulmxA.
exists (sqrt l); have sl : sqrt l ^+ 2 = l by rewrite -RpowE pow2_sqrt.
split=> [|x|]; first exact: sqrt_pos.
  rewrite sl.
  have e1 := sqE x; rewrite {1}(eigh_recompose sr) form_recompose form_rdiag in e1.
  move: e1 => /c_inj ->.
  have -> : sqn x = \sum_i cabs ((r.2^H *m x^H) i 0) ^+ 2.
    apply: c_inj; rewrite -form1E sqn_row.
    by rewrite /form !ctrM !ctrK !mulmx1 !mulmxA -(mulmxA x r.2) (unitaryC (eigh_unitary sr)) mulmx1.
  rewrite RmulE mulr_sumr; apply: sumR_le => i _; apply: Rmult_le_compat_r.
    by rewrite -RpowE; apply: pow2_ge_0.
  by case: sr => _ _; apply; rewrite -ltnS.
exists ((col ord_max r.2)^H).
  apply: c_inj; rewrite sqn_row ctrK c1 /form mulmx1.
  have := congr1 (fun M : 'M_m.+1 => M ord_max ord_max) (eigh_unitary sr).
  rewrite [RHS]mxE eqxx mulr1n => <-; rewrite !mxE; apply: eq_bigr => i _; rewrite !mxE //.
by apply: c_inj; rewrite sqE ctrK -(eigh_val _ sr) sl.
Qed.
Definition snorm_eps : snorm_t := fun m k =>
  match m with
  | 0 => fun _ => 0
  | m'.+1 => fun A : 'M[Cx]_(m'.+1, k) => epsilon (inhabits 0) (fun s : R =>
      [/\ (0 <= s)%coqR,
          forall x : 'rV[Cx]_m'.+1, (sqn (x *m A) <= s ^+ 2 * sqn x)%coqR &
          exists2 x : 'rV[Cx]_m'.+1, sqn x = 1 & sqn (x *m A) = s ^+ 2])
  end.
Theorem snorm_contract_sat : exists nrm, snorm_contract nrm.
Proof. by exists snorm_eps => m k A; apply: epsilon_spec (snorm_exists A). Qed.

Section C76.
Variable nrm : snorm_t.
Hypothesis hn : snorm_contract nrm.
Variables (F n T : nat).
Notation spec := ('I_F.+1 -> 'M[Cx]_(n.+1, T)).

Lemma max_norm_ge (X : spec) i : (nrm (X i) <= max_norm nrm X)%coqR.
Proof.
rewrite /max_norm; have : i \in index_enum [finType of 'I_F.+1] by rewrite mem_index_enum.
elim: (index_enum _) => [//|j s IH]; rewrite in_cons big_cons => /orP[/eqP->|/IH h].
  exact: Rmax_l.
by apply: Rle_trans h _; apply: Rmax_r.
Qed.
Lemma max_norm_in (X : spec) : exists i, max_norm nrm X = nrm (X i).
Proof.
have H : max_norm nrm X = 0 \/ exists i, max_norm nrm X = nrm (X i).
  rewrite /max_norm; elim/big_ind : _ => [|x y hx hy|i _]; [by left| |by right; exists i].
  by rewrite /Rmax; case: (Rle_dec x y).
case: H => // e; exists ord0; rewrite e; apply: Rle_antisym; first by case: (hn (X ord0)).
by rewrite -e; apply: max_norm_ge.
Qed.
Lemma max_norm_ge0 (X : spec) : (0 <= max_norm nrm X)%coqR.
Proof. by have [i ->] := max_norm_in X; case: (hn (X i)). Qed.

Lemma snorm_mx (A : 'M[Cx]_(n.+1, T)) p (W : 'M[Cx]_(p, n.+1)) :
  (sqn (W *m A) <= nrm A ^+ 2 * sqn W)%coqR.
Proof.
rewrite (sqn_rows (W *m A)) (sqn_rows W) RmulE mulr_sumr; apply: sumR_le => a _.
by rewrite row_mul; case: (hn A) => _ h _; apply: h.
Qed.

Lemma normE Q (X X' : spec) : normalize_by_spectral_norm nrm Q X = Some X' ->
  let d := (sqrt (INR Q) * max_norm nrm X)%coqR in
  [/\ (0 < d)%coqR, (d * d = INR Q * max_norm nrm X ^ 2)%coqR & forall i, X' i = c (/ d)%coqR *: X i].
Proof.
rewrite /normalize_by_spectral_norm; case: eqP => // d0 [<-]; split=> //.
  have := sqrt_pos (INR Q); have := max_norm_ge0 X => m0 s0.
  by case: (Rmult_le_pos _ _ s0 m0) => // e; case: d0; rewrite -e.
have := sqrt_sqrt (INR Q) (pos_INR Q); rewrite /=; move: (sqrt _) (max_norm _ _) => s m <-; Rring.
Qed.

(** The stacked operator W |-> (W X'_i)_q has norm at most 1, for filters with any number of rows. *)
Theorem C76_bound Q (X X' : spec) p (W : 'M[Cx]_(p, n.+1)) i :
  normalize_by_spectral_norm nrm Q X = Some X' ->
  (INR Q * sqn (W *m X' i) <= sqn W)%coqR.
Proof.
move=> /normE[]; set d := (_ * _)%coqR => d0 dd ->.
rewrite -scalemxAr sqn_scale.
have h := snorm_mx (X i) W.
have m0 := max_norm_ge X i; have n0 : (0 <= nrm (X i))%coqR by case: (hn (X i)).
have w0 := sqn_ge0 W.
have {}h : (sqn (W *m X i) <= max_norm nrm X ^ 2 * sqn W)%coqR.
  apply: Rle_trans h _; apply: Rmult_le_compat_r => //; rewrite -RpowE.
  by apply: pow_incr; split.
have q0 := pos_INR Q.
have i0 := Rinv_0_lt_compat _ d0.
rewrite -!RpowE; toR.
have h2 := Rmult_le_compat_l _ _ _ q0 h.
rewrite -Rmult_assoc -dd in h2.
have h3 := Rmult_le_compat_l _ _ _ (pow2_ge_0 (/ d)) h2.
move: h3; move: (sqn _) (sqn W) (INR Q) => a b q.
have -> : ((/ d) ^ 2 * (d * d * b) = b)%coqR by Rfield; lra.
by have -> : (q * ((/ d) ^ 2 * a) = (/ d) ^ 2 * (q * a))%coqR by Rring.
Qed.

(** The norm 1 is reached in some bin. *)
Theorem C76_tight Q (X X' : spec) : normalize_by_spectral_norm nrm Q X = Some X' ->
  exists i, exists2 W : 'M[Cx]_n.+1, (0 < sqn W)%coqR & (INR Q * sqn (W *m X' i) = sqn W)%coqR.
Proof.
move=> /normE[]; set d := (_ * _)%coqR => d0 dd e.
have [i mi] := max_norm_in X; exists i.
case: (hn (X i)) => _ _ [x x1 xA].
pose W : 'M[Cx]_n.+1 := \matrix_(a, b) (if a == ord0 then x 0 b else 0).
have rW a k (B : 'M[Cx]_(n.+1, k)) : row a (W *m B) = if a == ord0 then x *m B else 0.
  rewrite row_mul; have -> : row a W = if a == ord0 then x else 0.
    by apply/rowP => b; rewrite !mxE; case: ifP => _; rewrite ?mxE.
  by case: ifP => _ //; rewrite mul0mx.
have sW k (B : 'M[Cx]_(n.+1, k)) : sqn (W *m B) = sqn (x *m B).
  rewrite (sqn_rows (W *m B)) (bigD1 ord0) //= big1 ?addr0 => [|a /negbTE a0]; rewrite rW ?eqxx //.
  by rewrite a0 /sqn big1 // => ? _; rewrite big1 // => ? _; rewrite mxE cabs0 expr0n.
have W1 : sqn W = 1 by rewrite -[W]mulmx1 sW mulmx1.
exists W; first by rewrite W1; exact: Rlt_0_1.
rewrite e -scalemxAr sqn_scale sW xA W1 -mi -!RpowE; toR.
have -> : (INR Q * ((/ d) ^ 2 * max_norm nrm X ^ 2) = (/ d) ^ 2 * (d * d))%coqR by rewrite dd; Rring.
by Rfield; lra.
Qed.

(** Hence the step sizes mu1, mu2 of the primal-dual splitting satisfy its convergence condition
    mu1 mu2 ||L||^2 <= 1 exactly when mu1 mu2 <= 1; the defaults are mu1 = mu2 = 1 (pdsbss.py:58-65). *)
Theorem C76_step_size Q (X X' : spec) (mu1 mu2 : R) : normalize_by_spectral_norm nrm Q X = Some X' ->
  (0 < mu1)%coqR -> (0 < mu2)%coqR ->
  (forall i (W : 'M[Cx]_n.+1), (mu1 * mu2 * (INR Q * sqn (W *m X' i)) <= sqn W)%coqR) <-> (mu1 * mu2 <= 1)%coqR.
Proof.
move=> h m1 m2; have m0 := Rmult_lt_0_compat _ _ m1 m2; split=> [H|le i W].
  have [i [W W0 e]] := C76_tight h.
  have := H i W; rewrite e; move: (sqn W) W0 => w w0 le.
  by apply: (Rmult_le_reg_r w) => //; rewrite Rmult_1_l.
have := C76_bound W i h; have := sqn_ge0 (W *m X' i); have := pos_INR Q.
move: (INR Q) (sqn _) (sqn W) => q a b q0 a0 le2.
have := Rmult_le_pos _ _ q0 a0 => qa.
apply: Rle_trans le2; rewrite -[X in (_ <= X)%coqR]Rmult_1_l.
exact: Rmult_le_compat_r.
Qed.

(** A gain of the recording has no effect on the normalised spectrogram. *)
Lemma nrm_scale (a : R) (A : 'M[Cx]_(n.+1, T)) : (0 < a)%coqR -> nrm (c a *: A) = (a * nrm A)%coqR.
Proof.
move=> a0; case: (hn A) => p0 pb [x x1 xe]; case: (hn (c a *: A)) => q0 qb [y y1 ye].
have sq0 (u v : R) : (0 <= u)%coqR -> (0 <= v)%coqR -> (u ^ 2 <= v ^ 2)%coqR -> (u <= v)%coqR.
  by move=> u0 v0 h; apply: Rsqr_incr_0_var => //; rewrite !Rsqr_pow2.
have ap : (0 <= a * nrm A)%coqR by apply: Rmult_le_pos => //; lra.
apply: Rle_antisym; apply: sq0 => //.
  have := pb y; move: ye; rewrite y1 -scalemxAr sqn_scale !RmulE mulr1 -!RpowE; toR => <- h.
  rewrite Rpow_mult_distr; apply: Rmult_le_compat_l => //; exact: pow2_ge_0.
have := qb x; rewrite x1 -scalemxAr sqn_scale !RmulE mulr1 xe -!RpowE; toR.
by rewrite Rpow_mult_distr.
Qed.
Lemma max_norm_scale (a : R) (X : spec) : (0 < a)%coqR ->
  max_norm nrm (fun i => c a *: X i) = (a * max_norm nrm X)%coqR.
Proof.
move=> a0; apply: Rle_antisym.
  have [i ->] := max_norm_in (fun i => c a *: X i); rewrite nrm_scale //.
  by apply: Rmult_le_compat_l; [lra|apply: max_norm_ge].
have [i ->] := max_norm_in X; rewrite -nrm_scale //.
exact: (max_norm_ge (fun i => c a *: X i)).
Qed.
Theorem C76_gain Q (X : spec) (a : R) : (0 < a)%coqR ->
  (normalize_by_spectral_norm nrm Q X = None <-> normalize_by_spectral_norm nrm Q (fun i => c a *: X i) = None) /\
  forall Y Y', normalize_by_spectral_norm nrm Q X = Some Y ->
    normalize_by_spectral_norm nrm Q (fun i => c a *: X i) = Some Y' -> forall i, Y' i = Y i.
Proof.
move=> a0; rewrite /normalize_by_spectral_norm max_norm_scale //.
set s := sqrt _; set m := max_norm _ _.
have -> : (s * (a * m) = a * (s * m))%coqR by Rring.
have -> : ((a * (s * m))%coqR == 0) = ((s * m)%coqR == 0).
  apply/eqP/eqP => [/Rmult_integral[]//|->]; [|by rewrite Rmult_0_r].
  by move=> e; move: a0; rewrite e => /Rlt_irrefl.
case: eqP => // d0; split=> // Y Y' [<-] [<-] i; rewrite scalerA -cM; congr (c _ *: _).
move: (s * m)%coqR d0 => d d0; have {}d0 : d <> 0%coqR by [].
by toR; Rfield; split=> //; lra.
Qed.

(** Normalising twice is normalising once. *)
Theorem C76_idempotent Q (X Y : spec) : normalize_by_spectral_norm nrm Q X = Some Y ->
  exists2 Z, normalize_by_spectral_norm nrm Q Y = Some Z & forall i, Z i = Y i.
Proof.
move=> /normE[]; set d := (_ * _)%coqR => d0 dd e.
have i0 := Rinv_0_lt_compat _ d0.
have m : max_norm nrm Y = (/ d * max_norm nrm X)%coqR.
  by rewrite -(max_norm_scale _ i0); apply: eq_bigr => i _; rewrite e.
rewrite /normalize_by_spectral_norm m.
have -> : (sqrt (INR Q) * (/ d * max_norm nrm X) = 1)%coqR.
  have -> : (sqrt (INR Q) * (/ d * max_norm nrm X) = / d * d)%coqR by rewrite /d; Rring.
  by Rfield; lra.
case: eqP => [/R1_neq_R0//|_]; exists (fun i => c (/ 1)%coqR *: Y i) => // i.
by rewrite Rinv_1 c1 scale1r.
Qed.

(** The division by zero happens for a silent recording and without penalties only. *)
Theorem C76_fails Q (X : spec) :
  normalize_by_spectral_norm nrm Q X = None <-> (Q = 0%N \/ forall i, X i = 0).
Proof.
rewrite /normalize_by_spectral_norm; case: eqP => d0; split=> // h; move: h.
- move=> _; case: (Rmult_integral _ _ d0) => e.
    left; apply/eqP; rewrite -leqn0 leqNgt; apply/negP => q.
    have := sqrt_lt_R0 (INR Q) (lt_0_INR Q (elimT ssrnat.ltP q)); rewrite e.
    exact: Rlt_irrefl.
  right=> i; have n0 : nrm (X i) = 0.
    apply: Rle_antisym; last by case: (hn (X i)).
    by have := max_norm_ge X i; rewrite e.
  apply: sqn_eq0; apply: Rle_antisym; last exact: sqn_ge0.
  have := snorm_mx (X i) 1%:M; rewrite mul1mx n0 expr0n; toR.
  by rewrite Rmult_0_l.
- case=> [q|z]; case: d0; first by rewrite q sqrt_0 Rmult_0_l.
  have -> : max_norm nrm X = 0%coqR; last exact: Rmult_0_r.
  have [i ->] := max_norm_in X; case: (hn (X i)) => _ _ [x _].
  rewrite z mulmx0 => h; apply/eqP; rewrite -sqrf_eq0; apply/eqP; rewrite -h.
  by rewrite /sqn big1 // => ? _; rewrite big1 // => ? _; rewrite mxE cabs0 expr0n.
Qed.
End C76.

(** The hypotheses are met: a recording of one channel, two bins and one frame. *)
Example C76_instance : exists2 nrm, snorm_contract nrm &
  exists X' : 'I_2 -> 'M[Cx]_1, normalize_by_spectral_norm nrm 3 (fun i => (i : nat)%:R%:M) = Some X'.
Proof.
have [nrm hn] := snorm_contract_sat; exists nrm => //.
case e : (normalize_by_spectral_norm _ _ _) => [X'|]; first by exists X'.
move/(C76_fails hn): e => [//|/(_ ord_max) /matrixP/(_ 0 0)/eqP].
by rewrite !mxE eqxx mulr1n oner_eq0.
Qed.

Print Assumptions snorm_contract_sat.
Print Assumptions C76_bound.
Print Assumptions C76_tight.
Print Assumptions C76_step_size.
Print Assumptions C76_gain.
Print Assumptions C76_idempotent.
Print Assumptions C76_fails.
Print Assumptions C76_instance.
