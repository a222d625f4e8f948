(** Inequalities behind the EM updates of the complex angular central Gaussian mixture. *)
From Coq Require Import Reals Lra.
From mathcomp Require Import all_ssreflect all_algebra.
From Verif Require Import RStruct MxC CxR NpLin RealLemmas Eigh EighProofs NmfReal NmfMM Prop_Linalg ProxProofs TraceMM.
From Verif Require Import Special SpecialProofs Cacgmm.
Import Order.TTheory GRing.Theory Num.Theory.
Set Implicit Arguments.
Unset Strict Implicit.
Unset Printing Implicit Defensive.
Local Open Scope ring_scope.

(** Jensen's inequality for the logarithm of a sum of exponentials *)
Lemma em_bound N (f f' : 'I_N -> R) : (0 < N)%N ->
  let S := (\sum_n exp (f n))%R in let S' := (\sum_n exp (f' n))%R in
  (- ln S' <= - ln S + (\sum_n (exp (f n) / S * (f n - f' n))%coqR)%R)%coqR.
Proof.
move=> N0 S S'.
have S0 : (0 < S)%coqR by apply: (@sumR_gt0 _ _ (Ordinal N0)) => [n|]; [apply: Rlt_le|]; apply: exp_pos.
have S0' : (0 < S')%coqR by apply: (@sumR_gt0 _ _ (Ordinal N0)) => [n|]; [apply: Rlt_le|]; apply: exp_pos.
set u := (\sum_n (exp (f n) / S * (f n - f' n))%coqR)%R.
have g1 : (\sum_n (exp (f n) / S)%coqR)%R = 1%coqR.
  by rewrite -(sumR_mulr _ _ (/ S)%coqR (fun n => exp (f n))) -/S Rinv_r //; lra.
have : (exp (- u) * S <= S')%coqR.
  have -> : (exp (- u) * S = \sum_n (exp (- u) * S * (exp (f n) / S * (1 + (f' n - f n) + u)))%coqR)%coqR.
    rewrite -(sumR_mull _ _ (exp (- u) * S)%coqR).
    have -> : (\sum_n (exp (f n) / S * (1 + (f' n - f n) + u))%coqR)%R = 1%coqR.
      have -> : (\sum_n (exp (f n) / S * (1 + (f' n - f n) + u))%coqR)%R =
        (((1 + u) * (\sum_n (exp (f n) / S)%coqR)%R) - u)%coqR.
        have -> : (\sum_n (exp (f n) / S * (1 + (f' n - f n) + u))%coqR)%R =
          (\sum_n (((1 + u) * (exp (f n) / S)) - exp (f n) / S * (f n - f' n))%coqR)%R.
          by apply: eq_bigr => n _; clearbody u S; Rf; lra.
        by rewrite -sumR_sub -sumR_mull.
      rewrite g1; clearbody u; Rr.
    by clearbody u S; Rr.
  apply: sumR_le => n _.
  have -> : (exp (- u) * S * (exp (f n) / S * (1 + (f' n - f n) + u)) = exp (f n) * (exp (- u) * (1 + (f' n - f n + u))))%coqR by Rfield; lra.
  have -> : exp (f' n) = (exp (f n) * (exp (- u) * exp (f' n - f n + u)))%coqR.
    by rewrite -!exp_plus; congr exp; Rring.
  apply: Rmult_le_compat_l; first by apply: Rlt_le; apply: exp_pos.
  apply: Rmult_le_compat_l; first by apply: Rlt_le; apply: exp_pos.
  by have := exp_ineq1_le (f' n - f n + u); lra.
move=> h; have e0 := exp_pos (- u)%coqR.
have : (ln (exp (- u) * S) <= ln S')%coqR.
  have [l|->] := Rle_lt_or_eq_dec _ _ h; last by apply: Rle_refl.
  by apply: Rlt_le; apply: ln_increasing => //; apply: Rmult_lt_0_compat.
by rewrite ln_mult // ln_exp; lra.
Qed.

(** quadratic forms *)
Lemma form_eigen n (A : 'M[Cx]_n) r : eigh_spec A r -> forall x,
  re (form A x x) = \sum_k r.1 0 k * cabs ((r.2^H *m x) k 0) ^+ 2 /\
  re (form 1%:M x x) = \sum_k cabs ((r.2^H *m x) k 0) ^+ 2.
Proof.
move=> sp x; have rE := eigh_recompose sp; have uP := eigh_unitary sp; split.
  by rewrite {1}rE form_recompose form_rdiag rec.
by rewrite -(recompose1 uP) form_recompose rdiag1 form1E rec.
Qed.
Lemma rtr_recompose n d (P : 'M[Cx]_n) : unitary P -> rtr (recompose d P) = \sum_k d 0 k.
Proof.
move=> uP; rewrite /recompose rtrC mulmxA uP mul1mx /rtr /mxtrace re_sum.
by apply: eq_bigr => k _; rewrite rdiagE eqxx mulr1n rec.
Qed.
Lemma form_le_trace n (B : 'M[Cx]_n) x : psd B -> (re (form B x x) <= rtr B * re (form 1%:M x x))%coqR.
Proof.
move=> pB; have [r sp] := eigh_exists (proj1 pB); have [-> ->] := form_eigen sp x.
have l0 i : (0 <= r.1 0%R i)%coqR := eigh_val_ge0 i pB sp.
rewrite {1}(eigh_recompose sp) rtr_recompose; last exact: eigh_unitary sp.
rewrite [X in (_ <= X)%coqR]sumR_mull; apply: sumR_le => k _; apply: Rmult_le_compat_r.
  by apply/RleP; exact: sqr_ge0.
rewrite (bigD1 k) //=; set s := \sum_(i | _) _.
have : (0 <= s)%coqR by apply: sumR_ge0 => i _.
by rewrite -RaddE; have := l0 k; lra.
Qed.
(** for a unit vector the quadratic form of the inverse is at least the inverse of the trace *)
Lemma qform_lower n (B : 'M[Cx]_n) z : pd B -> re (form 1%:M z z) = 1 ->
  (1 <= rtr B * re (form (invmx B) z z))%coqR.
Proof.
move=> pB z1; have := cauchy_schwarz_inv z z pB.
have [e1 _] := ge0_cre (form1_ge0 z); have pi := pd_psd (pd_inv pB).
have [e2 q0] := ge0_cre (proj2 pi z); have [e3 b0] := ge0_cre (proj2 (pd_psd pB) z).
rewrite e1 z1 c1 normr1 expr1n e2 e3 -cM -c1 cle => /RleP; rewrite !rec -RmulE -[1]/1%coqR.
have := form_le_trace z (pd_psd pB); rewrite z1 -[1]/1%coqR Rmult_1_r => h1 h2.
apply: Rle_trans h2 _; exact: Rmult_le_compat_r.
Qed.
(** and at most the inverse of a lower bound of [B] *)
Lemma qform_upper n (B : 'M[Cx]_n) eps z : pd B -> (0 < eps)%coqR ->
  (forall x, (eps * re (form 1%:M x x) <= re (form B x x))%coqR) ->
  (eps * re (form (invmx B) z z) <= re (form 1%:M z z))%coqR.
Proof.
move=> pB e0 lo; have uB := pd_unit pB; set y := invmx B *m z.
have zy : z = B *m y by rewrite /y mulKVmx.
have e1 : form (invmx B) (B *m y) (B *m y) = form B y y by rewrite formM (proj1 pB) mulmxV // mul1mx.
rewrite -zy in e1.
have e2 : form 1%:M y z = form B y y by rewrite [z in form 1%:M y z]zy /form mulmx1 mulmxA.
have := cauchy_schwarz y z (pd_psd (@pd1 Cx n)); rewrite e2 e1.
have [f1 g1] := ge0_cre (form1_ge0 z); have [f2 g2] := ge0_cre (form1_ge0 y).
have [f3 g3] := ge0_cre (proj2 (pd_psd pB) y).
rewrite f1 f2 f3 cabsE cabs_c Rabs_pos_eq // -cX -cM cle !rec => /RleP.
have := lo y; move: (re (form B y y)) (re (form 1%:M y y)) (re (form 1%:M z z)) g1 g2 g3 => a b d g1 g2 g3.
rewrite -RpowE -RmulE => l1 l2.
have [a0|a0] := Rle_lt_or_eq_dec _ _ g3; last by rewrite -a0; lra.
by apply: (Rmult_le_reg_l a) => //; have := Rmult_le_compat_r d _ _ g1 l1; move: l2; rewrite /= Rmult_1_r; nra.
Qed.

(** ** The floored covariance is the best one above the floor *)
Lemma inv_recompose n (d : 'rV[R]_n) (P : 'M[Cx]_n) : unitary P -> (forall i, (0 < d 0%R i)%coqR) ->
  invmx (recompose d P) = recompose (map_mx Rinv d) P.
Proof.
move=> uP d0.
have e : recompose d P *m recompose (map_mx Rinv d) P = 1%:M.
  rewrite recomposeM // -(recompose1 uP); congr recompose; apply/rowP => i; rewrite !mxE.
  by rewrite -[_ * _]/(_ * _)%coqR Rinv_r //; have := d0 i; lra.
have u : recompose d P \in unitmx by have [] := mulmx1_unit e.
by rewrite -[LHS]mulmx1 -e mulKmx.
Qed.
Lemma rtr_form n (A : 'M[Cx]_n) (d : 'rV[R]_n) (P : 'M[Cx]_n) :
  rtr (A *m recompose d P) = \sum_k d 0 k * re (form A (col k P) (col k P)).
Proof.
have -> : A *m recompose d P = (A *m P *m rdiag d) *m P^H by rewrite /recompose !mulmxA.
rewrite rtrC !mulmxA /rtr /mxtrace re_sum; apply: eq_bigr => k _.
rewrite -reMc; congr re; rewrite /rdiag mul_mx_diag [LHS]mxE mulrC [X in X * _ = _]mxE; congr (_ * _).
by rewrite /form ctr_col -row_mul [LHS]mxE [RHS]mxE; apply: eq_bigr => j _; rewrite [in RHS]mxE [col _ _ _ _]mxE.
Qed.
Lemma floored_opt n eig eps (S B : 'M[Cx]_n) : eigh_contract eig -> (0 < eps)%coqR -> S^H = S -> pd B ->
  (forall x, (eps * re (form 1%:M x x) <= re (form B x x))%coqR) ->
  let G := to_psd eig (max_flooring eps) S in
  pd G /\ (ln (cabs (\det G)) + rtr (invmx G *m S) <= ln (cabs (\det B)) + rtr (invmx B *m S))%coqR.
Proof.
move=> He e0 hS pB lo G.
have [l [P [uP eS eG]]] := C25_spectrum (max_flooring eps) S He.
have {}eS : S = recompose l P.
  by rewrite -[LHS](hpart_id hS).
pose f : 'rV[R]_n := map_mx (max_flooring eps) l.
have f0 i : (0 < f 0%R i)%coqR by rewrite mxE /max_flooring; have := Rmax_r (l 0 i) eps; lra.
have {}eG : G = recompose f P by [].
have pG : pd G by rewrite eG; apply: recompose_pd => //; exact: unitary_unit.
split=> //; have := logdet_tangent pB pG.
have t1 : rtr (invmx G *m S) = \sum_k (l 0%R k / f 0%R k)%coqR.
  rewrite eG inv_recompose // eS recomposeM // rtr_recompose //; apply: eq_bigr => k _; rewrite [LHS]mxE mulrC.
  by rewrite [map_mx _ _ _ _]mxE.
have t2 : rtr (invmx B *m G) = (rtr (invmx B *m S) + (\sum_k ((f 0%R k - l 0%R k) * re (form (invmx B) (col k P) (col k P)))%coqR)%R)%coqR.
  rewrite eS eG !rtr_form RaddE -big_split; apply: eq_bigr => k _ /=; rewrite -!RmulE -!RaddE; Rring.
have t3 : ((\sum_k ((f 0%R k - l 0%R k) * re (form (invmx B) (col k P) (col k P)))%coqR)%R <= \sum_k (1 - l 0%R k / f 0%R k)%coqR)%coqR.
  apply: sumR_le => k _.
  have n1 : re (form 1%:M (col k P) (col k P)) = 1.
    have /matrixP/(_ k k) := uP; rewrite !mxE eqxx => h; rewrite -[RHS]re1 -[1 in RHS]h; congr re.
    by rewrite /form mulmx1 mxE; apply: eq_bigr => j _; rewrite ctr_col !mxE.
  have := qform_upper (col k P) pB e0 lo; rewrite n1 -[1]/1%coqR.
  move: (re _) => q hq; rewrite !mxE /max_flooring.
  case: (Rle_dec eps (l 0 k)) => h.
    by rewrite Rmax_left // /Rdiv Rinv_r; [rewrite !Rminus_eq_0 Rmult_0_l; lra|lra].
  rewrite Rmax_right; last lra.
  apply: (Rmult_le_reg_l eps) => //.
  have -> : (eps * (1 - l 0%R k / eps) = eps - l 0%R k)%coqR by Rfield; lra.
  by have : (0 <= eps - l 0%R k)%coqR; [lra|move: (eps - l 0%R k)%coqR => d d0; nra].
have t4 : (\sum_k (1 - l 0%R k / f 0%R k)%coqR)%R = (n%:R - (\sum_k (l 0%R k / f 0%R k)%coqR)%R)%coqR.
  by rewrite -sumR_sub sumr_const card_ord.
rewrite t1 t2; move: t3; rewrite t4; move: (\sum_k _) (\sum_k _) (rtr _) (n%:R : R) => a b t k; lra.
Qed.

(** softmax and logsumexp over the sources *)
Lemma sumR_column N (f : 'I_N -> R) : sumR (column f) = \sum_n f n.
Proof.
rewrite /column /index_enum -enumT; elim: (enum 'I_N) => [|n s IH] /=; first by rewrite big_nil.
by rewrite big_cons -IH.
Qed.
Lemma column_map N (g : R -> R) (f : 'I_N -> R) : List.map g (column f) = column (fun n => g (f n)).
Proof. by rewrite /column; elim: (enum 'I_N) => //= n s ->. Qed.
Lemma column_nil N (f : 'I_N -> R) : (0 < N)%N -> column f <> [::].
Proof. by move=> N0 /(congr1 size); rewrite size_map size_enum_ord => e; rewrite e in N0. Qed.
Lemma softmax_column N (f : 'I_N -> R) (n : 'I_N) :
  exists l, softmax (column f) = Some l /\ nth 0 l n = (exp (f n) / (\sum_k exp (f k))%R)%coqR.
Proof.
have N0 : (0 < N)%N by apply: leq_ltn_trans (ltn_ord n).
eexists; split; first exact: (softmax_formula _ (column_nil N0)).
rewrite !column_map sumR_column (nth_map n) ?size_enum_ord // nth_ord_enum //.
Qed.
Lemma logsumexp_column N (f : 'I_N -> R) : (0 < N)%N -> logsumexp (column f) = Some (ln (\sum_k exp (f k))).
Proof. by move=> N0; rewrite logsumexp_formula; [rewrite column_map sumR_column|exact: column_nil]. Qed.
