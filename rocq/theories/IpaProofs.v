(** Lemmas about [update_by_ipa]: one step is the minimisation of a log-quadratically
    penalised quadratic function. *)
From Coq Require Import Reals Lra.
From mathcomp Require Import all_ssreflect all_algebra.
From mathcomp.algebra_tactics Require Import ring.
From Verif Require Import RStruct MxC CxR NpLin RealLemmas Eigh EighProofs.
From Verif Require Import SpatialIPProofs SpatialISS SpatialISSProofs Cubic Lqpqm Lqpqm2 Lqpqm2Proofs Ipa.
Import Order.TTheory GRing.Theory Num.Theory.
Set Implicit Arguments.
Unset Strict Implicit.
Unset Printing Implicit Defensive.
Local Open Scope ring_scope.

Section Step.
Variables (m : nat) (n : 'I_m.+2) (G : 'I_m.+2 -> 'M[Cx]_m.+2).
Notation N := m.+2.
Hypothesis pG : forall k, pd (G k).
Let M := invmx (G n).
Let a := ipa_a G n.
Let b := ipa_b G n.
Let C := ipa_C M n.
Let d := ipa_d M n.
Let Cd : 'cV[Cx]_m.+1 := invmx C *m d.
Let H0 := ipa_H0 a C.
Let v := ipa_v a b Cd.
Let z0 := ipa_z M n d Cd.

(** the change of all sources but [n] *)
Definition ipa_W (q : 'I_m.+1 -> Cx) : 'M[Cx]_N := steer_mx (fun k => - ipa_Eq q n k 0) n.
Lemma Eq_n q : ipa_Eq q n n 0 = 0.
Proof. by rewrite mxE unlift_none. Qed.
Lemma Eq_lift q i : ipa_Eq q n (lift n i) 0 = (q i)^*.
Proof. by rewrite mxE liftK. Qed.
Lemma ipa_det q : \det (ipa_W q) = 1.
Proof. by rewrite det_steer Eq_n oppr0 subr0. Qed.
Lemma ipa_unit q : ipa_W q \in unitmx.
Proof. by rewrite unitmxE ipa_det unitr1. Qed.
Lemma ipa_tilde q : invmx (ipa_W q) *m delta_mx n 0 = delta_mx n 0 - ipa_Eq q n.
Proof.
suff e : ipa_W q *m (delta_mx n 0 - ipa_Eq q n) = delta_mx n 0 by rewrite -{1}e mulKmx // ipa_unit.
apply/matrixP => k j; rewrite (ord1 j) /ipa_W -steerE [LHS]mxE.
rewrite ![((_ - _ : 'cV__) _ _)]mxE ![(- _ : 'cV__) _ _]mxE Eq_n subr0.
by rewrite [delta_mx n 0 n 0]mxE !eqxx mulr1 opprK subrK.
Qed.
Lemma ipa_row q i : row (lift n i) (ipa_W q) = delta_mx 0 (lift n i) + (q i)^* *: delta_mx 0 n.
Proof.
apply/rowP => j; by rewrite !mxE liftK mulNr opprK eqxx /= [j == lift n i]eq_sym.
Qed.

(** ** the quadratic terms of the other sources *)
Lemma a_gt0 i : (0 < a i)%coqR.
Proof.
have [_ /(_ (delta_mx n 0))] := pG (lift n i).
have -> : form (G (lift n i)) (delta_mx n 0) (delta_mx n 0) = G (lift n i) n n.
  by rewrite /form ctr_delta -rowE -colE !mxE.
move=> h; suff /h /gt0_cre[] : (delta_mx n 0 : 'cV[Cx]_N) != 0 by [].
by apply/eqP => /(congr1 (fun x : 'cV_N => x n 0)) /eqP; rewrite !mxE !eqxx oner_eq0.
Qed.
Lemma sa_gt0 i : (0 < R_sqrt.sqrt (a i))%coqR.
Proof. by apply: sqrt_lt_R0; exact: a_gt0. Qed.
Lemma sa_neq0 i : c (R_sqrt.sqrt (a i)) != 0.
Proof. by apply: c_neq0; have := sa_gt0 i; lra. Qed.
Lemma a_sqrt i : c (a i) = c (R_sqrt.sqrt (a i)) ^+ 2.
Proof. by rewrite -cX -RpowE pow2_sqrt //; apply: Rlt_le; exact: a_gt0. Qed.
Lemma G_n i : G (lift n i) n n = c (a i).
Proof.
have [hG _] := pG (lift n i); apply: real_cre; apply/CrealP.
by rewrite -[in LHS]hG ctrE conjCK.
Qed.

(** value of the quadratic term of source [lift n i]; [qc] is the shifted variable *)
Definition ipa_K : R :=
  (\sum_i (re (G (lift n i) (lift n i) (lift n i)) - cabs (b i) ^+ 2 / a i))%R.
Lemma quad_other qc i :
  quad (G (lift n i)) (row (lift n i) (ipa_W (ipa_q a b qc))) =
  re (G (lift n i) (lift n i) (lift n i)) - cabs (b i) ^+ 2 / a i + cabs (qc i 0) ^+ 2.
Proof.
rewrite ipa_row; set q := ipa_q a b qc i; set k := lift n i.
have [hG _] := pG k; have sn := sa_neq0 i.
rewrite quad_form ctrD ctrZ conjCK !ctr_delta !(formDl, formDr, formZl, formZr).
have fE (j l : 'I_N) : form (G k) (delta_mx j 0) (delta_mx l 0) = G k j l.
  by rewrite /form ctr_delta -rowE -colE !mxE.
rewrite !fE G_n.
have e1 : G k n k = b i by [].
have e2 : G k k n = (b i)^* by rewrite -[in LHS]hG ctrE.
have e3 : G k k k = c (re (G k k k)).
  by apply: real_cre; apply/CrealP; rewrite -[in LHS]hG ctrE conjCK.
rewrite e1 e2 {1}e3; apply: c_inj.
set g := re (G k k k).
have -> : c g + q * (b i)^* + (q^* * b i + q^* * (q * c (a i))) =
  c (g - cabs (b i) ^+ 2 / a i + cabs (qc i 0) ^+ 2).
  rewrite !(cD, cN, cM, cV, cabs_sqr) a_sqrt /q /ipa_q a_sqrt.
  rewrite !(rmorphM, rmorphB, rmorphD, fmorphV, rmorphX) /= !c_conj.
  move: (c (R_sqrt.sqrt (a i))) sn => s sn; by field.
by rewrite rec.
Qed.
Lemma sum_other qc :
  \sum_(k | k != n) quad (G k) (row k (ipa_W (ipa_q a b qc))) = ipa_K + \sum_i cabs (qc i 0) ^+ 2.
Proof.
have -> : \sum_(k | k != n) quad (G k) (row k (ipa_W (ipa_q a b qc))) =
          \sum_i quad (G (lift n i)) (row (lift n i) (ipa_W (ipa_q a b qc))).
  rewrite big_mkcond (bigD1_ord n) //= eqxx add0r; apply: eq_bigr => i _.
  by rewrite eq_sym neq_lift.
by rewrite /ipa_K -big_split; apply: eq_bigr => i _; rewrite quad_other.
Qed.

(** ** the argument of the logarithm *)
Let E : 'M[Cx]_(N, m.+1) := \matrix_(k, i) (k == lift n i)%:R.
Let V : 'M[Cx]_N := map_mx conjC M.
Lemma pM : pd M. Proof. exact: pd_inv. Qed.
Lemma conj_ctr p r (A : 'M[Cx]_(p, r)) : (map_mx conjC A)^H = map_mx conjC A^H.
Proof. by apply/matrixP => i j; rewrite !(ctrE, mxE). Qed.
Lemma conj_mul p r s (A : 'M[Cx]_(p, r)) (B : 'M[Cx]_(r, s)) :
  map_mx conjC (A *m B) = map_mx conjC A *m map_mx conjC B.
Proof. exact: map_mxM. Qed.
Lemma conjK p r (A : 'M[Cx]_(p, r)) : map_mx conjC (map_mx conjC A) = A.
Proof. by apply/matrixP => i j; rewrite !mxE conjCK. Qed.
Lemma form_conjV x : form V (map_mx conjC x) (map_mx conjC x) = form M x x.
Proof.
have [_ h] := pd_psd pM; have /ge0_cre[e _] := h x.
rewrite /form conj_ctr -!conj_mul mxE -/(form M x x) e; exact: c_conj.
Qed.
Lemma pV : pd V.
Proof.
split; first by rewrite conj_ctr (proj1 pM).
move=> x x0; rewrite -[x]conjK form_conjV; apply: (proj2 pM).
by apply: contra x0 => /eqP e; rewrite -[x]conjK e map_mx0.
Qed.
Lemma E_free (x : 'cV[Cx]_m.+1) : E *m x = 0 -> x = 0.
Proof.
move=> e; apply/matrixP => i j; rewrite (ord1 j) [RHS]mxE.
have := congr1 (fun y : 'cV_N => y (lift n i) 0) e; rewrite !mxE (bigD1 i) //= mxE eqxx mul1r big1 ?addr0 // => l li.
by rewrite mxE (inj_eq (@lift_inj _ n)) eq_sym (negbTE li) mul0r.
Qed.
Lemma E_col i : col i E = delta_mx (lift n i) 0.
Proof. by apply/colP => j; rewrite !mxE andbT. Qed.
Lemma CE : C = E^H *m V *m E.
Proof.
apply/matrixP => i j; rewrite mxE.
transitivity (form V (col i E) (col j E)).
  by rewrite !E_col /form ctr_delta -rowE -colE !mxE.
by rewrite /form ctr_col -row_mul colE mulmxA -colE !mxE; apply: eq_bigr => l _; rewrite !mxE.
Qed.
Lemma dE : d = E^H *m V *m delta_mx n 0.
Proof.
apply/colP => i; rewrite mxE.
transitivity (form V (col i E) (delta_mx n 0)).
  by rewrite E_col /form ctr_delta -rowE -colE !mxE.
by rewrite /form ctr_col -row_mul -colE -colE !mxE; apply: eq_bigr => l _; rewrite !mxE.
Qed.
Lemma pC : pd C.
Proof. by rewrite CE; apply: pd_congr; [exact: pV|exact: E_free]. Qed.

Let x_of (qc : 'cV[Cx]_m.+1) : 'cV[Cx]_m.+1 := \col_i ipa_q a b qc i.
Lemma tilde_conj qc : map_mx conjC (delta_mx n 0 - ipa_Eq (ipa_q a b qc) n) = delta_mx n 0 - E *m x_of qc.
Proof.
apply/colP => k; rewrite !mxE rmorphB /= andbT conjC_nat; congr (_ - _).
case: unliftP => [i ->|->].
  rewrite (bigD1 i) //= !mxE eqxx mul1r conjCK big1 ?addr0 // => l li.
  by rewrite mxE (inj_eq (@lift_inj _ n)) eq_sym (negbTE li) mul0r.
rewrite conjC0 big1 // => l _; by rewrite mxE (negbTE (neq_lift n l)) mul0r.
Qed.

Lemma form_tilde qc : let x := delta_mx n 0 - ipa_Eq (ipa_q a b qc) n in
  form M x x = form C (x_of qc - Cd) (x_of qc - Cd) + c z0.
Proof.
cbv zeta; rewrite -form_conjV tilde_conj; set x := x_of qc; set e : 'cV[Cx]_N := delta_mx n 0.
have [hC _] := pC; have [hV _] := pV; have uC := pd_unit pC.
have f1 : form V (E *m x) e = form 1%:M x d by rewrite /form ctrM dE mulmx1 !mulmxA.
have f2 : form V e (E *m x) = form 1%:M d x.
  by rewrite -[LHS]conjCK form_conj hV f1 form_conj ctr1.
have f3 : form V (E *m x) (E *m x) = form C x x by rewrite CE /form ctrM !mulmxA.
have f4 : form C x Cd = form 1%:M x d by rewrite /form /Cd mulmx1 mulmxA mulmxK // -mulmxA mulKVmx.
have f5 : form C Cd x = form 1%:M d x by rewrite -[LHS]conjCK form_conj hC f4 form_conj ctr1.
have f6 : form C Cd Cd = form 1%:M d Cd.
  by rewrite /form /Cd mulmx1 ctrM ctr_inv hC !mulmxA mulmxKV // -!mulmxA.
rewrite !(formDl, formDr, formNl, formNr) f1 f2 f3 f4 f5 f6.
have vn : form V e e = c (re (M n n)).
  have -> : form V e e = V n n by rewrite /form ctr_delta -rowE -colE !mxE.
  rewrite mxE -c_conj; congr (_^*); apply: real_cre; apply/CrealP.
  by have [hM _] := pM; rewrite -[in LHS]hM ctrE conjCK.
have dd : form 1%:M d Cd = c (re (\sum_i (d i 0)^* * Cd i 0)).
  have -> : \sum_i (d i 0)^* * Cd i 0 = form 1%:M d Cd.
    by rewrite /form mulmx1 mxE; apply: eq_bigr => i _; rewrite ctrE.
  have [_ h] := pd_psd pC; have /ge0_cre[h1 _] := h Cd; by rewrite -f6.
rewrite vn dd /z0 /ipa_z cB.
move: (form C x x) (form 1%:M x d) (form 1%:M d x) (c (re (M n n))) (c (re _)) => *; ring.
Qed.
Lemma form_H0 (w : 'cV[Cx]_m.+1) :
  form H0 (\col_i (c (R_sqrt.sqrt (a i)) * w i 0)) (\col_i (c (R_sqrt.sqrt (a i)) * w i 0)) = form C w w.
Proof.
rewrite /form !mxE; apply: eq_bigr => j _; rewrite !mxE !mulr_suml; apply: eq_bigr => i _.
rewrite !(ctrE, mxE) rmorphM /= c_conj.
have := sa_neq0 i; have := sa_neq0 j; move: (c (R_sqrt.sqrt (a i))) (c (R_sqrt.sqrt (a j))) => s t s0 t0.
by field; rewrite s0 t0.
Qed.
Lemma qc_v qc : qc + v = \col_i (c (R_sqrt.sqrt (a i)) * (x_of qc - Cd) i 0).
Proof.
apply/colP => i; rewrite [LHS]mxE [v i 0]mxE [RHS]mxE [(x_of qc - Cd) i 0]mxE [(- Cd) i 0]mxE [x_of qc i 0]mxE.
rewrite /ipa_q a_sqrt; have := sa_neq0 i; move: (c (R_sqrt.sqrt (a i))) (Cd i 0) (b i) (qc i 0) => s u w y s0.
by field.
Qed.
Lemma ipa_arg qc : ipq (G n) (ipa_W (ipa_q a b qc)) n = lq_arg H0 v z0 qc.
Proof.
by rewrite /ipq ipa_tilde -/M form_tilde reD rec /lq_arg qc_v form_H0.
Qed.
Lemma arg_gt0 qc : (0 < lq_arg H0 v z0 qc)%coqR.
Proof. by rewrite -ipa_arg; apply: ipq_gt0 => //; exact: ipa_unit. Qed.
Lemma pH0 : pd H0.
Proof.
have inv (w : 'cV[Cx]_m.+1) : w = \col_i (c (R_sqrt.sqrt (a i)) * (\col_i (w i 0 / c (R_sqrt.sqrt (a i)))) i 0).
  apply/colP => i; rewrite !mxE; have := sa_neq0 i; move: (c (R_sqrt.sqrt (a i))) => s s0; by field.
split=> [|w w0].
  apply/matrixP => i j; rewrite ctrE !mxE fmorph_div rmorphM /= !c_conj; congr (_ / _); last exact: mulrC.
  by have [hM _] := pM; rewrite -[in RHS]hM ctrE.
rewrite (inv w) form_H0; apply: (proj2 pC); apply: contra w0 => /eqP e.
by rewrite (inv w) e; apply/eqP/colP => i; rewrite !mxE mulr0.
Qed.
Lemma z0_gt0 : (0 < z0)%coqR.
Proof.
have := arg_gt0 (- v); rewrite /lq_arg addNr form0l re0; by toR; rewrite Rplus_0_l.
Qed.
Lemma tr_gt0 : (0 < re (\tr H0))%coqR.
Proof.
have h i : (0 < re (H0 i i))%coqR.
  have [_ /(_ (delta_mx i 0))] := pH0.
  have -> : form H0 (delta_mx i 0) (delta_mx i 0) = H0 i i.
    by rewrite /form ctr_delta -rowE -colE !mxE.
  move=> p; suff /p /gt0_cre[] : (delta_mx i 0 : 'cV[Cx]_m.+1) != 0 by [].
  by apply/eqP => /(congr1 (fun x : 'cV_m.+1 => x i 0)) /eqP; rewrite !mxE !eqxx oner_eq0.
rewrite /mxtrace re_sum big_ord_recl; toR; apply: Rplus_lt_le_0_compat; first exact: h.
by apply: sumR_ge0 => i _; apply: Rlt_le.
Qed.

(** ** costs *)
(** the cost of the step for the answer [qc] *)
Definition ipa_p qc : 'cV[Cx]_N := invmx (G n) *m (delta_mx n 0 - ipa_Eq (ipa_q a b qc) n).
Definition ipa_V qc : 'M[Cx]_N :=
  setrow n ((c (R_sqrt.sqrt (lq_arg H0 v z0 qc)))^-1 *: (ipa_p qc)^H) (ipa_W (ipa_q a b qc)).
Lemma ipa_V_unit qc : ipa_V qc \in unitmx.
Proof.
rewrite /ipa_V /ipa_p -ipa_tilde; apply: new_unit; [exact: pG|exact: ipa_unit|].
by apply: sqrt_lt_R0; exact: arg_gt0.
Qed.
Lemma ipa_cost qc : aux_cost G (ipa_V qc) = (ipa_K + 1 + lq_obj H0 v z0 qc)%coqR.
Proof.
have p0 := arg_gt0 qc; have s0 := sqrt_lt_R0 _ p0.
rewrite /ipa_V /ipa_p -ipa_tilde new_cost //; last exact: ipa_unit.
rewrite sum_other ipa_det cabs1 ln_1 ipa_arg /lq_obj.
move: (lq_arg H0 v z0 qc) p0 s0 => x p0 s0.
have -> : (x / R_sqrt.sqrt x ^ 2 = 1)%coqR by rewrite pow2_sqrt; [Rfield|]; lra.
have -> : (x / R_sqrt.sqrt x = R_sqrt.sqrt x)%coqR by rewrite -{1}(sqrt_sqrt x); [Rfield|]; lra.
have := ln_sqrt2 _ p0; move: (\sum_i cabs (qc i 0) ^+ 2) (ln x) (ln (R_sqrt.sqrt x)) => y w w' e.
by toR; lra.
Qed.

(** the family of changes: only row [n] and column [n] differ from the identity *)
Definition ipa_family (V : 'M[Cx]_N) : Prop :=
  forall i j, i != n -> j != n -> V i j = (i == j)%:R.
Definition ipa_qc (V : 'M[Cx]_N) : 'cV[Cx]_m.+1 :=
  \col_i (c (R_sqrt.sqrt (a i)) * (V (lift n i) n)^* + b i / c (R_sqrt.sqrt (a i))).
Lemma q_qc V' i : ipa_q a b (ipa_qc V') i = (V' (lift n i) n)^*.
Proof.
rewrite /ipa_q mxE a_sqrt; have := sa_neq0 i; move: (c (R_sqrt.sqrt (a i))) => s s0; by field.
Qed.
Lemma family_setrow V' : ipa_family V' ->
  V' = setrow n (row n V') (ipa_W (ipa_q a b (ipa_qc V'))).
Proof.
move=> h; apply/matrixP => k j; rewrite !mxE; case: (eqVneq k n) => [->//|kn].
case: unliftP => [i e|e]; last by rewrite e eqxx in kn.
rewrite q_qc conjCK -e mulNr opprK; case: (eqVneq j n) => [->|jn].
  by rewrite (negbTE kn) mulr1 add0r.
by rewrite h // mulr0 addr0.
Qed.
Lemma ipa_V_family qc : ipa_family (ipa_V qc).
Proof.
by move=> i j iN jN; rewrite mxE (negbTE iN) mxE (negbTE jN) mulr0 subr0.
Qed.
Lemma ipa_cost_ge V' : ipa_family V' -> V' \in unitmx ->
  (ipa_K + 1 + lq_obj H0 v z0 (ipa_qc V') <= aux_cost G V')%coqR.
Proof.
move=> fV uV; rewrite -ipa_cost {2}(family_setrow fV).
rewrite /ipa_V /ipa_p -ipa_tilde -ipa_arg; apply: ip_global; [exact: pG|exact: ipa_unit|].
move: uV; rewrite unitmxE {1}(family_setrow fV) det_setrow; last exact: ipa_unit.
by rewrite ipa_det mulr1 unitfE.
Qed.
Lemma ipa_qcK qc : ipa_qc (ipa_V qc) = qc.
Proof.
have nl i : (lift n i == n) = false by rewrite eq_sym (negbTE (neq_lift n i)).
apply/colP => i; rewrite mxE {1}/ipa_V [setrow _ _ _ _ _]mxE nl [ipa_W _ _ _]mxE nl eqxx Eq_lift mulr1 add0r opprK conjCK.
rewrite /ipa_q a_sqrt; have := sa_neq0 i; move: (c (R_sqrt.sqrt (a i))) => s s0; by field.
Qed.
End Step.
