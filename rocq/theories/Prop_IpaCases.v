(** Property C74, continued: concrete cases. *)
From Coq Require Import Reals Lra Classical FunctionalExtensionality.
From mathcomp Require Import all_ssreflect all_algebra.
From mathcomp.algebra_tactics Require Import ring.
From Verif Require Import RStruct MxC CxR NpLin RealLemmas Eigh EighProofs.
From Verif Require Import SpatialIPProofs SpatialISS SpatialISSProofs Cubic Lqpqm LqpqmProofs Lqpqm2 Lqpqm2Proofs.
From Verif Require Import Prop_Lqpqm Prop_Lqpqm2 Prop_Linalg Ipa IpaProofs IpaProofs2 IpaProofs3 IpaProofs4.
From Verif Require Import Prop_Ipa Prop_IpaRun.
Import Order.TTheory GRing.Theory Num.Theory.
Set Implicit Arguments.
Unset Strict Implicit.
Unset Printing Implicit Defensive.
Local Open Scope ring_scope.

Lemma rdiag_inv n (l : 'rV[R]_n) : (forall i, (0 < l 0%R i)%coqR) -> invmx (rdiag l) = rdiag (map_mx Rinv l).
Proof.
move=> l0; have E : rdiag l *m rdiag (map_mx Rinv l) = 1%:M.
  rewrite rdiagM -rdiag1; congr rdiag; apply/rowP => i; rewrite !mxE -RmulE -R1E.
  by apply: Rinv_r; have := l0 i; lra.
have [u _] := mulmx1_unit E.
by rewrite -[RHS](mulKmx u) E mulmx1.
Qed.

(** the problem handed to [lqpqm2] when the covariance of source n is diagonal *)
Section Diagonal.
Variables (m : nat) (G : 'I_m.+2 -> 'M[Cx]_m.+2) (n : 'I_m.+2) (d : 'rV[R]_m.+2).
Hypotheses (pG : forall k, pd (G k)) (Gn : G n = rdiag d) (d0 : forall j, (0 < d 0%R j)%coqR).
Let M := invmx (G n).
Lemma diag_M i j : M i j = c (/ d 0%R i)%coqR *+ (i == j).
Proof. by rewrite /M Gn rdiag_inv // rdiagE mxE. Qed.
Lemma diag_d : ipa_d M n = 0.
Proof.
by apply/matrixP => i j; rewrite [LHS]mxE diag_M [lift n i == n]eq_sym (negbTE (neq_lift n i)) mulr0n conjC0 mxE.
Qed.
Lemma diag_H0 : ipa_H0 (ipa_a G n) (ipa_C M n) =
  rdiag (\row_i / (d 0%R (lift n i) * ipa_a G n i))%coqR.
Proof.
apply/matrixP => i j; rewrite [LHS]mxE [ipa_C M n i j]mxE diag_M rdiagE [(\row__ _) 0 i]mxE.
rewrite (inj_eq lift_inj); case: eqP => [<-|_]; last by rewrite !mulr0n conjC0 mul0r.
rewrite !mulr1n c_conj -expr2 -(a_sqrt n pG i) -!cRV -?cM; last 1 first.
  by have := a_gt0 n pG i; lra.
by congr c; rewrite Rinv_mult_distr //; [have := d0 (lift n i)|have := a_gt0 n pG i]; lra.
Qed.
Lemma diag_v : ipa_v (ipa_a G n) (ipa_b G n) (invmx (ipa_C M n) *m ipa_d M n) =
  \col_i (- ipa_b G n i / c (R_sqrt.sqrt (ipa_a G n i))).
Proof. by apply/matrixP => i j; rewrite [LHS]mxE [RHS]mxE diag_d mulmx0 [(0 : 'M__) _ _]mxE mulr0 subr0. Qed.
Lemma diag_z : ipa_z M n (ipa_d M n) (invmx (ipa_C M n) *m ipa_d M n) = (/ d 0%R n)%coqR.
Proof.
rewrite /ipa_z diag_M eqxx mulr1n rec big1 ?re0 ?subr0 // => i _; rewrite diag_d mulmx0 [(0 : 'M__) i 0]mxE mulr0 //.
Qed.
End Diagonal.

(** unit signals: the weighted covariances are diagonal *)
Section UnitSignals.
Variables (m : nat) (w : 'M[R]_m.+2).
Hypothesis w0 : forall k t, (0 < w k t)%coqR.
Definition uphi : 'M[R]_(m.+2, m.+2) := \matrix_(k, t) (m.+2%:R * w k t)%R.
Lemma nat_gt0 : (0 < m.+2%:R)%coqR. Proof. by apply/RltP; rewrite ltr0n. Qed.
Lemma unit_cov k : ipa_cov (uphi, 1%:M) k = rdiag (row k w).
Proof.
rewrite cov_E /= mul1mx ctr1 mulmx1; congr rdiag; apply/rowP => t; rewrite !mxE mulrAC divff ?mul1r //.
by apply/eqP; have := nat_gt0; toR; lra.
Qed.
Lemma unit_pd k : pd (ipa_cov (uphi, 1%:M) k).
Proof. by rewrite unit_cov; apply: pd_rdiag => j; rewrite mxE. Qed.
Lemma unit_admissible : admissible uphi 1%:M.
Proof.
split; last by rewrite row_free_unit unitmx1.
by move=> k t; rewrite mxE; apply: Rmult_lt_0_compat => //; exact: nat_gt0.
Qed.
Lemma unit_unfloored eps : (0 < eps <= 1)%coqR -> (forall k t, (eps <= w k t)%coqR /\ (eps ^ 2 * w k t <= 1)%coqR) ->
  unfloored (max_flooring eps) uphi 1%:M.
Proof.
move=> he h; right; exists eps => //; split=> // k x; rewrite wcovE unit_cov.
have e1 := form_rdiag (row k w) x; have e2 := form1E x.
rewrite /form mulmx1 in e2; rewrite -/(form _ _ _) e1 e2 !rec.
set A := (\sum_i _)%R; set B := (\sum_i _ * _)%R; split.
- have -> : (eps * A)%coqR = (\sum_i eps * cabs (x i 0%R) ^+ 2)%R by rewrite -mulr_sumr.
  apply: sumR_le => i _; rewrite mxE; have := h k i => -[h1 _].
  by apply: Rmult_le_compat_r h1; rewrite -RpowE; exact: pow2_ge_0.
- have -> : (eps ^ 2 * B)%coqR = (\sum_i (eps ^+ 2 * w k i) * cabs (x i 0%R) ^+ 2)%R.
    rewrite RpowE -[LHS]/(eps ^+ 2 * B)%R /B mulr_sumr; apply: eq_bigr => i _; by rewrite mxE mulrA.
  apply: sumR_le => i _; have := h k i => -[_ h2]; rewrite -[X in (_ <= X)%coqR]mul1r.
  by apply: Rmult_le_compat_r; [rewrite -RpowE; exact: pow2_ge_0|rewrite -RpowE].
Qed.
Lemma unit_cost1 : surrogate uphi 1%:M 1%:M = (\sum_k w k k)%R.
Proof.
rewrite surrogateE -[uphi]/(uphi, 1%:M : 'M[Cx]_m.+2).1 -[X in iss_cost _ (_ *m X)]/(uphi, 1%:M : 'M[Cx]_m.+2).2 -cov_cost /aux_cost.
rewrite det1 cabs1 ln_1; toR; rewrite Rmult_0_r Rminus_0_r; apply: eq_bigr => k _.
rewrite /quad unit_cov; apply: c_inj.
have -> : row k 1%:M *m rdiag (row k w) *m (row k 1%:M)^H = (c (w k k))%:M.
  apply/matrixP => a b; rewrite (ord1 a) (ord1 b) mul_mx_diag !mxE (bigD1 k) //= big1 => [|j jk].
    by rewrite !mxE !eqxx /= !mul1r conjC1 mulr1 addr0.
  by rewrite !mxE eq_sym (negbTE jk) !mul0r.
by rewrite mxE eqxx rec.
Qed.
End UnitSignals.

(** ** four sources: a step that increases the auxiliary function *)
Lemma lqpqm2_diag3 eig fl (sing : R -> bool) n a b d z : eigh_contract eig -> sing 0%coqR -> (0 < d < a)%coqR ->
  (a < b)%coqR -> (0 <= z <= b)%coqR ->
  exists2 u, cabs u = 1 & lqpqm2 eig fl sing n.+1 [:: (diag3 a b d, 0, z)] =
    Some ([:: c (R_sqrt.sqrt ((b - z) / b)) *: (u *: delta_mx 0 0)], false).
Proof.
move=> He sb [d0 da] ab [z0 zb].
have pH : psd (diag3 a b d).
  rewrite /diag3; set w := \row_j _.
  have -> : diag_mx w = rdiag (map_mx re w) by congr diag_mx; apply/rowP => j; rewrite !mxE rec.
  by apply: psd_rdiag => j; rewrite !mxE rec; case: (ord3P j) => -> /=; lra.
have s := He _ _ pH.1; case er: (eig _ _) s => [phi P] s.
have [|top [u u1 eu]] := diag3_eigh _ s; first lra.
exists u => //.
have v0 : vnorm (0 : 'cV[Cx]_3) = 0.
  by rewrite /vnorm big1 ?R_sqrt.sqrt_0 // => j _; rewrite mxE cabs0 expr0n.
rewrite /lqpqm2 /= er /lq_is_singular /= v0 sb /=.
rewrite /lq_singular top eu; case: eqP => [h|_] /=; first by move: h; toR; lra.
congr (Some ([:: _], _)); rewrite (Rmax_right z b) //; rewrite Rmax_left //.
by apply: Rmult_le_pos; [lra|left; apply: Rinv_0_lt_compat; lra].
Qed.

Definition w4 : 'M[R]_4 :=
  \matrix_(k, t) if k == 0 then nth 1%coqR [:: 1; 2; / 2; 4]%coqR t else 1%coqR.
Lemma ord4P (i : 'I_4) : [\/ i = 0, i = 1, i = 2 | i = 3].
Proof. by case: i => -[|[|[|[|//]]]] hi; [constructor 1|constructor 2|constructor 3|constructor 4]; exact: val_inj. Qed.
Lemma w4_bounds k t : (/ 2 <= w4 k t <= 4)%coqR.
Proof. by rewrite mxE; case: ifP => _; [case: (ord4P t) => -> /=|]; lra. Qed.
Lemma w4_gt0 k t : (0 < w4 k t)%coqR. Proof. by have := w4_bounds k t; lra. Qed.

(** C74: four sources, default flooring, default trace normalisation: the step for the first
    source succeeds without warning, no floor acts on the data, and the auxiliary function
    rises by at least 1/4 *)
Theorem C74_refuted eig eps mi : eigh_contract eig -> (0 < eps <= / 2)%coqR ->
  let phi := uphi w4 in let Y : 'M[Cx]_4 := 1%:M in
  [/\ admissible phi Y, unfloored (max_flooring eps) phi Y &
   exists Y' V, [/\ ipa_step eig (max_flooring eps) true mi.+1 0 [:: (phi, Y)] = Some ([:: Y'], false),
     changes 0 V, Y' = V *m Y & (surrogate phi Y 1%:M + / 4 <= surrogate phi Y V)%coqR]].
Proof.
move=> He [e0 e1] phi Y; have ad : admissible phi Y := unit_admissible w4_gt0.
have uf : unfloored (max_flooring eps) phi Y.
  apply: unit_unfloored; [lra|] => k t; have := w4_bounds k t => -[h1 h2]; split; first lra.
  have : (eps ^ 2 <= / 4)%coqR.
    by have := Rmult_le_compat eps (/ 2) eps (/ 2) (Rlt_le _ _ e0) (Rlt_le _ _ e0) e1 e1; lra.
  have e2 := pow2_ge_0 eps; move=> e3.
  by have := Rmult_le_compat _ _ _ _ e2 (Rlt_le _ _ (w4_gt0 k t)) e3 h2; lra.
split=> //.
have pG k : pd (ipa_cov (phi, Y) k) := unit_pd w4_gt0 k.
set G := ipa_cov (phi, Y) in pG.
have Gn : G 0 = rdiag (row 0 w4) := unit_cov w4 0.
have d0 j : (0 < (row 0%R w4) 0%R j)%coqR by rewrite mxE; exact: w4_gt0.
have aE i : ipa_a G 0 i = 1%coqR by rewrite /ipa_a /G unit_cov rdiagE eqxx mulr1n rec !mxE.
have bE i : ipa_b G 0 i = 0 by rewrite /ipa_b /G unit_cov rdiagE.
have HE : ipa_H0 (ipa_a G 0) (ipa_C (invmx (G 0)) 0) = diag3 (/ 2) 2 (/ 4).
  rewrite (diag_H0 pG Gn d0) /rdiag /diag3; congr diag_mx; apply/rowP => i; rewrite !mxE aE; congr c.
  by case: (ord3P i) => -> /=; lra.
have vE : ipa_v (ipa_a G 0) (ipa_b G 0) (invmx (ipa_C (invmx (G 0)) 0) *m ipa_d (invmx (G 0)) 0) = 0.
  by rewrite (diag_v Gn d0); apply/matrixP => i j; rewrite mxE bE oppr0 mul0r mxE.
have zE : ipa_z (invmx (G 0)) 0 (ipa_d (invmx (G 0)) 0) (invmx (ipa_C (invmx (G 0)) 0) *m ipa_d (invmx (G 0)) 0) = 1%coqR.
  by rewrite (diag_z Gn d0) !mxE /=; lra.
have sE : re (\tr (diag3 (/ 2) 2 (/ 4))) = (11 / 4)%coqR.
  rewrite /mxtrace (bigD1 0) //= (bigD1 1) //= (bigD1 ord_max) //= big1; last first.
    by move=> i; case: (ord3P i) => ->.
  by rewrite !mxE !eqxx /= !mulr1n addr0 !reD !rec; toR; lra.
have pE : ip_lq (prep_of true 0 (phi, Y)) = (diag3 (2 / 11) (8 / 11) (/ 11), 0, (4 / 11)%coqR).
  rewrite /prep_of /= -/G HE vE zE sE; congr (_, _, _); last lra.
  rewrite -cRV; last lra.
  apply/matrixP => i j; rewrite !mxE; case: (i =P j) => _; last by rewrite !mulr0n mulr0.
  rewrite !mulr1n -cM; congr c; toR.
  by case: (ord3P i) => -> /=; lra.
have sg : sing_floor (max_flooring eps) 0%coqR.
  by apply/RltbP; rewrite /max_flooring; move: (Rmax_r 0 eps); toR; lra.
have [|||u u1 eq] := @lqpqm2_diag3 eig (max_flooring eps) (sing_floor (max_flooring eps)) mi (2 / 11) (8 / 11) (/ 11) (4 / 11) He sg;
  try lra.
set q : 'cV[Cx]_3 := c _ *: (u *: delta_mx 0 0) in eq; have := @stepE eig He 2 4 (max_flooring eps) true mi.+1 0 [:: (phi, Y)] isT.
rewrite -[[seq ip_lq _ | _ <- _]]/[:: ip_lq (prep_of true 0 (phi, Y))] pE eq => -> ; last first.
  by move=> [|//] _ /=; exact: admissible_good.
exists (ipa_V 0 G q *m Y), (ipa_V 0 G q); split=> //.
  by split; [exact: ipa_V_unit|exact: ipa_V_family].
have -> : surrogate phi Y (ipa_V 0 G q) = aux_cost G (ipa_V 0 G q) by rewrite surrogateE cov_cost.
rewrite ipa_cost // HE vE zE unit_cost1 //.
have KE : ipa_K 0 G = 3%coqR.
  rewrite /ipa_K (eq_bigr (fun=> 1)) => [|i _]; last first.
    by rewrite bE cabs0 expr0n /= mul0r subr0 /G unit_cov rdiagE eqxx mulr1n rec !mxE.
  by rewrite sumr_const card_ord !mulrS mulr0n; toR; lra.
have q0 i : q i 0 = c (R_sqrt.sqrt ((8 / 11 - 4 / 11) / (8 / 11))) * (u * (i == 0)%:R) by rewrite !mxE eqxx andbT.
have sq : (R_sqrt.sqrt ((8 / 11 - 4 / 11) / (8 / 11)) ^ 2 = / 2)%coqR by rewrite pow2_sqrt; lra.
have cq : (cabs (q 0%R 0%R) ^ 2 = / 2)%coqR.
  rewrite q0 eqxx mulr1 cabsM u1 mulr1 cabs_c pow2_abs; exact: sq.
have cq' i : i != 0 -> cabs (q i 0) = 0 by move=> /negbTE ni; rewrite q0 ni !mulr0 cabs0.
have ob : lq_obj (diag3 (/ 2) 2 (/ 4)) 0 1 q = (/ 2 - ln (5 / 4))%coqR.
  rewrite /lq_obj /lq_arg addr0 (bigD1 0) //= big1 => [|i i0]; last by rewrite cq' // expr0n.
  rewrite /diag3; set r := \row_j _.
  have -> : diag_mx r = rdiag (map_mx re r) by congr diag_mx; apply/rowP => j; rewrite !mxE rec.
  rewrite form_rdiag rec (bigD1 0) //= big1 => [|i i0]; last by rewrite cq' // expr0n mulr0.
  have -> : map_mx re r 0 0 = (/ 2)%coqR by rewrite [LHS]mxE [r 0 0]mxE rec.
  rewrite -RpowE; toR; rewrite cq; congr (_ - ln _)%coqR; lra.
have S4 : (\sum_k w4 k k)%R = 4%coqR.
  by rewrite (eq_bigr (fun=> 1)) => [|k _]; [rewrite sumr_const card_ord !mulrS mulr0n; toR; lra|rewrite mxE; case: eqP => // ->].
rewrite KE ob S4; have := @ln_le_sub1 (5 / 4) ltac:(lra); lra.
Qed.

(** ** three sources: a converged step that is not the optimal change *)
Lemma diag2_top h0 h1 : (h1 < h0)%coqR -> top_eig (diag2 h0 h1) h0.
Proof.
move=> lt; split.
  exists (delta_mx 0 0); first by apply/eqP => /matrixP/(_ 0 0); rewrite !mxE !eqxx => /eqP; rewrite oner_eq0.
  apply/matrixP => i j; rewrite (ord1 j) mul_diag_mx !mxE !eqxx /=.
  by case: (ord2P i) => ->; rewrite /= ?mulr0.
move=> x; have e1 := form_rdiag (\row_j if j == 0 then h0 else h1) x; have e2 := form1E x.
rewrite /form mulmx1 in e2; rewrite /form -/(diag2 h0 h1) in e1; rewrite e1 e2 !rec !sum2 ![(\row__ _) 0 _]mxE /= -!RpowE.
have := Rmult_le_compat_r _ _ _ (pow2_ge_0 (cabs (x 1%R 0%R))) (Rlt_le _ _ lt); toR; lra.
Qed.
Lemma diag2_generic h0 h1 (v : 'cV[Cx]_2) : (h1 < h0)%coqR -> v 0 0 != 0 -> v 1 0 = 0 -> generic (diag2 h0 h1) v h0.
Proof.
move=> lt v0 v1 x x0 e.
have x1 : x 1 0 = 0.
  have := congr1 (fun M : 'cV_2 => M 1 0) e; rewrite mul_diag_mx !mxE /= => /eqP.
  rewrite -subr_eq0 -mulrBl mulf_eq0 -cB c_eq0 => /orP[/eqP h|/eqP//].
  by move: h; toR; lra.
rewrite mxE sum2 !ctrE v1 mulr0 addr0 mulf_neq0 // conjC_eq0.
by apply: contra x0 => /eqP h; apply/eqP/matrixP => i j; rewrite (ord1 j) mxE; case: (ord2P i) => ->.
Qed.

Definition tab3 (l : seq (seq R)) : 'M[R]_3 := \matrix_(i, j) nth 0%coqR (nth [::] l i) j.
Definition Y3 : 'M[Cx]_3 := map_mx c (tab3 [:: [:: 1; 1; 0]; [:: 1; -1; 0]; [:: 0; 0; 1]])%coqR.
Definition w3 : 'M[R]_3 := tab3 [:: [:: 1; 1; 4]; [:: 3 / 4; / 4; 1]; [:: / 2; / 2; 1]]%coqR.
Lemma w3_gt0 k t : (0 < w3 k t)%coqR.
Proof. by rewrite mxE; case: (ord3P k) => ->; case: (ord3P t) => -> /=; lra. Qed.
Lemma sum3 (U : zmodType) (F : 'I_3 -> U) : \sum_i F i = F 0 + F 1 + F ord_max.
Proof.
rewrite (bigD1 0) //= (bigD1 1) //= (bigD1 ord_max) //= big1 ?addr0 ?addrA // => i.
by case: (ord3P i) => ->.
Qed.
Lemma Y3_admissible : admissible (uphi w3) Y3.
Proof.
split.
  by move=> k t; rewrite mxE; apply: Rmult_lt_0_compat; [exact: nat_gt0|exact: w3_gt0].
pose Z : 'M[Cx]_3 := map_mx c (tab3 [:: [:: / 2; / 2; 0]; [:: / 2; - / 2; 0]; [:: 0; 0; 1]])%coqR.
have e : Y3 *m Z = 1%:M.
  apply/matrixP => i j; rewrite [LHS]mxE [RHS]mxE -c_nat sum3 !mxE -!cM -!cD; congr c.
  by case: (ord3P i) => ->; case: (ord3P j) => ->; rewrite /= ?mulr1n ?mulr0n; toR; lra.
by have [u _] := mulmx1_unit e; rewrite row_free_unit.
Qed.
Lemma cov3E k i j : ipa_cov (uphi w3, Y3) k i j =
  c (\sum_t w3 k t * (tab3 [:: [:: 1; 1; 0]; [:: 1; -1; 0]; [:: 0; 0; 1]] i t * tab3 [:: [:: 1; 1; 0]; [:: 1; -1; 0]; [:: 0; 0; 1]] j t)%coqR).
Proof.
rewrite [LHS]mxE /meanC mulr_sumr c_sum; apply: eq_bigr => t _.
rewrite [uphi w3 k t]mxE [(uphi w3, Y3).2]/= ![Y3 _ t]mxE c_conj -!cM; congr c.
have n0 : (3%:R : R) != 0 by apply/eqP; have := nat_gt0 1; toR; lra.
by move: (tab3 _ i t) (tab3 _ j t) (w3 k t) => y y' x; rewrite -[(y * y')%coqR]/(y * y') !mulrA mulVf // mul1r.
Qed.

(** C74: three sources, no flooring, default trace normalisation: the step for the first
    source converges without warning and is not the optimal change *)
Theorem C74_three_refuted eig mi : eigh_contract eig -> 
  let phi := uphi w3 in let Y := Y3 in
  admissible phi Y /\
  exists Y' V, [/\ ipa_step eig identity_fl true mi.+1 0 [:: (phi, Y)] = Some ([:: Y'], false),
     changes 0 V, Y' = V *m Y & ~ optimal_change 0 phi Y V].
Proof.
move=> He phi Y; have ad : admissible phi Y := Y3_admissible.
have uf : unfloored identity_fl phi Y by left.
split=> //; have [pG hf] := admissible_good ad uf; set G := ipa_cov (phi, Y) in pG hf.
pose d : 'rV[R]_3 := \row_j nth 0%coqR [:: 2; 2; 4]%coqR j.
have d0 j : (0 < d 0%R j)%coqR by rewrite mxE; case: (ord3P j) => -> /=; lra.
have Gn : G 0 = rdiag d.
  apply/matrixP => i j; rewrite /G cov3E rdiagE sum3 !mxE.
  by case: (ord3P i) => ->; case: (ord3P j) => ->; rewrite /= ?mulr1n ?mulr0n -?c0; congr c; toR; lra.
have aE i : ipa_a G 0 i = 1%coqR.
  by rewrite /ipa_a /G cov3E rec sum3 !mxE; case: (ord2P i) => ->; rewrite /=; toR; lra.
have b0 : ipa_b G 0 0 = c (/ 2)%coqR by rewrite /ipa_b /G cov3E sum3 !mxE /=; congr c; toR; lra.
have b1 : ipa_b G 0 1 = 0 by rewrite /ipa_b /G cov3E sum3 !mxE /= -c0; congr c; toR; lra.
have HE : ipa_H0 (ipa_a G 0) (ipa_C (invmx (G 0)) 0) = diag2 (/ 2) (/ 4).
  rewrite (diag_H0 pG Gn d0) /rdiag; congr rdiag; apply/rowP => i; rewrite !mxE aE.
  by case: (ord2P i) => -> /=; lra.
have vE : lin_term phi Y 0 = \col_i (if i == 0 then c (- / 2)%coqR else 0).
  rewrite /lin_term -/G (diag_v Gn d0); apply/matrixP => i j; rewrite ![LHS]mxE [RHS]mxE aE R_sqrt.sqrt_1 cR1 divr1.
  by case: (ord2P i) => ->; rewrite ?b0 ?b1 /= ?cRN // oppr0.
have zE : ipa_z (invmx (G 0)) 0 (ipa_d (invmx (G 0)) 0) (invmx (ipa_C (invmx (G 0)) 0) *m ipa_d (invmx (G 0)) 0) = (/ 2)%coqR.
  by rewrite (diag_z Gn d0) !mxE.
have sE : re (\tr (diag2 (/ 2) (/ 4))) = (3 / 4)%coqR.
  by rewrite /mxtrace sum2 !rdiagE !eqxx !mulr1n reD !rec !mxE /=; toR; lra.
have pE : ip_lq (prep_of true 0 (phi, Y)) = (diag2 (2 / 3) (/ 3), lin_term phi Y 0, (2 / 3)%coqR).
  rewrite /prep_of /= -/G HE zE sE; congr (_, _, _); last lra.
  rewrite -cRV; last lra.
  apply/matrixP => i j; rewrite [LHS]mxE !rdiagE; case: (i =P j) => _; last by rewrite !mulr0n mulr0.
  rewrite !mulr1n -cM; congr c; rewrite !mxE; toR.
  by case: (ord2P i) => -> /=; lra.
have v0 : lin_term phi Y 0 0 0 != 0 by rewrite vE mxE eqxx; apply: c_neq0; lra.
have v1 : lin_term phi Y 0 1 0 = 0 by rewrite vE mxE.
have [ys e] : exists ys, lqpqm2 eig identity_fl (sing_floor identity_fl) mi.+1 [:: (diag2 (2 / 3) (/ 3), lin_term phi Y 0, (2 / 3)%coqR)] = Some (ys, false).
  apply: lqpqm2_starts => -[|//] _ /=; apply: starts_two => //; try lra.
  apply/RltbP; rewrite /vnorm; have := R_sqrt.sqrt_pos (\sum_i cabs (lin_term phi Y 0 i 0) ^+ 2).
  by move: (R_sqrt.sqrt _) => y; rewrite /identity_fl; toR; lra.
have [sq _] := lqpqm2_nth e; case: ys sq e => [//|q [|//]] _ e.
have es : ipa_step eig identity_fl true mi.+1 0 [:: (phi, Y)] = Some ([:: ipa_V 0 G q *m Y], false).
  have := @stepE eig He 1 3 identity_fl true mi.+1 0 [:: (phi, Y)] isT.
  rewrite -[[seq ip_lq _ | _ <- _]]/[:: ip_lq (prep_of true 0 (phi, Y))] pE e => -> //.
  by move=> [|//] _ /=; exact: admissible_good.
exists (ipa_V 0 G q *m Y), (ipa_V 0 G q); split=> //.
  by split; [exact: ipa_V_unit|exact: ipa_V_family].
have lt : (/ 4 < / 2)%coqR by lra.
apply: (@C74_never eig 0 3 mi.+1 0 [:: (phi, Y)] _ 0%N phi Y (/ 2)%coqR _ He es) => //.
  by rewrite /quad_term -/G HE; exact: diag2_top.
by rewrite /quad_term -/G HE; apply: diag2_generic.
Qed.

(** ** two sources: the hypotheses of [C74_two_call] are met *)
Lemma ln_eq_sub1 x : (0 < x)%coqR -> (x - 1 <= ln x)%coqR -> x = 1%coqR.
Proof.
move=> x0 h; have [//|n1] := classic (x = 1%coqR).
have l0 : ln x <> 0%coqR by move=> e; apply: n1; apply: ln_inv; rewrite ?ln_1 //; lra.
have := exp_ineq1 _ l0; rewrite exp_ln //; lra.
Qed.
Lemma c_sq (x : Cx) : c (cabs x ^ 2)%coqR = x * x^*.
Proof. by rewrite RpowE cabs_sqr. Qed.
Lemma lagrange (a b q : Cx) : ((cabs a ^ 2 + cabs b ^ 2) * (1 + cabs q ^ 2) =
  cabs (a - b * q)%R ^ 2 + cabs (a * q^* + b)%R ^ 2)%coqR.
Proof.
apply: c_inj; rewrite -[LHS]/(c (((cabs a ^ 2)%coqR + (cabs b ^ 2)%coqR) * (1 + (cabs q ^ 2)%coqR))%R).
rewrite -[RHS]/(c ((cabs (a - b * q)%R ^ 2)%coqR + (cabs (a * q^* + b)%R ^ 2)%coqR)%R).
rewrite !cM !cD c1 !c_sq rmorphB !rmorphD !rmorphM /= -!/(_^*) conjCK.
move: (a^*) (b^*) (q^*) => a' b' q'; ring.
Qed.
Lemma cabs_sq0 (x : Cx) : (cabs x ^ 2 = 0)%coqR -> x = 0.
Proof. by move=> e; apply/eqP; rewrite -cabs_eq0; apply/eqP; apply: Rsqr_eq_0; rewrite Rsqr_pow2. Qed.

Definition w2 : 'M[R]_2 := const_mx 1%coqR.
Lemma w2_gt0 k t : (0 < w2 k t)%coqR. Proof. by rewrite mxE; exact: Rlt_0_1. Qed.
Lemma w2_opt V : optimal_change 0 (uphi w2) 1%:M V -> exists2 a, cabs a = 1 & V = diag_mx (\row_j if j == 0 then a else 1).
Proof.
move=> [[uV cV] opt]; have := opt _ (changes1 0); rewrite unit_cost1 sum2 ![w2 _ _]mxE.
have V11 : V 1 1 = 1 by rewrite cV.
set a := V 0 0; set b := V 0 1; set q := V 1 0.
have dE : \det V = a - b * q by rewrite det2 V11 mulr1.
have sE : (surrogate (uphi w2) 1%:M V = cabs a ^ 2 + cabs b ^ 2 + (cabs q ^ 2 + 1) - 2 * ln (cabs (a - b * q)%R))%coqR.
  rewrite /surrogate dE mulmx1; congr (_ - _)%coqR.
  have h k t : (2%:R)^-1 * (uphi w2 k t * cabs (V k t) ^+ 2) = cabs (V k t) ^+ 2.
    rewrite !mxE -[1%coqR]/(1 : R) mulr1 mulrA mulVf ?mul1r //.
    by rewrite pnatr_eq0.
  rewrite !sum2 !mulrDr !h V11 cabs1 -!RpowE -/a -/b -/q; toR; lra.
rewrite sE; have D0 : (0 < cabs (a - b * q)%R)%coqR by rewrite -dE; apply: cabs_gt0; rewrite -unitfE -unitmxE.
have := lagrange a b q.
set D := cabs (a - b * q)%R in D0 *; set s := (cabs a ^ 2 + cabs b ^ 2)%coqR.
have q0 := pow2_ge_0 (cabs q); have e0 := pow2_ge_0 (cabs (a * q^* + b)%R).
move=> lg le; have D2 : (0 < D ^ 2)%coqR by apply: pow_lt.
have s0 : (0 < s)%coqR.
  have [//|ns] := Rlt_or_le 0 s.
  have : (s * (1 + cabs q ^ 2) <= 0 * (1 + cabs q ^ 2))%coqR by apply: Rmult_le_compat_r; lra.
  by rewrite lg; lra.
have lnD : (2 * ln D = ln (D ^ 2))%coqR by rewrite /= ln_mult ?Rmult_1_r //; lra.
have lnsr : (ln (D ^ 2) <= ln s + ln (1 + cabs q ^ 2))%coqR.
  by rewrite -ln_mult //; [case: (Rle_lt_or_eq_dec (D ^ 2) (s * (1 + cabs q ^ 2))) => [|lt|->]; [|left; apply: ln_increasing|exact: Rle_refl]|]; lra.
have l1 := @ln_le_sub1 s s0; have l2 := @ln_le_sub1 (1 + cabs q ^ 2) ltac:(lra).
rewrite lnD in le; toR.
have le' : (s + (cabs q ^ 2 + 1) - ln (D ^ 2) <= 2)%coqR by move: le; toR; rewrite /s; lra.
have s1 : s = 1%coqR by apply: ln_eq_sub1; lra.
have qz : q = 0.
  by apply: cabs_sq0; have := @ln_eq_sub1 (1 + cabs q ^ 2) ltac:(lra) ltac:(lra); lra.
have De : D = cabs a by rewrite /D qz mulr0 subr0.
have a1 : (cabs a ^ 2 = 1)%coqR.
  rewrite -De; apply: ln_eq_sub1 => //; move: le' lg; rewrite s1 qz cabs0; toR => le' lg.
  by have : (cabs b ^ 2 = 1 - D ^ 2)%coqR; [move: s1; rewrite /s -De; lra|have := pow2_ge_0 (cabs b); lra].
have bz : b = 0 by apply: cabs_sq0; move: s1; rewrite /s a1; lra.
exists a.
  by apply: Rsqr_inj; [exact: cabs_ge0|exact: Rle_0_1|rewrite Rsqr_pow2 a1 /Rsqr; toR; lra].
apply/matrixP => i j; rewrite !mxE.
by case: (ord2P i) => ->; case: (ord2P j) => ->; rewrite /= ?mulr1n ?mulr0n.
Qed.
Example C74_instance eps : (0 < eps <= 1)%coqR -> steady (max_flooring eps) (uphi w2) (1%:M : 'M[Cx]_2).
Proof.
move=> he; have ev k t : (eps <= w2 k t)%coqR /\ (eps ^ 2 * w2 k t <= 1)%coqR.
  rewrite mxE; split; first lra.
  by have := Rmult_le_compat eps 1 eps 1 (Rlt_le _ _ he.1) (Rlt_le _ _ he.1) he.2 he.2; lra.
have g0 (Y : 'M[Cx]_2) n : wcov (uphi w2) Y (other n) n (other n) = 0 -> wcov (uphi w2) Y n n (other n) = 0 ->
    resolved (max_flooring eps) (gap (uphi w2) Y n).
  move=> e1 e2; have gz : gap (uphi w2) Y n = 0%coqR by rewrite /gap e1 e2 !mul0r subr0 cabs0; toR; lra.
  rewrite gz; split=> [e|e _]; last by left.
  by have := congr1 (fun f => f 0%coqR) e; rewrite /max_flooring /identity_fl Rmax_right; lra.
split; [exact: (unit_admissible w2_gt0)|exact: unit_unfloored|by apply: g0; rewrite wcovE unit_cov rdiagE|].
move=> V /w2_opt [a a1 ->]; rewrite mulmx1.
have wE k : wcov (uphi w2) (diag_mx (\row_j (if j == 0 then a else 1)) : 'M[Cx]_2) k = wcov (uphi w2) 1%:M k.
  rewrite !wcovE !cov_E /= -!/(uphi w2) mul1mx ctr1 mulmx1.
  have aa : a * a^* = 1 by rewrite -cabs_sqr a1 expr1n c1.
  apply/matrixP => i j; rewrite mxE sum2 !mul_mx_diag !mxE.
  case: (ord2P i) => ->; case: (ord2P j) => ->; rewrite /= ?mulr1n ?mulr0n ?conjC0 ?conjC1 ?mul0r ?mulr0 ?addr0 ?add0r ?mulr1 ?mul1r //.
  by rewrite mulrAC aa mul1r.
split; last by apply: g0; rewrite wE wcovE unit_cov rdiagE.
have [e|[e' he' [fe h]]] := unit_unfloored (w := w2) he ev.
  by left.
by right; exists e' => //; split=> // k x; rewrite wE.
Qed.
Example C74_instance_call eig eps mi : eigh_contract eig -> (0 < eps <= 1)%coqR ->
  exists Ys', update_by_ipa eig (max_flooring eps) true mi.+1 [:: uphi w2] [:: 1%:M : 'M[Cx]_2] = Some (Ys', false).
Proof.
move=> He he; have [|//||Ys' [e _]] := @C74_two_call eig He 2 (max_flooring eps) mi [:: uphi w2] [:: 1%:M] _ _ _; last by exists Ys'.
- by [].
- by move=> [|//] _; exact: C74_instance.
Qed.

Print Assumptions C74_reduction.
Print Assumptions C74_two_sources.
Print Assumptions C74_two_defined.
Print Assumptions C74_two_call.
Print Assumptions C74_never.
Print Assumptions C74_refuted.
Print Assumptions C74_three_refuted.
