(** Properties C37-C38: proximal operators. *)
From Coq Require Import Reals Lra.
From mathcomp Require Import all_ssreflect all_algebra.
From mathcomp Require Import ring.
From Verif Require Import RStruct MxC CxR NpLin RealLemmas Eigh EighProofs Prox ProxProofs.
Import Order.TTheory GRing.Theory Num.Theory.
Set Implicit Arguments.
Unset Strict Implicit.
Unset Printing Implicit Defensive.
Local Open Scope ring_scope.

(** ** C37.  The optimality statements contain uniqueness: the objective grows at
    least quadratically away from the returned point. *)
Definition group_cost n (mu : R) (x z : 'rV[Cx]_n) : R :=
  (mu * R_sqrt.sqrt (\sum_t cabs (z 0%R t) ^+ 2)%R + (\sum_t cabs (z 0%R t - x 0%R t) ^+ 2)%R / 2)%coqR.
Theorem C37_l21 n (x : 'rV[Cx]_n) mu : (0 < mu)%coqR -> exists p, prox_l21 x mu = Some p /\
  forall z : 'rV[Cx]_n, (group_cost mu x p + (\sum_t cabs (z 0%R t - p 0%R t) ^+ 2)%R / 2 <= group_cost mu x z)%coqR.
Proof.
move=> m0; have [s [e _ _ h]] := shrink_opt x m0; exists (c s *: x); rewrite /prox_l21 e; split=> // z.
have sB (a b : 'rV[Cx]_n) : \sum_t cabs (a 0 t - b 0 t) ^+ 2 = sq (a - b).
  by apply: eq_bigr => t _; rewrite !mxE.
rewrite /group_cost !sB; exact: h.
Qed.
Theorem C37_l21_zero n (x p : 'rV[Cx]_n) mu : (0 < mu)%coqR -> prox_l21 x mu = Some p ->
  p = 0 <-> (R_sqrt.sqrt (\sum_t cabs (x 0%R t) ^+ 2)%R <= mu)%coqR.
Proof.
move=> m0; have [s [e s0 hz _]] := shrink_opt x m0; rewrite /prox_l21 e => -[<-]; rewrite -/(norm2 x) -hz.
split=> [/eqP|->]; last by rewrite c0 scale0r.
rewrite scaler_eq0 c_eq0 => /orP[/eqP //|/eqP x0]; apply/hz; rewrite x0.
by rewrite /norm2 big1 ?sqrt_0 => [|t _]; [apply: Rlt_le|rewrite mxE cabs0 expr0n].
Qed.
Definition l1_cost (mu : R) (x z : Cx) : R := (mu * cabs z + cabs (z - x)%R ^ 2 / 2)%coqR.
Lemma norm2_1 (z : Cx) : norm2 (const_mx z : 'rV[Cx]_1) = cabs z.
Proof. by rewrite /norm2 big_ord1 mxE -RpowE sqrt_pow2 //; apply: cabs_ge0. Qed.
Theorem C37_l1 x mu : (0 < mu)%coqR -> exists p, prox_l1 x mu = Some p /\
  forall z, (l1_cost mu x p + cabs (z - p)%R ^ 2 / 2 <= l1_cost mu x z)%coqR.
Proof.
move=> m0; have [s [e _ _ h]] := shrink_opt (const_mx x : 'rV[Cx]_1) m0.
exists (c s * x); rewrite /prox_l1 -(norm2_1 x) e; split=> // z.
have k (a b : Cx) : sq (const_mx a - const_mx b : 'rV[Cx]_1) = (cabs (a - b)%R ^ 2)%coqR.
  by rewrite /sq big_ord1 !mxE RpowE.
have := h (const_mx z); have -> : c s *: (const_mx x : 'rV[Cx]_1) = const_mx (c s * x).
  by apply/rowP => i; rewrite !mxE.
by rewrite /obj !k !norm2_1.
Qed.
Theorem C37_l1_zero x p mu : (0 < mu)%coqR -> prox_l1 x mu = Some p -> p = 0 <-> (cabs x <= mu)%coqR.
Proof.
move=> m0; have [s [e s0 hz _]] := shrink_opt (const_mx x : 'rV[Cx]_1) m0.
rewrite /prox_l1 -(norm2_1 x) e => -[<-]; rewrite -hz; split=> [/eqP|->]; last by rewrite c0 mul0r.
rewrite mulf_eq0 c_eq0 => /orP[/eqP //|/eqP x0]; apply/hz; rewrite x0 norm2_1 cabs0.
exact: Rlt_le.
Qed.
(** with a zero step the operator is the identity, except that 0 becomes 0/0 *)
Theorem C37_zero_step x : prox_l1 x 0 = (if x == 0 then None else Some x).
Proof.
rewrite /prox_l1 /shrink; case: RltbP => [h|_]; first by have := cabs_ge0 x; lra.
rewrite cabs_eq0; case: eqP => //= /eqP /cabs_gt0 h; congr Some.
rewrite Rmax_left; last by (have -> : (0 / cabs x = 0)%coqR by Rfield; lra); lra.
have -> : (1 - 0 / cabs x = 1)%coqR by Rfield; lra.
by rewrite c1 mul1r.
Qed.
Example C37_instance : exists x : 'rV[Cx]_2, ((0 < 1)%coqR /\ ~ (norm2 x <= 1)%coqR).
Proof.
exists (const_mx 1); split; first lra.
rewrite /norm2 sum2 !mxE cabs1 expr1n => h.
have := sqrt_lt_1 1 2 ltac:(lra) ltac:(lra) ltac:(lra); rewrite sqrt_1.
have e : (1 + 1 : R) = 2%coqR by [].
by rewrite e in h; lra.
Qed.

(** ** C38 *)
Definition log_cost (mu x z : R) : R := (- mu * ln z + (z - x) ^ 2 / 2)%coqR.
Theorem C38_neg_log x mu : (0 <= x -> 0 < mu -> exists p, prox_neg_log x mu = Some p /\ 0 < p /\
  forall z, 0 < z -> log_cost mu x p + (z - p) ^ 2 / 2 <= log_cost mu x z)%coqR.
Proof.
move=> x0 m0; have [d [e d0 ed]] := neg_log_spec x0 m0; exists d; split=> //; split=> // z z0.
rewrite /log_cost.
have zd : (0 < z / d)%coqR by apply: Rdiv_lt_0_compat.
have := ln_le_sub1 _ zd; rewrite /Rdiv ln_mult //; last exact: Rinv_0_lt_compat.
rewrite ln_Rinv // => h.
have := Rmult_le_compat_l _ _ _ (Rlt_le _ _ m0) h.
have -> : (mu * (z * / d - 1) = (d - x) * (z - d))%coqR by rewrite -ed; Rfield; lra.
by nra.
Qed.
Theorem C38_neg_log_rejects x mu : (x < 0)%coqR -> prox_neg_log x mu = None.
Proof. by move=> h; rewrite /prox_neg_log; case: RlebP => //; lra. Qed.

Definition logdet_cost n (mu : R) (X Z : 'M[Cx]_n) : R :=
  (- mu * ln (cabs (\det Z)) + (\sum_i \sum_j cabs (Z i j - X i j) ^+ 2)%R / 2)%coqR.
Section LogDet.
Variables (svd : svd_t) (n : nat) (X : 'M[Cx]_n) (mu : R).
Hypotheses (m0 : (0 < mu)%coqR) (hs : svd_spec X (svd X)).
Lemma logdet_run : exists d : 'rV[R]_n,
  [/\ prox_neg_logdet svd X mu = Some ((svd X).1.1 *m rdiag d *m (svd X).2),
      forall i, prox_neg_log ((svd X).1.2 0 i) mu = Some (d 0 i),
      forall i, (0 < d 0%R i)%coqR &
      forall i, (d 0%R i * d 0%R i - (svd X).1.2 0%R i * d 0%R i = mu)%coqR].
Proof.
rewrite /prox_neg_logdet; move: hs; case: (svd X) => [[U s] V] [/= _ _ s0 _].
have P i := neg_log_spec (s0 i) m0.
have e i : prox_neg_log (s 0 i) mu = Some (odflt 0 (prox_neg_log (s 0 i) mu)).
  by have [d [-> _ _]] := P i.
have -> : [forall i, prox_neg_log (s 0 i) mu != None].
  by apply/forallP => i; rewrite e.
eexists; split; first by reflexivity.
- by move=> i; rewrite mxE e.
- by move=> i; rewrite mxE; have [d [-> d0 _]] := P i.
- by move=> i; rewrite mxE; have [d [-> _ ed]] := P i.
Qed.
Theorem C38_neg_logdet : exists Z, prox_neg_logdet svd X mu = Some Z /\
  [/\ Z \in unitmx, Z - c mu *: invmx Z^H = X &
      forall Y : 'M[Cx]_n, Y \in unitmx -> (logdet_cost mu X Z <= logdet_cost mu X Y)%coqR].
Proof.
have [d [e _ d0 ed]] := logdet_run; eexists; split; first exact: e.
move: hs ed; clear e hs; case: (svd X) => [[U s] V] [/= uU uV s0 eX] ed.
have uD : rdiag d \in unitmx by apply: pd_unit; apply: pd_rdiag.
have UU : U \in unitmx by case/mulmx1_unit: uU.
have VV : V \in unitmx by case/mulmx1_unit: uV.
have VV1 := mulmx1C uV; have UU1 := mulmx1C uU.
have uZ : U *m rdiag d *m V \in unitmx by rewrite !unitmx_mul UU uD VV.
pose dV : 'rV[R]_n := map_mx (fun x => / x)%coqR d.
have dVE : rdiag d *m rdiag dV = 1%:M.
  rewrite rdiagM -rdiag1; congr rdiag; apply/rowP => i; rewrite !mxE -[_ * _]/(_ * _)%coqR.
  by apply: Rinv_r; have := d0 i; lra.
split=> //.
- have -> : invmx (U *m rdiag d *m V)^H = U *m rdiag dV *m V.
    apply: (can_inj (mulKmx (_ : (U *m rdiag d *m V)^H \in unitmx))); first by rewrite ctr_unit.
    rewrite mulmxV ?ctr_unit // !ctrM rdiag_ctr !mulmxA -(mulmxA _ U^H) uU mulmx1.
    by rewrite -(mulmxA V^H) dVE mulmx1 VV1.
  rewrite eX scalemxAl scalemxAr -!mulmxBl -mulmxBr; congr (_ *m _ *m _).
  apply/matrixP => i j; rewrite !mxE; case: (i == j); rewrite ?mulr0n ?mulr0 ?subr0 // !mulr1n.
  rewrite -cRM -cRB; congr c; have := d0 i; rewrite -(ed i) => h; Rfield; lra.
- move=> Y uY; pose A := U^H *m Y *m V^H.
  have eY : Y = U *m A *m V by rewrite /A !mulmxA UU1 mul1mx -mulmxA VV1 mulmx1.
  have uA : A \in unitmx by move: uY; rewrite eY !unitmx_mul => /andP[/andP[_ ->]].
  have cost M : logdet_cost mu X (U *m M *m V) =
      (- mu * ln (cabs (\det M)) + fro2 (M - rdiag s) / 2)%coqR.
    rewrite /logdet_cost !det_mulmx !cabsM (cabs_det_unitary uU) -(cabs_conj (\det V)) -det_ctr.
    rewrite cabs_det_unitary ?ctrK // mul1r mulr1.
    have <- : fro2 (U *m M *m V - X) = fro2 (M - rdiag s).
      by rewrite eX -mulmxBl -mulmxBr fro2_unitary.
    by congr (_ + _ / _)%coqR; apply: eq_bigr => i _; apply: eq_bigr => j _; rewrite !mxE.
  by rewrite eY !cost; apply: diag_opt.
Qed.
Theorem C38_singular_vectors : exists U s V d Z, [/\ svd X = (U, s, V), X = U *m rdiag s *m V,
  prox_neg_logdet svd X mu = Some Z, Z = U *m rdiag d *m V &
  forall i, (d 0%R i = (s 0%R i + R_sqrt.sqrt (s 0%R i ^ 2 + 4 * mu)) / 2)%coqR].
Proof.
have [d [e h d0 ed]] := logdet_run; move: hs e h; case: (svd X) => [[U s] V] [/= uU uV s0 eX] e h.
exists U, s, V, d, (U *m rdiag d *m V); split=> // i; have := h i; rewrite /prox_neg_log.
by case: RlebP => // _; case: RlebP => // _ [].
Qed.
End LogDet.

(** SVD exists for every invertible matrix (polar decomposition) *)
Lemma svd_exists n (X : 'M[Cx]_n) : X \in unitmx -> exists r, svd_spec X r.
Proof.
move=> uX; have p : pd (X^H *m X) by have := pd_congr_unit (@pd1 Cx n) uX; rewrite mulmx1.
have [[l P] sp] := eigh_exists (proj1 p); have l0 i : (0 < l 0%R i)%coqR := eigh_val_gt0 i p sp.
have [/= uP eP _] := sp; have PP := mulmx1C uP.
pose s : 'rV[R]_n := map_mx R_sqrt.sqrt l; pose sV : 'rV[R]_n := map_mx (fun x => / R_sqrt.sqrt x)%coqR l.
have sq0 i : (0 < R_sqrt.sqrt (l 0%R i))%coqR by apply: sqrt_lt_R0.
have sVs : rdiag sV *m rdiag s = 1%:M.
  rewrite rdiagM -rdiag1; congr rdiag; apply/rowP => i; rewrite !mxE -[_ * _]/(_ * _)%coqR.
  by apply: Rinv_l; have := sq0 i; lra.
exists (X *m P *m rdiag sV, s, P^H); split=> /=.
- transitivity (rdiag sV *m (P^H *m ((X^H *m X) *m P)) *m rdiag sV).
    by rewrite !ctrM rdiag_ctr !mulmxA.
  rewrite eP (mulmxA P^H) uP mul1mx !rdiagM -rdiag1; congr rdiag.
  apply/rowP => i; rewrite !mxE; toR.
  have := sq0 i; have := sqrt_sqrt _ (Rlt_le _ _ (l0 i)); move: (R_sqrt.sqrt _) => r <- r0; Rfield; lra.
- by rewrite ctrK.
- by move=> i; rewrite mxE; apply: Rlt_le.
- by rewrite -!mulmxA (mulmxA (rdiag sV)) sVs mul1mx PP mulmx1.
Qed.
Example C38_instance : exists svd : svd_t, exists X : 'M[Cx]_2,
  X 0 1 != 0 /\ svd_spec X (svd 2%N X).
Proof.
pose X : 'M[Cx]_2 := \matrix_(i, j) (if i == j then 1 else 2%:R).
have uX : X \in unitmx.
  by rewrite unitmxE det2 !mxE /= unitfE subr_eq0 mulr1 -natrM eq_sym (eqr_nat _ 4 1).
have [r h] := svd_exists uX.
exists (fun n => match n with 2 => fun _ => r | m => fun _ => (0, 0, 0) end), X; split=> //.
by rewrite mxE pnatr_eq0.
Qed.

Print Assumptions C37_l21.
Print Assumptions C38_neg_logdet.
