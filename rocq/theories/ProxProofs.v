(** Facts about the proximal operators. *)
From Coq Require Import Reals Lra.
From mathcomp Require Import all_ssreflect all_algebra.
From mathcomp Require Import ring.
From Verif Require Import RStruct MxC CxR NpLin RealLemmas Eigh EighProofs Prox.
Import Order.TTheory GRing.Theory Num.Theory.
Set Implicit Arguments.
Unset Strict Implicit.
Unset Printing Implicit Defensive.
Local Open Scope ring_scope.

Section Vec.
Variable n : nat.
Implicit Types x y z : 'rV[Cx]_n.
Definition sq x : R := \sum_t cabs (x 0 t) ^+ 2.
Definition ip x y : R := \sum_t re (x 0 t * (y 0 t)^*).
Lemma cabs_sqB (a b : Cx) : cabs (a - b) ^+ 2 = cabs a ^+ 2 - 2%:R * re (a * b^*) + cabs b ^+ 2.
Proof.
rewrite -!re_zzc rmorphB /= mulrBl !mulrBr !reB.
have -> : re (b * a^*) = re (a * b^*) by rewrite -re_conj rmorphM /= conjCK mulrC.
ring.
Qed.
Lemma sqB x y : sq (x - y) = sq x - 2%:R * ip x y + sq y.
Proof.
rewrite /sq /ip mulr_sumr -sumrB -big_split; apply: eq_bigr => t _ /=.
by rewrite !mxE cabs_sqB.
Qed.
Lemma sq_ge0 x : (0 <= sq x)%coqR.
Proof. by apply: sumR_ge0 => t _; rewrite -RpowE; apply: pow_le; apply: cabs_ge0. Qed.
Lemma sqZ (a : R) x : sq (c a *: x) = a ^+ 2 * sq x.
Proof.
rewrite /sq mulr_sumr; apply: eq_bigr => t _; rewrite mxE cabsM exprMn cabs_c; congr (_ * _).
by rewrite -!RpowE pow2_abs.
Qed.
Lemma ipZr (a : R) x y : ip x (c a *: y) = a * ip x y.
Proof.
rewrite /ip mulr_sumr; apply: eq_bigr => t _; by rewrite mxE rmorphM /= c_conj mulrCA reMc.
Qed.
Lemma ipZl (a : R) x y : ip (c a *: x) y = a * ip x y.
Proof. by rewrite /ip mulr_sumr; apply: eq_bigr => t _; rewrite mxE -mulrA reMc. Qed.
Lemma ip_xx x : ip x x = sq x.
Proof. by apply: eq_bigr => t _; rewrite re_zzc. Qed.
Lemma norm2_sq x : (norm2 x * norm2 x)%coqR = sq x.
Proof. exact: sqrt_sqrt (sq_ge0 x). Qed.
Lemma norm2_ge0 x : (0 <= norm2 x)%coqR. Proof. exact: sqrt_pos. Qed.
Lemma norm2_eq0 x : norm2 x = 0 -> x = 0.
Proof.
move=> e; have := norm2_sq x; rewrite e Rmult_0_l => /esym/eqP.
rewrite /sq psumr_eq0 => [|t _]; last by rewrite exprn_ge0 //; apply/RleP/cabs_ge0.
move/allP => h; apply/rowP => t; rewrite mxE; apply/eqP.
by have := h t (mem_index_enum _); rewrite expf_eq0 /= cabs_eq0.
Qed.
Lemma cs x y : (ip x y <= norm2 x * norm2 y)%coqR.
Proof.
have hx := norm2_sq x; have hy := norm2_sq y; have px := norm2_ge0 x; have py := norm2_ge0 y.
case: (Req_dec (norm2 x) 0) => [/norm2_eq0 x0|x0].
  have -> : ip x y = 0 by rewrite x0 /ip big1 // => t _; rewrite mxE mul0r re0.
  exact: Rmult_le_pos.
case: (Req_dec (norm2 y) 0) => [/norm2_eq0 y0|y0].
  have -> : ip x y = 0 by rewrite y0 /ip big1 // => t _; rewrite mxE conjC0 mulr0 re0.
  exact: Rmult_le_pos.
have := sq_ge0 (c (norm2 y) *: x - c (norm2 x) *: y).
rewrite sqB !sqZ ipZl ipZr -hx -hy -!RpowE; toR.
have -> : (2%:R : R) = 2%coqR by [].
move: (norm2 x) (norm2 y) (ip x y) px py x0 y0 {hx hy} => a b i a0 b0 a1 b1 h.
have ab : (0 < a * b)%coqR by apply: Rmult_lt_0_compat; lra.
apply: (Rmult_le_reg_l (2 * (a * b))%coqR); nra.
Qed.
Lemma norm2Z (a : R) x : (0 <= a)%coqR -> norm2 (c a *: x) = (a * norm2 x)%coqR.
Proof.
move=> a0; rewrite /norm2 -/(sq _) sqZ -RpowE -[_ * sq x]/(a ^ 2 * sq x)%coqR sqrt_mult.
- by rewrite sqrt_pow2.
- exact: pow2_ge_0.
- exact: sq_ge0.
Qed.

(** objective of the proximal operator of mu * norm2 *)
Definition obj (mu : R) x z : R := (mu * norm2 z + sq (z - x) / 2)%coqR.

Lemma shrink_opt mu x : (0 < mu)%coqR -> exists s, [/\ shrink (norm2 x) mu = Some s,
  (0 <= s)%coqR, (s = 0 <-> norm2 x <= mu)%coqR &
  forall z, (obj mu x (c s *: x) + sq (z - c s *: x) / 2 <= obj mu x z)%coqR].
Proof.
move=> m0; have px := norm2_ge0 x; rewrite /shrink.
case: RltbP => h.
  case: eqP => [e|_]; first by move: m0; rewrite e => /Rlt_irrefl.
  exists (Rmax (1 - mu / mu) 0)%coqR.
  have -> : (1 - mu / mu = 0)%coqR by Rfield; lra.
  rewrite Rmax_left; last exact: Rle_refl.
  split=> //; first exact: Rle_refl.
    by split=> // _; apply: Rlt_le.
  move=> z; rewrite c0 scale0r /obj subr0 !sqB.
  have -> : norm2 (0 : 'rV[Cx]_n) = 0 by rewrite /norm2 big1 ?sqrt_0 // => t _; rewrite mxE cabs0 expr0n.
  have -> : ip 0 x = 0 by rewrite /ip big1 // => t _; rewrite mxE mul0r re0.
  have -> : sq 0 = 0 by rewrite /sq big1 // => t _; rewrite mxE cabs0 expr0n.
  have := cs z x; have := norm2_ge0 z; toR; have -> : (2%:R : R) = 2%coqR by [].
  move: (norm2 z) (ip z x) (sq z) (sq x) (norm2 x) h => a i q q' b h a0 hi.
  have : (a * b <= a * mu)%coqR by apply: Rmult_le_compat_l; lra.
  lra.
case: eqP => [e|_]; first by move: h; rewrite e => /(_ m0).
have b0 : (0 < norm2 x)%coqR by lra.
exists (Rmax (1 - mu / norm2 x) 0)%coqR.
have e1 : (mu / norm2 x * norm2 x = mu)%coqR by Rfield; lra.
have le1 : (mu / norm2 x <= 1)%coqR by apply: (Rmult_le_reg_r (norm2 x)) => //; lra.
have g0 : (0 <= mu / norm2 x)%coqR by apply: Rlt_le; apply: Rdiv_lt_0_compat; lra.
rewrite Rmax_left; last by lra.
split=> //; first by lra.
  split=> [s0|le]; first by (have : (mu / norm2 x = 1)%coqR by lra); move=> e; rewrite e in e1; lra.
  have -> : mu = norm2 x by lra. 
  Rfield; lra.
move=> z; set q := (mu / norm2 x)%coqR in e1 le1 g0 *.
have s0 : (0 <= 1 - q)%coqR by lra.
rewrite /obj norm2Z // !sqB ipZr !sqZ ipZl ip_xx -(norm2_sq x) -RpowE; toR.
have -> : (2%:R : R) = 2%coqR by [].
have := cs z x; move: (norm2 z) (ip z x) (sq z) => a i p.
move: (norm2 x) q e1 g0 {px h b0 le1 s0} => b q e g0 hi.
have := Rmult_le_compat_l _ _ _ g0 hi; rewrite -{2}e.
have -> : (q * (a * b) = q * b * a)%coqR by Rring.
rewrite e => h; nra.
Qed.
End Vec.

(** ** negative logarithm *)
Lemma neg_log_spec x mu : (0 <= x)%coqR -> (0 < mu)%coqR -> exists d,
  [/\ prox_neg_log x mu = Some d, (0 < d)%coqR & (d * d - x * d = mu)%coqR].
Proof.
move=> x0 m0; rewrite /prox_neg_log; have := pow2_ge_0 x => xx.
case: RlebP => // _; case: RlebP => [_|]; last by lra.
eexists; split; first by [].
  have : (0 < R_sqrt.sqrt (x ^ 2 + 4 * mu))%coqR by apply: sqrt_lt_R0; lra.
  by lra.
have := sqrt_sqrt (x ^ 2 + 4 * mu) ltac:(lra).
move: (R_sqrt.sqrt _) => s; nra.
Qed.
Lemma ln_prod I (r : seq I) (F : I -> R) : (forall i, (0 < F i)%coqR) ->
  ln (\prod_(i <- r) F i) = \sum_(i <- r) ln (F i) /\ (0 < \prod_(i <- r) F i)%coqR.
Proof.
move=> h; elim: r => [|i r [IH IH0]]; first by rewrite !big_nil ln_1; split=> //; exact: Rlt_0_1.
rewrite !big_cons; split; last exact: Rmult_lt_0_compat.
by rewrite -[_ * _]/(_ * _)%coqR ln_mult // IH.
Qed.

Definition fro2 m n (M : 'M[Cx]_(m, n)) : R := \sum_i \sum_j cabs (M i j) ^+ 2.
Lemma fro2E m n (M : 'M[Cx]_(m, n)) : c (fro2 M) = \tr (M^H *m M).
Proof.
rewrite /mxtrace /fro2 c_sum; under eq_bigr do rewrite c_sum.
rewrite exchange_big /=; apply: eq_bigr => j _; rewrite mxE; apply: eq_bigr => i _.
by rewrite ctrE cabs_sqr mulrC.
Qed.
Lemma fro2_unitary n (U V M : 'M[Cx]_n) : U^H *m U = 1%:M -> V *m V^H = 1%:M ->
  fro2 (U *m M *m V) = fro2 M.
Proof.
move=> u v; apply: c_inj; rewrite !fro2E !ctrM !mulmxA -(mulmxA _ U^H) u mulmx1.
by rewrite mxtrace_mulC !mulmxA v mul1mx.
Qed.
Lemma cabs_det_unitary n (U : 'M[Cx]_n) : U^H *m U = 1%:M -> cabs (\det U) = 1.
Proof.
move=> u; have : cabs (\det U) ^+ 2 = 1.
  by apply: c_inj; rewrite cabs_sqr -det_ctr mulrC -det_mulmx u det1 c1.
move=> h; have := cabs_ge0 (\det U); move: h; rewrite -RpowE; move: (cabs _) => a h a0.
have : ((a - 1) * (a + 1) = 0)%coqR.
  by move: h; rewrite /= Rmult_1_r => h; have {h} : (a * a = 1)%coqR by []; lra.
by case/Rmult_integral; toR; move=> ?; have : (a = 1)%coqR by lra.
Qed.
Lemma ln_det_le n (M : 'M[Cx]_n) : M \in unitmx ->
  (2 * ln (cabs (\det M)) <= fro2 M - (n%:R : R))%coqR.
Proof.
move=> u; have p : pd (M^H *m M) by have := pd_congr_unit (@pd1 Cx n) u; rewrite mulmx1.
have [r s] := eigh_exists (proj1 p).
have l0 i : (0 < r.1 0%R i)%coqR by exact: eigh_val_gt0 p s.
have un := eigh_unitary s; have e := eigh_recompose s.
have eD : cabs (\det M) ^+ 2 = \prod_i r.1 0 i.
  apply: c_inj; rewrite cabs_sqr -det_ctr mulrC -det_mulmx e /recompose !det_mulmx mulrAC.
  rewrite -det_mulmx (unitaryC un) det1 mul1r det_diag (big_morph c cM c1).
  by apply: eq_bigr => i _; rewrite mxE.
have eT : fro2 M = \sum_i r.1 0 i.
  apply: c_inj; rewrite fro2E e /recompose mxtrace_mulC mulmxA un mul1mx /rdiag mxtrace_diag c_sum.
  by apply: eq_bigr => i _; rewrite mxE.
have d0 : (0 < cabs (\det M))%coqR by apply: cabs_gt0; rewrite -unitfE -unitmxE.
rewrite -ln_sqr // RpowE eD (proj1 (ln_prod _ l0)) eT.
have -> : (n%:R : R) = \sum_(i < n) 1 by rewrite big_const_ord -Monoid.iteropE -mulr_natr mul1r.
have -> : (\sum_i r.1 0%R i - \sum_(i < n) 1)%coqR = \sum_i (r.1 0 i - 1) by rewrite sumrB.
by apply: sumR_le => i _; apply: ln_le_sub1.
Qed.

(** entry-wise inequality behind the optimality of the singular value map *)
Lemma col_ineq a r d s mu : (0 < d -> 0 <= s -> r * r <= a -> d * d - s * d = mu ->
  mu * (a / (d * d) - 1) + (d - s) * (d - s) <= a - 2 * s * r + s * s)%coqR.
Proof.
move=> d0 s0 ra <-.
have -> : ((d * d - s * d) * (a / (d * d) - 1) = a - s * (a / d) - d * d + s * d)%coqR by Rfield; lra.
have : (0 <= s * ((a - 2 * r * d + d * d) / d))%coqR.
  apply: Rmult_le_pos => //; apply: Rmult_le_pos; last by apply: Rlt_le; apply: Rinv_0_lt_compat.
  by have := Rle_0_sqr (r - d); rewrite /Rsqr; lra.
have -> : ((a - 2 * r * d + d * d) / d = a / d - 2 * r + d)%coqR by Rfield; lra.
nra.
Qed.

Lemma diag_opt n (s d : 'rV[R]_n) (A : 'M[Cx]_n) mu : (0 < mu)%coqR ->
  (forall i, (0 < d 0%R i)%coqR) -> (forall i, (0 <= s 0%R i)%coqR) ->
  (forall i, (d 0%R i * d 0%R i - s 0%R i * d 0%R i = mu)%coqR) -> A \in unitmx ->
  (- mu * ln (cabs (\det (rdiag d))) + fro2 (rdiag d - rdiag s) / 2 <=
   - mu * ln (cabs (\det A)) + fro2 (A - rdiag s) / 2)%coqR.
Proof.
move=> m0 d0 s0 ed uA.
have uD : rdiag d \in unitmx by apply: pd_unit; apply: pd_rdiag.
pose dV : 'rV[R]_n := map_mx (fun x => / x)%coqR d.
have dVE : rdiag dV *m rdiag d = 1%:M.
  rewrite rdiagM -rdiag1; congr rdiag; apply/rowP => i; rewrite !mxE -[_ * _]/(_ * _)%coqR.
  by apply: Rinv_l; have := d0 i; lra.
pose M := A *m rdiag dV.
have eA : A = M *m rdiag d by rewrite /M -mulmxA dVE mulmx1.
have uM : M \in unitmx by move: uA; rewrite eA unitmx_mul => /andP[].
have pos (B : 'M[Cx]_n) : B \in unitmx -> (0 < cabs (\det B))%coqR.
  by move=> u; apply: cabs_gt0; rewrite -unitfE -unitmxE.
have eln : ln (cabs (\det A)) = (ln (cabs (\det M)) + ln (cabs (\det (rdiag d))))%coqR.
  by rewrite eA det_mulmx cabsM; apply: ln_mult; apply: pos.
have key : (mu * (fro2 M - (n%:R : R)) + fro2 (rdiag d - rdiag s) <= fro2 (A - rdiag s))%coqR.
  pose a j := \sum_i cabs (A i j) ^+ 2.
  have fM : fro2 M = \sum_j (a j / (d 0%R j * d 0%R j))%coqR.
    rewrite /fro2 exchange_big; apply: eq_bigr => j _.
    have x0 := d0 j.
    have -> : (a j / (d 0%R j * d 0%R j))%coqR = a j * (/ (d 0%R j * d 0%R j))%coqR by [].
    rewrite /a mulr_suml; apply: eq_bigr => i _; rewrite /M /rdiag mul_mx_diag !mxE cabsM exprMn.
    rewrite cabs_c; congr (_ * _); rewrite -RpowE pow2_abs /=; Rfield; lra.
  have fD : fro2 (rdiag d - rdiag s) = \sum_j ((d 0%R j - s 0%R j) * (d 0%R j - s 0%R j))%coqR.
    rewrite /fro2; apply: eq_bigr => j _; rewrite (bigD1 j) //= big1 ?addr0 => [|i ij].
      rewrite !mxE eqxx !mulr1n -cB cabs_c -RpowE pow2_abs /= Rmult_1_r //.
    by rewrite !mxE eq_sym (negbTE ij) !mulr0n subr0 cabs0 expr0n.
  have fA : fro2 (A - rdiag s) = \sum_j (a j - 2 * s 0%R j * re (A j j) + s 0%R j * s 0%R j)%coqR.
    rewrite /fro2 exchange_big; apply: eq_bigr => j _; rewrite /a (bigD1 j) //= [in RHS](bigD1 j) //=.
    have -> : \sum_(i | i != j) cabs ((A - rdiag s) i j) ^+ 2 = \sum_(i | i != j) cabs (A i j) ^+ 2.
      by apply: eq_bigr => i ij; rewrite !mxE (negbTE ij) mulr0n subr0.
    rewrite !mxE eqxx mulr1n cabs_sqB c_conj [A j j * _]mulrC reMc cabs_c -!RpowE pow2_abs; toR.
    have -> : (2%:R : R) = 2%coqR by []. 
    by move: (\sum_(i | _) _) (cabs _) (re _) => x y z /=; Rring.
  rewrite fM fD fA; have -> : (n%:R : R) = \sum_(i < n) 1.
    by rewrite big_const_ord -Monoid.iteropE -mulr_natr mul1r.
  rewrite [(_ - \sum_(i < n) 1)%coqR]RsubE -sumrB [(mu * \sum_i _)%coqR]RmulE mulr_sumr.
  rewrite [(\sum_i _ + \sum_i _)%coqR]RaddE -big_split; apply: sumR_le => j _.
  apply: col_ineq => //; rewrite /a (bigD1 j) //=.
  have h1 : (0 <= \sum_(i | i != j) cabs (A i j) ^+ 2)%coqR.
    by apply: sumR_ge0 => i _; rewrite -RpowE; apply: pow_le; apply: cabs_ge0.
  have h2 := re_le_cabs (A j j); have h3 := re_le_cabs (- A j j); rewrite reN cabsN in h3.
  have h3' : (- re (A j j) <= cabs (A j j))%coqR by exact: h3.
  move: h1 h2 h3' {h3}; rewrite -RpowE; toR; move: (\sum_(i | _) _) (cabs _) (re _) => x y z h1 h2 h3.
  have : (0 <= (y - z) * (y + z))%coqR by apply: Rmult_le_pos; lra.
  by rewrite /=; lra.
have := ln_det_le uM; rewrite eln.
move: key; move: (fro2 M) (fro2 (rdiag d - _)) (fro2 (A - _)) (ln (cabs (\det (rdiag d)))) (ln _) (n%:R : R).
move=> p q t l2 l1 k key h.
have : (mu * (2 * l1) <= mu * (p - k))%coqR by apply: Rmult_le_compat_l; lra.
lra.
Qed.
