(** Trace and log-determinant inequalities behind the multichannel NMF updates.
    No project code is modelled here. *)
From Coq Require Import Reals Lra Psatz.
From mathcomp Require Import all_ssreflect all_algebra.
From Verif Require Import RStruct MxC CxR NmfReal NmfMM RealLemmas NpLin Eigh EighProofs ProxProofs.
Import Order.TTheory GRing.Theory Num.Theory.
Set Implicit Arguments.
Unset Strict Implicit.
Unset Printing Implicit Defensive.
Local Open Scope ring_scope.

(** real part of the trace *)
Definition rtr n (A : 'M[Cx]_n) : R := re (\tr A).

Lemma rtrD n (A B : 'M[Cx]_n) : rtr (A + B) = rtr A + rtr B.
Proof. by rewrite /rtr mxtraceD reD. Qed.
Lemma rtrN n (A : 'M[Cx]_n) : rtr (- A) = - rtr A.
Proof. by rewrite /rtr -scaleN1r mxtraceZ mulN1r reN. Qed.
Lemma rtrB n (A B : 'M[Cx]_n) : rtr (A - B) = rtr A - rtr B.
Proof. by rewrite rtrD rtrN. Qed.
Lemma rtrZ n (a : R) (A : 'M[Cx]_n) : rtr (c a *: A) = a * rtr A.
Proof. by rewrite /rtr mxtraceZ reMc. Qed.
Lemma rtr0 n : rtr (0 : 'M[Cx]_n) = 0.
Proof. by rewrite /rtr mxtrace0. Qed.
Lemma rtr_sum n I (r : seq I) (P : pred I) (G : I -> 'M[Cx]_n) :
  rtr (\sum_(i <- r | P i) G i) = \sum_(i <- r | P i) rtr (G i).
Proof. exact: (big_morph _ (@rtrD n) (@rtr0 n)). Qed.
Lemma rtrC m n (A : 'M[Cx]_(m, n)) (B : 'M[Cx]_(n, m)) : rtr (A *m B) = rtr (B *m A).
Proof. by rewrite /rtr mxtrace_mulC. Qed.
Lemma rtrH n (A : 'M[Cx]_n) : rtr A^H = rtr A.
Proof.
rewrite /rtr /mxtrace !re_sum; apply: eq_bigr => i _.
by rewrite ctrE re_conj.
Qed.
Lemma rtr1 n : rtr (1%:M : 'M[Cx]_n) = n%:R.
Proof.
rewrite /rtr mxtrace1.
elim: n => [|n IH]; first by rewrite re0.
by rewrite !mulrSr reD IH re1.
Qed.

Lemma rtr_psd n (A : 'M[Cx]_n) : psd A -> (0 <= rtr A)%coqR.
Proof.
move=> [_ pA]; rewrite /rtr /mxtrace re_sum; apply: sumR_ge0 => i _.
have := pA (delta_mx i 0).
have -> : form A (delta_mx i 0) (delta_mx i 0) = A i i.
  rewrite /form ctr_delta -rowE mxE (bigD1 i) //= !mxE !eqxx mulr1 big1 ?addr0 //.
  by move=> j /negbTE h; rewrite !mxE h mulr0.
by move=> /ge0_cre[].
Qed.
Lemma rtr_congr m n (A : 'M[Cx]_m) (B : 'M[Cx]_(m, n)) : psd A -> (0 <= rtr (B^H *m A *m B))%coqR.
Proof. by move=> pA; apply: rtr_psd; apply: psd_congr. Qed.
Lemma rtr_pd_gt0 m n (A : 'M[Cx]_m) (B : 'M[Cx]_(m, n)) : pd A -> B != 0 -> (0 < rtr (B^H *m A *m B))%coqR.
Proof.
move=> pA B0.
have [j hj] : exists j, col j B != 0.
  apply/existsP; apply: contraNT B0; rewrite negb_exists => /forallP h.
  apply/eqP/matrixP => i j; have := h j; rewrite negbK => /eqP /matrixP /(_ i 0).
  by rewrite !mxE.
have e : rtr (B^H *m A *m B) = \sum_k re (form A (col k B) (col k B)).
  rewrite /rtr /mxtrace re_sum; apply: eq_bigr => k _; congr re.
  by rewrite /form ctr_col -row_mul !mxE; apply: eq_bigr => l _; rewrite !mxE.
rewrite e; apply: (@sumR_gt0 _ _ j) => [k|].
  by have /ge0_cre[] := proj2 (pd_psd pA) (col k B).
by have /gt0_cre[] := proj2 pA _ hj.
Qed.
Lemma rtr_pd n (A : 'M[Cx]_n) : (0 < n)%N -> pd A -> (0 < rtr A)%coqR.
Proof.
move=> n0 pA; have -> : A = 1%:M^H *m A *m 1%:M by rewrite ctr1 mul1mx mulmx1.
apply: rtr_pd_gt0 => //; apply/eqP => /matrixP /(_ (Ordinal n0) (Ordinal n0)).
by rewrite !mxE eqxx => /eqP; rewrite oner_eq0.
Qed.

(** factor of a positive semidefinite matrix *)
Lemma psd_factor n (A : 'M[Cx]_n) : psd A -> exists L : 'M[Cx]_n, A = L *m L^H.
Proof.
move=> pA; have [r s] := eigh_exists (proj1 pA).
have l0 i := eigh_val_ge0 i pA s.
exists (recompose (map_mx R_sqrt.sqrt r.1) r.2).
rewrite recompose_ctr recomposeM; last exact: eigh_unitary s.
rewrite [LHS](eigh_recompose s); congr (recompose _ _); apply/rowP => i; rewrite !mxE.
by rewrite -RmulE sqrt_sqrt.
Qed.

(** completed square *)
Lemma trace_square m n (A : 'M[Cx]_m) (U V : 'M[Cx]_(m, n)) : psd A ->
  (2 * rtr (U^H *m A *m V) <= rtr (U^H *m A *m U) + rtr (V^H *m A *m V))%coqR.
Proof.
move=> pA; have := rtr_congr (U - V) pA.
rewrite ctrB !mulmxBl !mulmxBr !rtrB.
have -> : rtr (V^H *m A *m U) = rtr (U^H *m A *m V).
  by rewrite -rtrH !ctrM ctrK (proj1 pA) mulmxA.
by toR; lra.
Qed.

(** [tr(X R'^-1)] is bounded through any decomposition [R = sum E_k], [R' = sum E'_k] *)
Lemma trace_bound n p (I : finType) (XX : 'M[Cx]_n) (E E' : I -> 'M[Cx]_n) (b : I -> R) (L : 'M[Cx]_(n, p)) :
  let R0 : 'M[Cx]_n := \sum_k E k in let R1 : 'M[Cx]_n := \sum_k E' k in
  XX = L *m L^H -> pd R0 -> pd R1 ->
  (forall k, (2 * rtr ((invmx R1 *m L)^H *m E k *m (invmx R0 *m L)) <=
     rtr ((invmx R1 *m L)^H *m E' k *m (invmx R1 *m L)) + b k)%coqR) ->
  (rtr (invmx R1 *m XX) <= (\sum_k b k)%R)%coqR.
Proof.
move=> R0 R1 eX p0 p1 h.
have u0 := pd_unit p0; have u1 := pd_unit p1.
set U := invmx R1 *m L; set Y := invmx R0 *m L.
have eU : U^H *m R1 = L^H by rewrite ctrM ctr_inv (proj1 p1) mulmxKV.
have S0 : rtr (invmx R1 *m XX) = rtr (U^H *m R0 *m Y).
  have -> : U^H *m R0 *m Y = U^H *m L by rewrite -mulmxA /Y mulKVmx.
  by rewrite eX mulmxA -/U rtrC -[RHS]rtrH ctrM ctrK.
have S1 : rtr (invmx R1 *m XX) = rtr (U^H *m R1 *m U).
  by rewrite eU eX mulmxA -/U rtrC.
have e0 : rtr (U^H *m R0 *m Y) = \sum_k rtr (U^H *m E k *m Y).
  by rewrite mulmx_sumr mulmx_suml rtr_sum.
have e1 : rtr (U^H *m R1 *m U) = \sum_k rtr (U^H *m E' k *m U).
  by rewrite mulmx_sumr mulmx_suml rtr_sum.
have : (2 * (\sum_k rtr (U^H *m E k *m Y))%R <= (\sum_k rtr (U^H *m E' k *m U))%R + (\sum_k b k)%R)%coqR.
  by rewrite sumR_mull sumR_add; apply: sumR_le => k _; apply: h.
rewrite -e0 -e1 -S0 -S1; move: (\sum_k b k) => z; lra.
Qed.

(** concavity of the log-determinant *)
Lemma logdet_tangent n (A B : 'M[Cx]_n) : pd A -> pd B ->
  (ln (cabs (\det B)) - ln (cabs (\det A)) <= rtr (invmx A *m B) - (n%:R : R))%coqR.
Proof.
move=> pA pB; have [S pS eS] := sqrt_exists pA; have [L eL] := chol_exists pB.
have uA := pd_unit pA; have uB := pd_unit pB; have uS := pd_unit pS.
have uL : L^H \in unitmx by rewrite ctr_unit; move: uB; rewrite -eL unitmx_mul => /andP[].
have uM : L^H *m invmx S \in unitmx by rewrite unitmx_mul uL unitmx_inv.
have := ln_det_le uM.
have -> : fro2 (L^H *m invmx S) = rtr (invmx A *m B).
  rewrite -[fro2 _]rec fro2E ctrM ctrK ctr_inv (proj1 pS) mulmxA -(mulmxA _ L) eL.
  by rewrite -[re _]/(rtr _) rtrC mulmxA -invmx_mul // eS.
suff -> : (2 * ln (cabs (\det (L^H *m invmx S))) = ln (cabs (\det B)) - ln (cabs (\det A)))%coqR by apply.
have d0 (Z : 'M[Cx]_n) : Z \in unitmx -> (0 < cabs (\det Z))%coqR.
  by move=> uZ; apply: cabs_gt0; rewrite -unitfE -unitmxE.
have dS := d0 _ uS; have dL := d0 _ uL; have dB := d0 _ uB.
have dS0 : cabs (\det S) <> 0%coqR by lra.
have -> : cabs (\det (L^H *m invmx S)) = (cabs (\det L^H) * / cabs (\det S))%coqR.
  by rewrite det_mulmx det_inv cabsM cabsV RmulE RinvE.
rewrite ln_mult //; last exact: Rinv_0_lt_compat.
rewrite ln_Rinv //.
have -> : ln (cabs (\det A)) = (2 * ln (cabs (\det S)))%coqR.
  rewrite -ln_sqr // -eS det_mulmx cabsM; congr ln.
  by rewrite -[RHS]/(cabs (\det S) * (cabs (\det S) * 1))%coqR Rmult_1_r.
have -> : ln (cabs (\det B)) = (2 * ln (cabs (\det L^H)))%coqR.
  rewrite -ln_sqr // -{1}eL det_mulmx cabsM -{1}[\det L]conjCK -det_ctr cabs_conj; congr ln.
  by rewrite -[RHS]/(cabs (\det L^H) * (cabs (\det L^H) * 1))%coqR Rmult_1_r.
lra.
Qed.

(** positivity survives a change of positive weights *)
Lemma pd_weights n (K : finType) (G : K -> 'M[Cx]_n) (t t' : K -> R) :
  (forall k, psd (G k)) -> (forall k, (0 < t k)%coqR) -> (forall k, (0 < t' k)%coqR) ->
  pd (\sum_k c (t k) *: G k) -> pd (\sum_k c (t' k) *: G k).
Proof.
move=> pG t0 t0' [_ pR].
have ps (s : K -> R) : (forall k, (0 < s k)%coqR) -> psd (\sum_k c (s k) *: G k).
  by move=> s0; apply: psd_sum => k _; apply: psdZ => //; apply: c_ge0; exact: Rlt_le.
have [h' q'] := ps _ t0'; split=> // x x0.
rewrite lt_neqAle q' andbT eq_sym; apply/eqP => z.
have fE (s : K -> R) : form (\sum_k c (s k) *: G k) x x = \sum_k c (s k) * form (G k) x x.
  rewrite /form mulmx_sumr mulmx_suml summxE; apply: eq_bigr => k _.
  by rewrite -scalemxAr -scalemxAl mxE.
have := pR x x0; rewrite fE big1 ?ltxx // => k _.
move: z; rewrite fE => /psumr_eq0P z.
have /eqP : c (t' k) * form (G k) x x = 0.
  by apply: z => // i _; apply: mulr_ge0; [apply: c_ge0; exact: Rlt_le|have [] := pG i].
rewrite mulf_eq0 c_eq0 => /orP[/eqP e|/eqP ->]; last by rewrite mulr0.
by have := t0' k; rewrite e => /Rlt_irrefl.
Qed.
