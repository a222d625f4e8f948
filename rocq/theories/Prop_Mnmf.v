(** C50-C53, C64: multichannel NMF (GaussMNMF, FastGaussMNMF). *)
From Coq Require Import Reals Lra Psatz FunctionalExtensionality.
From mathcomp Require Import all_ssreflect all_algebra.
From mathcomp Require Import ring.
From Verif Require Import RStruct MxC CxR NpLin RealLemmas NmfReal NmfMM Eigh EighProofs Prop_Linalg.
From Verif Require Import SpatialIP SpatialIPProofs Prop_IP1 SpatialISS SpatialISSProofs SpatialIP2 Prop_IP2.
From Verif Require Import Scale AuxIVA AuxIVAProofs Ilrma IlrmaReal IlrmaProofs Prop_IlrmaRef.
From Verif Require Import TraceMM MnmfMM Mnmf MnmfGauss MnmfFast.
Import Order.TTheory GRing.Theory Num.Theory.
Set Implicit Arguments.
Unset Strict Implicit.
Unset Printing Implicit Defensive.
Local Open Scope ring_scope.
Arguments pow : simpl never.

Lemma max_floor_nonneg eps x : (0 <= x)%coqR -> max_flooring eps x = Rmax x eps.
Proof. by []. Qed.
Lemma id_floor_nonneg x : (0 <= x)%coqR -> identity_fl x = Rmax x 0.
Proof. by move=> x0; rewrite Rmax_left. Qed.

(** every quadratic form of [A] is at least [eps] times that of the identity, i.e. all
    eigenvalues of the Hermitian matrix [A] are at least [eps] *)
Definition above n (eps : R) (A : 'M[Cx]_n) : Prop :=
  forall x : 'cV[Cx]_n, (eps * re (form 1%:M x x) <= re (form A x x))%coqR.
Lemma above_pd n eps (A : 'M[Cx]_n) : (0 < eps)%coqR -> A^H = A -> above eps A -> pd A.
Proof.
move=> e0 hA h; split=> // x x0.
have r : form A x x \is Num.real.
  by rewrite CrealE form_conj hA.
rewrite (real_cre r) -c0 clt; apply/RltP.
have := h x; have [_ /(_ x x0) /gt0_cre[_]] := pd1 Cx n.
by move=> p q; apply: Rlt_le_trans q; exact: Rmult_lt_0_compat.
Qed.
Lemma above_to_psd eig n eps (X : 'M[Cx]_n) : eigh_contract eig -> above eps (to_psd eig (max_flooring eps) X).
Proof. by move=> He x; exact: C25_lower_bound. Qed.

Lemma ln_prod I (l : seq I) (p : I -> R) : (forall i, (0 < p i)%coqR) ->
  (0 < (\prod_(i <- l) p i)%R)%coqR /\ ln (\prod_(i <- l) p i)%R = \sum_(i <- l) ln (p i).
Proof.
move=> p0; elim: l => [|a l [IH1 IH2]].
  by rewrite !big_nil; split; [exact: Rlt_0_1|exact: ln_1].
rewrite !big_cons; split; first exact: Rmult_lt_0_compat.
by rewrite -RmulE ln_mult // IH2.
Qed.

Section MNMF.
Variables (N M F T K : nat).
Notation cells := ('I_N -> 'I_F -> 'I_T -> R).
Notation basis := ('I_N -> 'I_F -> 'I_K -> R).
Notation activ := ('I_N -> 'I_K -> 'I_T -> R).
Notation spec := ('I_F -> 'M[Cx]_(M, T)).
Notation diagz := ('I_F -> 'M[Cx]_M).
Notation dspat := ('I_F -> 'I_N -> 'I_M -> R).
Notation spat := ('I_N -> 'I_F -> 'M[Cx]_M).
Notation covs := ('I_F -> 'I_T -> 'M[Cx]_M).
Implicit Types (B : basis) (V : activ) (L : cells) (X : spec) (Q : diagz) (D : dspat) (H : spat) (XX : covs).

(** ** C50 *)
Lemma fast_rnE Q D L n i j : fast_rn Q D L n i j =
  invmx (Q i) *m diag_mx (\row_m c (L n i j * D i n m)) *m (invmx (Q i))^H.
Proof.
apply/matrixP => a b; rewrite !mxE; apply: eq_bigr => m _.
by rewrite mul_mx_diag !mxE mulrA [c _ * _]mulrC.
Qed.
Lemma fast_rn_sum Q D L i j : \sum_n fast_rn Q D L n i j =
  invmx (Q i) *m diag_mx (\row_m c (lambd L D i m j)) *m (invmx (Q i))^H.
Proof.
under eq_bigr do rewrite fast_rnE.
rewrite -mulmx_suml -mulmx_sumr; congr (_ *m _ *m _).
apply/matrixP => a b; rewrite summxE !mxE /lambd c_sum -sumrMnl; apply: eq_bigr => n _.
by rewrite !mxE.
Qed.
Lemma fast_rn_herm Q D L i j : (\sum_n fast_rn Q D L n i j)^H = \sum_n fast_rn Q D L n i j.
Proof.
rewrite fast_rn_sum !ctrM ctrK ctr_diag mulmxA; congr (_ *m diag_mx _ *m _).
by apply/rowP => m; rewrite !mxE c_conj.
Qed.
Lemma fast_rn_unit Q D L i j : Q i \in unitmx -> (forall m, lambd L D i m j != 0) ->
  \sum_n fast_rn Q D L n i j \in unitmx.
Proof.
move=> uQ l0; rewrite fast_rn_sum !unitmx_mul unitmx_inv uQ ctr_unit unitmx_inv uQ andbT /=.
by rewrite unitmxE det_diag unitfE; apply/prodf_neq0 => m _; rewrite mxE c_eq0.
Qed.

Theorem C50_gauss eig eps X L H (r : 'I_M) : eigh_contract eig -> (0 < eps)%coqR ->
  (forall n i, (H n i)^H = H n i) -> (forall i j, above eps (\sum_n c (L n i j) *: H n i)) ->
  exists2 Y, gauss_separate (max_flooring eps) eig X L H r = Some Y &
    forall i j, \sum_n Y n i j = X i r j.
Proof.
move=> He e0 hH ab.
have h i j : (\sum_n c (L n i j) *: H n i)^H = \sum_n c (L n i j) *: H n i.
  by rewrite ctr_sum; apply: eq_bigr => n _; rewrite ctrZ c_conj hH.
apply: wiener_sum => i j; first by apply: (C25_identity He); [exact: h|exact: ab].
by apply: pd_unit; exact: above_pd e0 _ (ab i j).
Qed.
Theorem C50_gauss_no_flooring eig X L H (r : 'I_M) : eigh_contract eig -> (0 < N)%N ->
  (forall n i, pd (H n i)) -> (forall n i j, (0 < L n i j)%coqR) ->
  exists2 Y, gauss_separate identity_fl eig X L H r = Some Y & forall i j, \sum_n Y n i j = X i r j.
Proof.
move=> He N0 pH L0; have pR i j := rmodel_pd i j N0 L0 pH.
apply: wiener_sum => i j; last by apply: pd_unit; exact: pR.
by apply: to_psd_id => //; have [] := pR i j.
Qed.
Theorem C50_fast eig eps X Q D L (r : 'I_M) : eigh_contract eig -> (0 < eps)%coqR ->
  (forall i, Q i \in unitmx) ->
  (forall i j, above eps (invmx (Q i) *m diag_mx (\row_m c (lambd L D i m j)) *m (invmx (Q i))^H)) ->
  exists2 Y, fast_separate (max_flooring eps) eig X Q D L r = Some Y &
    forall i j, \sum_n Y n i j = X i r j.
Proof.
move=> He e0 uQ ab; rewrite /fast_separate (introT forallP uQ).
apply: wiener_sum => i j; first by apply: C25_identity; rewrite ?fast_rn_herm // fast_rn_sum; exact: ab.
apply: pd_unit; apply: (above_pd e0); first exact: fast_rn_herm.
by rewrite fast_rn_sum; exact: ab.
Qed.
Theorem C50_fast_no_flooring eig X Q D L (r : 'I_M) : eigh_contract eig -> (forall i, Q i \in unitmx) ->
  (forall i m j, lambd L D i m j != 0) ->
  exists2 Y, fast_separate identity_fl eig X Q D L r = Some Y & forall i j, \sum_n Y n i j = X i r j.
Proof.
move=> He uQ l0; rewrite /fast_separate (introT forallP uQ).
apply: wiener_sum => i j; last by apply: fast_rn_unit.
by apply: to_psd_id => //; exact: fast_rn_herm.
Qed.

(** ** C51 *)
Theorem C51_gauss fl eig X XX H B V H' B' (r : 'I_M) : gauss_norm H B = Some (H', B') ->
  [/\ forall i j, rmodel (recon B' V) H' i j = rmodel (recon B V) H i j,
      gauss_loss fl eig XX (recon B' V) H' = gauss_loss fl eig XX (recon B V) H,
      gauss_separate fl eig X (recon B' V) H' r = gauss_separate fl eig X (recon B V) H r &
      forall n i, re (\tr (H' n i)) = 1].
Proof.
rewrite /gauss_norm; case: ifP => [/forallP ok|_]; last by [].
case=> <- <-.
have t0 n i : re (\tr (H n i)) != 0 by have /forallP := ok n; exact.
set tr := fun n i => re (\tr (H n i)).
have E i j : rmodel (recon (fun n i k => tr n i * B n i k) V) (fun n i => (c (tr n i))^-1 *: H n i) i j =
   rmodel (recon B V) H i j by apply: (@rmodel_norm N M F T K H B V tr).
have P : rpsd fl eig (recon (fun n i k => tr n i * B n i k) V) (fun n i => (c (tr n i))^-1 *: H n i) =
   rpsd fl eig (recon B V) H.
  by apply: functional_extensionality => i; apply: functional_extensionality => j; rewrite /rpsd E.
split; first exact: E.
- by rewrite /gauss_loss /rpsd_unit P.
- rewrite /gauss_separate; set f := (X in wiener _ _ X); set g := (X in _ = wiener _ _ X _ _).
  suff -> : f = g by [].
  apply: functional_extensionality => n; apply: functional_extensionality => i.
  apply: functional_extensionality => j; rewrite /f /g scalerA; congr (_ *: _).
  have -> : recon (fun n i k => tr n i * B n i k) V n i j = tr n i * recon B V n i j.
    by rewrite /recon mulr_sumr; apply: eq_bigr => k _; rewrite mulrA.
  by rewrite cM mulrAC mulfV ?mul1r // c_eq0; exact: t0.
- by move=> n i; rewrite -cV mxtraceZ reMc mulVf //; exact: t0.
Qed.
Theorem C51_gauss_defined H B : (0 < M)%N -> (forall n i, pd (H n i)) ->
  exists H' B', gauss_norm H B = Some (H', B').
Proof.
move=> M0 pH; rewrite /gauss_norm ifT; first by do 2 eexists.
apply/forallP => n; apply/forallP => i; apply/eqP.
by have := rtr_pd M0 (pH n i); rewrite /rtr; toR; lra.
Qed.

Lemma fast_normE (psi : 'I_M -> R) (A : 'M[Cx]_M) :
  \matrix_(m, a) (A m a / c (psi m)) = diag_mx (\row_m (c (psi m))^-1) *m A.
Proof. by apply/matrixP => m a; rewrite mul_diag_mx !mxE mulrC. Qed.
Lemma lambd_norm (psi : 'I_M -> R) D L i m j :
  lambd L (fun i n m => (D i n m / psi m ^ 2)%coqR) i m j = (lambd L D i m j / psi m ^ 2)%coqR.
Proof.
rewrite /lambd /Rdiv sumR_mulr; apply: eq_bigr => n _; toR; by rewrite Rmult_assoc.
Qed.
Theorem C51_fast fl eig X Q D L Q' D' (r : 'I_M) : (forall x, (0 <= x)%coqR -> (0 <= fl x)%coqR) ->
  fast_norm fl X Q D = Some (Q', D') ->
  [/\ fast_loss X Q' D' L = fast_loss X Q D L,
      (forall i, Q i \in unitmx) -> forall n i j, fast_rn Q' D' L n i j = fast_rn Q D L n i j &
      fast_separate fl eig X Q' D' L r = fast_separate fl eig X Q D L r].
Proof.
move=> fl0; rewrite /fast_norm; case: ifP => [/andP[FT /forallP ok]|_]; last by [].
case=> <- <-.
set psi := fast_psi fl X Q.
have p0 m : (0 < psi m)%coqR.
  have [//|e] : (0 <= psi m)%coqR by apply: fl0; exact: sqrt_pos.
  by have := ok m; rewrite -/psi -e eqxx.
have pn m : c (psi m) != 0 by apply: c_neq0; have := p0 m; lra.
have uE i : (\matrix_(m, a) (Q i m a / c (psi m)) \in unitmx) = (Q i \in unitmx).
  rewrite fast_normE unitmx_mul unitmxE det_diag unitfE.
  have -> // : \prod_m (\row_m0 (c (psi m0))^-1) 0 m != 0 :> Cx.
  by apply/prodf_neq0 => m _; rewrite mxE invr_eq0.
have rn : (forall i, Q i \in unitmx) -> forall n i j,
   fast_rn (fun i => \matrix_(m, a) (Q i m a / c (psi m))) (fun i n m => (D i n m / psi m ^ 2)%coqR) L n i j =
   fast_rn Q D L n i j.
  move=> uQ n i j; rewrite !fast_rnE fast_normE.
  have ud : diag_mx (\row_m (c (psi m))^-1) \in unitmx.
    by rewrite unitmxE det_diag unitfE; apply/prodf_neq0 => m _; rewrite mxE invr_eq0.
  rewrite invmx_mul // ctrM -!mulmxA; congr (_ *m _); rewrite !mulmxA; congr (_ *m _).
  have -> : invmx (diag_mx (\row_m (c (psi m))^-1)) = diag_mx (\row_m c (psi m)).
    apply: (can_inj (mulKmx ud)); rewrite mulmxV // mulmx_diag; apply/matrixP => a b; rewrite !mxE.
    by case: eqP => // _; rewrite mulVf.
  rewrite ctr_diag !mulmx_diag; congr diag_mx; apply/rowP => m; rewrite !mxE c_conj -!cM; congr c.
  by have := p0 m => ?; toR; Rf; lra.
split; [|exact: rn|].
- rewrite /fast_loss.
  have -> : [forall i, \matrix_(m, a) (Q i m a / c (psi m)) \in unitmx] = [forall i, Q i \in unitmx].
    by apply: eq_forallb => i; rewrite uE.
  have -> : all_imj (fun i m j => Rltb 0 (lambd L (fun i n m => (D i n m / psi m ^ 2)%coqR) i m j)) =
     all_imj (fun i (m : 'I_M) j => Rltb 0 (lambd L D i m j)).
    apply: eq_forallb => i; apply: eq_forallb => m; apply: eq_forallb => j; rewrite lambd_norm.
    have p2 : (0 < psi m ^ 2)%coqR by apply: pow_lt.
    apply/RltbP/RltbP => h; last by apply: Rdiv_lt_0_compat.
    have -> : lambd L D i m j = (lambd L D i m j / psi m ^ 2 * psi m ^ 2)%coqR by Rf; have := p0 m; lra.
    exact: Rmult_lt_0_compat.
  case: ifP => // /and3P[T0 /forallP uQ /forallP l0']; congr Some.
  have l0 i m j : (0 < lambd L D i m j)%coqR.
    by have /forallP/(_ m)/forallP/(_ j)/RltbP := l0' i.
  apply: eq_bigr => i _.
  have dE : ln (cabs (\det (\matrix_(m, a) (Q i m a / c (psi m))))) =
     ln (cabs (\det (Q i))) - \sum_m ln (psi m).
    rewrite fast_normE det_mulmx cabsM det_diag -RmulE.
    have u : \det (Q i) != 0 by have := uQ i; rewrite unitmxE unitfE.
    have hp : (0 < cabs (\prod_m (\row_m0 (c (psi m0))^-1) 0 m : Cx))%coqR.
      by apply: cabs_gt0; apply/prodf_neq0 => m _; rewrite mxE invr_eq0.
    rewrite ln_mult //; last exact: cabs_gt0.
    rewrite RaddE addrC; congr (_ + _); rewrite -sumrN.
    have -> : cabs (\prod_m (\row_m0 (c (psi m0))^-1) 0 m : Cx) = \prod_m (psi m)^-1.
      apply: (big_ind2 (fun (x : Cx) y => cabs x = y)); first exact: cabs1.
        by move=> x1 x2 y1 y2 <- <-; exact: cabsM.
      by move=> m _; rewrite mxE cabsV cabs_c Rabs_pos_eq //; exact: Rlt_le.
    have q0 m : (0 < (psi m)^-1)%coqR by rewrite -RinvE; [exact: Rinv_0_lt_compat|have := p0 m; lra].
    have [_ ->] := ln_prod (index_enum (ordinal_finType M)) q0; apply: eq_bigr => m _.
    by rewrite -RinvE; [rewrite ln_Rinv|have := p0 m; lra].
  pose Q1 : diagz := fun i => \matrix_(m, a) (Q i m a / c (psi m)).
  pose D1 : dspat := fun i n m => (D i n m / psi m ^ 2)%coqR.
  have cE j : \sum_m ((qx X Q1 i m j ^ 2 / lambd L D1 i m j + ln (lambd L D1 i m j))%coqR) =
     \sum_m ((qx X Q i m j ^ 2 / lambd L D i m j + ln (lambd L D i m j))%coqR) - (2 * (\sum_m ln (psi m))%R)%coqR.
    rewrite RmulE mulr_sumr -sumrB; apply: eq_bigr => m _.
    rewrite lambd_norm; have := p0 m; have := l0 i m j => l1 p1.
    have -> : qx X Q1 i m j = (qx X Q i m j / psi m)%coqR.
      rewrite /qx /Q1 fast_normE -mulmxA mul_diag_mx mxE [X in X * _]mxE cabsM cabsV cabs_c Rabs_pos_eq; last exact: Rlt_le.
      by rewrite -RinvE; [rewrite -RmulE Rmult_comm|lra].
    rewrite /Rdiv ln_mult //; last by apply: Rinv_0_lt_compat; apply: pow_lt.
    rewrite ln_Rinv; last by apply: pow_lt.
    rewrite ln_pow //; toR; rewrite -[INR 2]/2%coqR.
    by move: (ln _) (ln _) => a b; Rf; lra.
  rewrite (eq_meanR cE) meanRB meanR_const ?lt0n // dE.
  by move: (meanR _) (\sum_m ln _) (ln _) => a b d; toR; Rr.
- rewrite /fast_separate.
  have -> : [forall i, \matrix_(m, a) (Q i m a / c (psi m)) \in unitmx] = [forall i, Q i \in unitmx].
    by apply: eq_forallb => i; rewrite uE.
  case: (boolP [forall i, Q i \in unitmx]) => [/forallP uQ|_]; last by reflexivity.
  have e : fast_rn (fun i => \matrix_(m, a) (Q i m a / c (psi m))) (fun i n m => (D i n m / psi m ^ 2)%coqR) L =
    fast_rn Q D L.
    by do 3 (apply: functional_extensionality => ?); exact: rn.
  by rewrite e.
Qed.

(** after the power normalisation every diagonalised channel has unit mean power *)
Theorem C51_fast_unit fl X Q D Q' D' : fast_norm fl X Q D = Some (Q', D') ->
  (forall m, fast_psi fl X Q m = fast_psi identity_fl X Q m) ->
  forall m, (F * T)%:R^-1 * (\sum_i \sum_j (qx X Q' i m j ^ 2)%coqR) = 1.
Proof.
rewrite /fast_norm; case: ifP => [/andP[FT /forallP ok]|_]; last by [].
case=> <- _ hid m.
set S := \sum_i \sum_j (qx X Q i m j ^ 2)%coqR.
have S0 : (0 <= S)%coqR by do 2! (apply: sumR_ge0 => ? _); exact: pow2_ge_0.
have FT0 : (0 <= ((F * T)%:R^-1 : R))%coqR by apply/RleP; rewrite invr_ge0 ler0n.
have M0 : (0 <= (F * T)%:R^-1 * S)%coqR by apply: Rmult_le_pos.
have pE : fast_psi fl X Q m = R_sqrt.sqrt ((F * T)%:R^-1 * S) by rewrite hid.
have p0 : (0 < fast_psi fl X Q m)%coqR.
  have [//|e] : (0 <= fast_psi fl X Q m)%coqR by rewrite pE; exact: sqrt_pos.
  by have := ok m; rewrite -e eqxx.
pose Q1 : diagz := fun i => \matrix_(m, a) (Q i m a / c (fast_psi fl X Q m)).
have -> : \sum_i \sum_j (qx X Q1 i m j ^ 2)%coqR = (S / fast_psi fl X Q m ^ 2)%coqR.
  rewrite /S /Rdiv sumR_mulr; apply: eq_bigr => i _; rewrite sumR_mulr; apply: eq_bigr => j _.
  have -> : qx X Q1 i m j = (qx X Q i m j / fast_psi fl X Q m)%coqR.
    rewrite /qx /Q1 fast_normE -mulmxA mul_diag_mx mxE [X in X * _]mxE cabsM cabsV cabs_c Rabs_pos_eq; last exact: Rlt_le.
    by rewrite -RinvE; [rewrite -RmulE Rmult_comm|lra].
  by Rf; lra.
have pp : (fast_psi fl X Q m ^ 2 = (F * T)%:R^-1 * S)%coqR by rewrite pE pow2_sqrt.
rewrite pp; have := pow_lt _ 2 p0; rewrite pp.
have : (F * T)%:R != 0 :> R by rewrite pnatr_eq0.
move: S ((F * T)%:R : R) {S0 M0 pE pp FT0} => S f f0.
rewrite -RinvE; last by move/eqP: f0; toR.
toR => h; have fn : f <> 0%coqR by move/eqP: f0; toR.
have Sn : S <> 0%coqR by move=> e; rewrite e in h; lra.
by Rf; split.
Qed.
Theorem C51_fast_defined eps X Q D : (0 < eps)%coqR -> (0 < F)%N -> (0 < T)%N ->
  exists Q' D', fast_norm (max_flooring eps) X Q D = Some (Q', D').
Proof.
move=> e0 F0 T0; rewrite /fast_norm ifT; first by do 2 eexists.
rewrite -lt0n muln_gt0 F0 T0; apply/forallP => m; apply/eqP.
by have := Rmax_r (R_sqrt.sqrt ((F * T)%:R^-1 * \sum_i \sum_j (qx X Q i m j ^ 2)%coqR)) eps; rewrite /fast_psi /max_flooring; toR; lra.
Qed.
End MNMF.

Print Assumptions C50_gauss.
Print Assumptions C50_gauss_no_flooring.
Print Assumptions C50_fast.
Print Assumptions C50_fast_no_flooring.
Print Assumptions C51_gauss.
Print Assumptions C51_gauss_defined.
Print Assumptions C51_fast.
Print Assumptions C51_fast_unit.
Print Assumptions C51_fast_defined.
