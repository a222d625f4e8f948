(** C47-C49, disagreements between ILRMA and its documentation, and concrete instances. *)
From Coq Require Import Reals Lra Psatz FunctionalExtensionality.
From mathcomp Require Import all_ssreflect all_algebra.
From mathcomp Require Import ring.
From Verif Require Import RStruct MxC CxR NpLin RealLemmas NmfReal NmfMM Eigh EighProofs.
From Verif Require Import SpatialIP SpatialIPProofs SpatialISS SpatialISSProofs.
From Verif Require Import Scale ScaleProofs AuxIVA AuxIVAProofs Prop_AuxIVA CubicProofs Prop_AuxIVAFloor.
From Verif Require Import Ilrma IlrmaReal IlrmaProofs Prop_Ilrma Prop_IlrmaIter.
Import Order.TTheory GRing.Theory Num.Theory.
Set Implicit Arguments.
Unset Strict Implicit.
Unset Printing Implicit Defensive.
Local Open Scope ring_scope.

Definition g2 := Gauss 2.
Lemma g2_valid alg : valid g2 alg.
Proof. by split; [lra|]. Qed.
Lemma g2_num y q : (0 < q)%coqR -> num_cell g2 MM y q = (y ^ 2 / q ^ 2)%coqR.
Proof.
move=> q0; rewrite /num_cell /g2; have -> : ((2 + 2) / 2 = 2)%coqR by lra.
by rewrite pw_2; [|lra].
Qed.
Lemma g2_expo : expo g2 MM = (/ 2)%coqR.
Proof. by rewrite /expo /g2; Rf; lra. Qed.
Lemma g2_loss y q : (0 < q)%coqR -> cell_loss g2 y q = (y ^ 2 / q + ln q)%coqR.
Proof.
move=> q0; rewrite /cell_loss /g2; have -> : (2 / 2 = 1)%coqR by lra.
by rewrite pw_1; [rewrite Rmult_1_l|lra].
Qed.
Lemma g2_weight fl y q : (0 < q)%coqR -> spatial_weight g2 fl y q = (1 / q)%coqR.
Proof.
move=> q0; rewrite /spatial_weight /g2; have -> : (2 / 2 = 1)%coqR by lra.
by rewrite pw_1; [|lra].
Qed.
Lemma pw_half x : (0 < x)%coqR -> pw x (/ 2) = R_sqrt.sqrt x.
Proof. by move=> x0; rewrite pw_pos // Rpower_sqrt. Qed.
Lemma lift00 : lift ord0 ord0 = 1 :> 'I_2.
Proof. exact/val_inj. Qed.
Lemma sum2 (f : 'I_2 -> R) : \sum_i f i = (f 0%R + f 1%R)%coqR.
Proof. by rewrite big_ord_recl big_ord_recl big_ord0 addr0 lift00. Qed.
Lemma sum1 (f : 'I_1 -> R) : \sum_i f i = f 0.
Proof. by rewrite big_ord_recl big_ord0 addr0. Qed.
Lemma mean1 (f : 'I_1 -> R) : meanR f = f 0.
Proof. by rewrite /meanR sum1 invr1 mul1r. Qed.
Lemma inv2R : (2%:R : R)^-1 = (/ 2)%coqR.
Proof. by rewrite RinvE //; lra. Qed.
Lemma mean2 (f : 'I_2 -> R) : meanR f = ((f 0%R + f 1%R) / 2)%coqR.
Proof. by rewrite /meanR sum2 inv2R; toR; Rf; lra. Qed.

(** ** C49: the renormalisation of the latent variables is not compensated, so that
    [update_latent] can increase the loss. *)
Theorem C49_refuted : exists (X : 'I_1 -> 'M[Cx]_(2, 1)) (W : 'I_1 -> 'M[Cx]_2)
   (Z Z' : 'I_2 -> 'I_1 -> R) (C : 'I_1 -> 'I_1 -> R) (A : 'I_1 -> 'I_1 -> R) l l',
  [/\ [/\ forall i, W i \in unitmx, forall n k, (0 < Z n k)%coqR, forall k, \sum_n Z n k = 1,
       forall i k, (0 < C i k)%coqR & forall k j, (0 < A k j)%coqR],
     update_latent g2 MM (separate_all X W) Z C A = Some Z',
     loss_filter g2 X W (recon_lat Z C A) = Some l,
     loss_filter g2 X W (recon_lat Z' C A) = Some l' & (l < l')%coqR].
Proof.
pose y (n : 'I_2) : R := if n == 0 then 1%coqR else 4%coqR.
pose X (i : 'I_1) : 'M[Cx]_(2, 1) := \matrix_(n, _) c (y n).
pose W (i : 'I_1) : 'M[Cx]_2 := 1%:M.
pose Z (n : 'I_2) (k : 'I_1) : R := if n == 0 then (/ 5)%coqR else (4 / 5)%coqR.
pose one (i k : 'I_1) : R := 1%coqR.
have uW i : W i \in unitmx by rewrite unitmx1.
have Z0 n k : (0 < Z n k)%coqR by rewrite /Z; case: ifP => _; lra.
have aE n i j : amp (separate_all X W) n i j = y n.
  rewrite /amp /separate_all /separate mul1mx mxE cabs_c Rabs_pos_eq // /y.
  by case: ifP => _; lra.
have qE (Z1 : 'I_2 -> 'I_1 -> R) n i j : recon_lat Z1 one one n i j = Z1 n 0.
  by rewrite /recon_lat sum1 /one; toR; Rr.
pose Z' (n : 'I_2) (k : 'I_1) : R := if n == 0 then (/ 9)%coqR else (8 / 9)%coqR.
have Z'0 n k : (0 < Z' n k)%coqR by rewrite /Z'; case: ifP => _; lra.
have s5 : (0 < R_sqrt.sqrt 5)%coqR by apply: sqrt_lt_R0; lra.
have nE n k : latent_num g2 MM Z one one (separate_all X W) n k = 25%coqR.
  rewrite /latent_num !sum1 qE aE g2_num // /one /y /Z; toR.
  by case: ifP => _; Rf; lra.
have dE n k : latent_den Z one one n k = (/ Z n 0%R)%coqR.
  by rewrite /latent_den !sum1 qE /one; toR; have := Z0 n 0; move: (Z n 0) => z z0; Rf; lra.
have st : latent_step g2 MM (separate_all X W) Z one one =
    Some (fun n k => (R_sqrt.sqrt 5 * (if n == 0%R then / 5 else 8 / 5))%coqR).
  rewrite /latent_step nzP; last by move=> n i j; rewrite qE.
  rewrite ifT; last first.
    apply/andP; split=> //; apply/forallP => n; apply/forallP => k; rewrite dE.
    by apply/eqP; have := Rinv_0_lt_compat _ (Z0 n 0); toR; lra.
  congr Some; apply: functional_extensionality => n; apply: functional_extensionality => k.
  rewrite nE dE g2_expo; have -> : (25 / / Z n 0%R = if n == 0%R then 5 else 5 * 2 ^ 2)%coqR.
    by rewrite /Z; case: ifP => _; Rf; lra.
  rewrite pw_half; last by case: ifP => _; lra.
  rewrite /Z; case: ifP => _; toR; first by [].
  by rewrite sqrt_mult ?sqrt_pow2; try lra; Rf; lra.
exists X, W, Z, Z', one, one; do 2 eexists; split; first split=> //.
- by move=> k; rewrite sum2 /Z /=; toR; Rf; lra.
- by move=> i k; rewrite /one; lra.
- by move=> k j; rewrite /one; lra.
- rewrite /update_latent st /latent_normalise.
  have sE : \sum_(n : 'I_2) (R_sqrt.sqrt 5 * (if n == 0%R then / 5 else 8 / 5))%coqR = (R_sqrt.sqrt 5 * (9 / 5))%coqR.
    by rewrite sum2 /=; Rf; lra.
  rewrite ifT; last by apply/forallP => k; rewrite sE; apply/eqP; toR; lra.
  congr Some; apply: functional_extensionality => n; apply: functional_extensionality => k.
  by rewrite sE /Z'; case: ifP => _; Rf; lra.
- by apply: loss_filterE => // n i j; rewrite qE.
- by apply: loss_filterE => // n i j; rewrite qE.
- rewrite /loss_of !sum1 !sum2 !mean1 !aE !qE !g2_loss // /y /Z /Z' /=.
  have l1 : (ln (/ 9) = - (2 * ln 3))%coqR.
    by rewrite ln_Rinv; [have -> : (9 = 3 * 3)%coqR by lra|lra]; rewrite ln_mult; lra.
  have l2 : (ln (8 / 9) = ln 8 - 2 * ln 3)%coqR.
    by rewrite /Rdiv ln_mult ?l1; lra.
  have l3 : (ln (/ 5) = - ln 5)%coqR by rewrite ln_Rinv; lra.
  have l4 : (ln (4 / 5) = ln 4 - ln 5)%coqR by rewrite /Rdiv ln_mult ?l3; lra.
  have h1 : (ln 3 <= 4 / 3)%coqR.
    have -> : (ln 3 = ln (3 / 2) + (ln (3 / 2) + ln (4 / 3)))%coqR.
      by rewrite -!ln_mult; try lra; congr ln; lra.
    have a1 : (ln (3 / 2) <= 3 / 2 - 1)%coqR by apply: ln_sub1; lra.
    have a2 : (ln (4 / 3) <= 4 / 3 - 1)%coqR by apply: ln_sub1; lra.
    lra.
  have h2 : (ln 4 < ln 8)%coqR by apply: ln_increasing; lra.
  have h3 : (ln 3 <= ln 5)%coqR by apply: Rlt_le; apply: ln_increasing; lra.
  have h4 : (ln 3 <= ln 5 + (3 - 5) / 5)%coqR by apply: ln_tangent; lra.
  rewrite l1 l2 l3 l4; toR; lra.
Qed.

(** ** C47: with projection-back normalisation a zero entry in the reference row of the
    mixing estimate makes a filter vanish and the loss infinite. *)
Theorem C47_projection_back_refuted : exists (X : 'I_1 -> 'M[Cx]_(2, 1)) (W W' : 'I_1 -> 'M[Cx]_2)
   (B B' : 'I_2 -> 'I_1 -> 'I_1 -> R) (V : 'I_2 -> 'I_1 -> 'I_1 -> R) l,
  [/\ forall i, W i \in unitmx, norm_pb g2 0 W B = Some (W', B'),
     loss_filter g2 X W (recon B V) = Some l & loss_filter g2 X W' (recon B' V) = None].
Proof.
pose W1 : 'M[Cx]_2 := \matrix_(i, j) (i != j)%:R.
pose X (i : 'I_1) : 'M[Cx]_(2, 1) := const_mx 1.
pose one (n : 'I_2) (i k : 'I_1) : R := 1%coqR.
have WW : W1 *m W1 = 1%:M.
  apply/matrixP => i j; rewrite !mxE !big_ord_recl big_ord0 !mxE addr0 -!natrM -natrD.
  congr (_%:R); move: i j; do 2! case=> [[|[|//]] ?]; by rewrite -!(inj_eq val_inj).
have uW : W1 \in unitmx by have [] := mulmx1_unit WW.
have iW : invmx W1 = W1 by apply: (can_inj (mulKmx uW)); rewrite mulmxV.
pose W (i : 'I_1) := W1.
pose W' (i : 'I_1) := scale_rows (row 0 W1) W1.
exists X, W, W', one.
exists (fun n i k => one n i k * pw (cabs (W1 0 n)) 2), one; eexists; split.
- by move=> i.
- rewrite /norm_pb; have [|S -> hS] := @all_bins_ex 1 _ (fun _ => 0) (fun i => np_inv (W i)) (fun i x => x = W1).
    by move=> i; exists W1 => //; rewrite np_invE // iW.
  have -> : S = fun _ => W1 by apply: functional_extensionality => i; have [] := hS i.
  by [].
- by apply: loss_filterE => // n i j; rewrite /recon sum1 /one; toR; lra.
- rewrite /loss_filter; case: ifP => // /and3P[_ /forallP/(_ 0)]; rewrite /W' scale_rowsE unitmx_mul.
  case/andP => + _ _; rewrite unitmxE det_diag unitfE => /prodf_neq0 /(_ 0 isT).
  by rewrite !mxE eqxx.
Qed.

(** ** C48: the basis is not floored again after the normalisation; the next update floors it.
    The loss recorded after the second iteration is larger than after the first one, for every
    floor [0 < eps <= 1].  One source, one bin, two frames, two bases. *)
Lemma ip1_1w fl (u w : R) : (0 < u)%coqR -> (0 < w)%coqR -> (0 < fl (R_sqrt.sqrt (/ (u * w ^ 2))))%coqR ->
  ip1 fl (fun _ => (c u)%:M) ((c w)%:M : 'M[Cx]_1) =
  Some (c (/ (u * w) / fl (R_sqrt.sqrt (/ (u * w ^ 2))))%coqR)%:M.
Proof.
move=> u0 w0 d0; rewrite /ip1 enum_ordSl enum_ord0 /= /ip1_loop /=.
have inv1 x : (0 < x)%coqR -> invmx ((c x)%:M : 'M[Cx]_1) = (c (/ x)%coqR)%:M.
  by move=> x0; rewrite invmx_scalar RinvE ?cV //; lra.
have iw := inv1 w w0; have iu := inv1 u u0.
have ww0 : (0 < u * w ^ 2)%coqR by apply: Rmult_lt_0_compat => //; exact: pow_lt.
have q1 : ipq ((c u)%:M : 'M[Cx]_1) (c w)%:M ord0 = (/ (u * w ^ 2))%coqR.
  rewrite /ipq iu iw /form mul_scalar_mx ctrZ ctr_delta mul_mx_scalar -!scalemxAl -scalemxAr mul_delta_mx.
  rewrite !mxE !eqxx mulr1 c_conj -!cRM rec; Rf; lra.
have pu : pd ((c u)%:M : 'M[Cx]_1).
  rewrite -scalemx1; apply: pdZ; last exact: pd1.
  exact: c_gt0.
have uw : ((c w)%:M : 'M[Cx]_1) \in unitmx.
  by rewrite unitmxE det_scalar1 unitfE; apply: c_neq0; lra.
rewrite ip1_stepE ?q1 //; last by apply/eqP; toR; lra.
congr Some; apply/matrixP => i j; rewrite !ord1 iu iw !mul_scalar_mx !ctrZ ctr_delta.
rewrite !mxE !eqxx mulr1 mulr1n !c_conj -cV -?RinvE; try lra.
rewrite -!cRM; congr c; Rf; lra.
Qed.
Section Floor.
Variable eps : R.
Hypothesis he : (0 < eps <= 1)%coqR.
Let X (i : 'I_1) : 'M[Cx]_(1, 2) := const_mx (c 8%coqR).
Let Wc (w : R) (i : 'I_1) : 'M[Cx]_1 := (c w)%:M.
Let Bc (b0 b1 : R) (n i : 'I_1) (k : 'I_2) : R := if k == 0 then b0 else b1.
Let Vc (s0 s1 : R) (n : 'I_1) (k j : 'I_2) : R :=
  ((if k == 0%R then if j == 0%R then 32 else 16 else if j == 0%R then 16 else 24) / eps /
   (if j == 0%R then s0 else s1))%coqR.
Notation fl := (max_flooring eps).
Let ie := Rinv_0_lt_compat _ (proj1 he).

Lemma fr_amp w n i j : (0 < w)%coqR -> amp (separate_all X (Wc w)) n i j = (8 * w)%coqR.
Proof.
move=> w0; rewrite /amp /separate_all /separate mul_scalar_mx !mxE -cRM cabs_c Rabs_pos_eq.
  by Rr.
by apply: Rmult_le_pos; lra.
Qed.
Definition fr_q (b0 b1 s0 s1 : R) (j : 'I_2) : R :=
  (if j == 0%R then (32 * b0 + 16 * b1) / eps / s0 else (16 * b0 + 24 * b1) / eps / s1)%coqR.
Lemma fr_recon b0 b1 s0 s1 n i j : recon (Bc b0 b1) (Vc s0 s1) n i j = fr_q b0 b1 s0 s1 j.
Proof. by rewrite /recon sum2 /Bc /Vc /fr_q /=; case: ifP => _; toR; rewrite /Rdiv; Rr. Qed.
Lemma fr_V_gt0 s0 s1 n k j : (0 < s0)%coqR -> (0 < s1)%coqR -> (0 < Vc s0 s1 n k j)%coqR.
Proof.
move=> h0 h1; rewrite /Vc; apply: Rdiv_lt_0_compat; last by case: ifP.
by apply: Rdiv_lt_0_compat; [case: ifP => _; case: ifP => _; lra|lra].
Qed.
(** the basis update when the model is exact *)
Lemma fr_basis w b0 b1 s0 s1 : (0 < w)%coqR -> (0 < s0)%coqR -> (0 < s1)%coqR ->
  (forall j, fr_q b0 b1 s0 s1 j = ((8 * w) ^ 2)%coqR) ->
  update_basis g2 MM fl (separate_all X (Wc w)) (Bc b0 b1) (Vc s0 s1) = Some (Bc (fl b0) (fl b1)).
Proof.
move=> w0 h0 h1 hq; have y0 : (0 < (8 * w) ^ 2)%coqR by apply: pow_lt; lra.
have q0 n i j : recon (Bc b0 b1) (Vc s0 s1) n i j = ((8 * w) ^ 2)%coqR by rewrite fr_recon.
have S0 n k : (0 < Vc s0 s1 n k 0%R + Vc s0 s1 n k 1%R)%coqR.
  by apply: Rplus_lt_0_compat; apply: fr_V_gt0.
have dE n i k : basis_den (Bc b0 b1) (Vc s0 s1) n i k =
    ((Vc s0 s1 n k 0%R + Vc s0 s1 n k 1%R) / (8 * w) ^ 2)%coqR.
  by rewrite /basis_den sum2 !q0; move: (Vc _ _ _ _ _) (Vc _ _ _ _ _) => a b; rewrite /Rdiv; Rr.
have nE n i k : basis_num g2 MM (Bc b0 b1) (Vc s0 s1) (separate_all X (Wc w)) n i k =
    ((Vc s0 s1 n k 0%R + Vc s0 s1 n k 1%R) / (8 * w) ^ 2)%coqR.
  rewrite /basis_num sum2 !q0 !fr_amp // !g2_num // -!RmulE.
  by move: (Vc _ _ _ _ _) (Vc _ _ _ _ _) => a b; Rf; lra.
have D0 n i k : (0 < basis_den (Bc b0 b1) (Vc s0 s1) n i k)%coqR by rewrite dE; apply: Rdiv_lt_0_compat.
rewrite /update_basis nzP ?ifT //; last by move=> n i j; rewrite q0.
  congr Some; apply: functional_extensionality => x; apply: functional_extensionality => x0.
  apply: functional_extensionality => x1.
  have e : (basis_num g2 MM (Bc b0 b1) (Vc s0 s1) (separate_all X (Wc w)) x x0 x1 /
     basis_den (Bc b0 b1) (Vc s0 s1) x x0 x1 = 1)%coqR.
    by rewrite nE -(dE x x0 x1) /Rdiv Rinv_r //; have := D0 x x0 x1; lra.
  rewrite e g2_expo pw_half; last lra.
  by rewrite sqrt_1 Rmult_1_l /Bc; case: ifP.
apply/andP; split=> //; apply/forallP => n; apply/forallP => i; apply/forallP => k.
by apply/eqP; have := D0 n i k; toR; lra.
Qed.
(** the activation update *)
Lemma fr_act w b0 b1 s0 s1 r0 r1 : (0 < w)%coqR -> (0 < b0)%coqR -> (0 < b1)%coqR ->
  (0 < s0)%coqR -> (0 < s1)%coqR ->
  (0 < r0)%coqR -> (0 < r1)%coqR -> (r0 * s0 <= 16)%coqR -> (r1 * s1 <= 16)%coqR ->
  fr_q b0 b1 s0 s1 0 = ((8 * w * r0) ^ 2)%coqR -> fr_q b0 b1 s0 s1 1 = ((8 * w * r1) ^ 2)%coqR ->
  update_activation g2 MM fl (separate_all X (Wc w)) (Bc b0 b1) (Vc s0 s1) = Some (Vc (r0 * s0) (r1 * s1)).
Proof.
move=> w0 hb0 hb1 h0 h1 hr0 hr1 l0 l1 e0 e1.
pose r (j : 'I_2) := if j == 0 then r0 else r1.
have r0' j : (0 < r j)%coqR by rewrite /r; case: ifP.
have qE n i j : recon (Bc b0 b1) (Vc s0 s1) n i j = ((8 * w * r j) ^ 2)%coqR.
  rewrite fr_recon; move: j; case=> [[|[|//]] p].
    by rewrite (_ : Ordinal p = 0) ?e0 //; exact: val_inj.
  by rewrite (_ : Ordinal p = 1) ?e1 //; exact: val_inj.
have q0 n i j : (0 < recon (Bc b0 b1) (Vc s0 s1) n i j)%coqR.
  rewrite qE; apply: pow_lt; apply: Rmult_lt_0_compat => //; lra.
have B0 n i k : (0 < Bc b0 b1 n i k)%coqR by rewrite /Bc; case: ifP.
have D0 n k j : (0 < act_den (Bc b0 b1) (Vc s0 s1) n k j)%coqR.
  by rewrite /act_den sum1; apply: Rdiv_lt_0_compat.
rewrite /update_activation nzP ?ifT //.
  congr Some; apply: functional_extensionality => n; apply: functional_extensionality => k.
  apply: functional_extensionality => j.
  have e : (act_num g2 MM (Bc b0 b1) (Vc s0 s1) (separate_all X (Wc w)) n k j /
     act_den (Bc b0 b1) (Vc s0 s1) n k j = (/ r j) ^ 2)%coqR.
    rewrite /act_num /act_den !sum1 fr_amp // g2_num // qE -RmulE.
    by have := B0 n 0 k; have := r0' j; move: (Bc _ _ _ _ _) (r j) => a b ? ?; Rf; lra.
  have ir := Rinv_0_lt_compat _ (r0' j).
  rewrite e g2_expo pw_half; last exact: pow_lt.
  rewrite sqrt_pow2; last lra.
  have -> : (/ r j * Vc s0 s1 n k j)%coqR = Vc (r0 * s0)%coqR (r1 * s1)%coqR n k j.
    rewrite /Vc /r; case: ifP => _; Rf; lra.
  have le x y : (16 <= x)%coqR -> (0 < y <= 16)%coqR -> (eps <= x / eps / y)%coqR.
    move=> hx [hy hy']; apply: (Rmult_le_reg_r y) => //; apply: (Rmult_le_reg_r eps); first lra.
    have -> : (x / eps / y * y * eps = x)%coqR by Rf; lra.
    have : (eps * y <= 1 * 16)%coqR by apply: Rmult_le_compat; lra.
    have : (eps * y * eps <= eps * y * 1)%coqR.
      by apply: Rmult_le_compat_l; [apply: Rmult_le_pos|]; lra.
    lra.
  rewrite /max_flooring Rmax_left // /Vc.
  have [p0 p1] : (0 < r0 * s0)%coqR /\ (0 < r1 * s1)%coqR by split; apply: Rmult_lt_0_compat.
  by apply: le; case: ifP => _; try case: ifP => _; lra.
apply/andP; split=> //; apply/forallP => n; apply/forallP => k; apply/forallP => j.
by apply/eqP; have := D0 n k j; toR; lra.
Qed.
(** the filter update *)
Lemma fr_ip1 w q u : (0 < w)%coqR -> (forall n i j, (0 < q n i j)%coqR) ->
  u = (32 * (/ q 0%R 0%R 0%R + / q 0%R 0%R 1%R))%coqR -> (u * w ^ 2 <= 1)%coqR ->
  spatial_ip1 g2 fl X (Wc w) q = Some (Wc (/ R_sqrt.sqrt u)%coqR).
Proof.
move=> w0 q0 hu uw.
have u0 : (0 < u)%coqR.
  have := Rinv_0_lt_compat _ (q0 0 0 0); have := Rinv_0_lt_compat _ (q0 0 0 1).
  by rewrite hu; move: (/ _)%coqR (/ _)%coqR => a b *; lra.
have eU i n : wcov (varphi g2 fl (separate_all X (Wc w)) q i) (X i) n = (c u)%:M.
  apply/matrixP => a b; rewrite !ord1 [LHS]mxE [RHS]mxE eqxx mulr1n /meanC.
  rewrite big_ord_recl big_ord_recl big_ord0 lift00 addr0 ![varphi _ _ _ _ _ _ _]mxE !g2_weight //.
  rewrite !mxE !c_conj inv2R -!cRM -cRD -cRM hu; congr c.
  by have := q0 0 0 0; have := q0 0 0 1; move: (q _ _ _) (q _ _ _) => a' b' ? ?; Rf; lra.
have uw0 : (0 < u * w ^ 2)%coqR by apply: Rmult_lt_0_compat => //; exact: pow_lt.
have su := sqrt_lt_R0 _ u0.
have sE : R_sqrt.sqrt (/ (u * w ^ 2)) = (/ (R_sqrt.sqrt u * w))%coqR.
  rewrite sqrt_inv sqrt_mult ?sqrt_pow2 //; try lra.
  by apply: pow_le; lra.
have suw : (R_sqrt.sqrt u * w <= 1)%coqR.
  rewrite -[X in (_ <= X)%coqR]sqrt_1 -(sqrt_pow2 w); last lra.
  by rewrite -sqrt_mult; [apply: sqrt_le_1; lra|lra|apply: pow_le; lra].
have suw0 : (0 < R_sqrt.sqrt u * w)%coqR by exact: Rmult_lt_0_compat.
have i1 : (1 <= / (R_sqrt.sqrt u * w))%coqR.
  by rewrite -[X in (X <= _)%coqR]Rinv_1; apply: Rinv_le_contravar.
have step i : exists2 x, ip1 fl (wcov (varphi g2 fl (separate_all X (Wc w)) q i) (X i)) (Wc w i) = Some x &
   x = (c (/ R_sqrt.sqrt u)%coqR)%:M.
  have -> : ip1 fl (wcov (varphi g2 fl (separate_all X (Wc w)) q i) (X i)) (Wc w i) =
     ip1 fl (fun=> (c u)%:M) (c w)%:M by apply: eq_ip1.
  eexists; first by apply: ip1_1w => //; rewrite sE /max_flooring Rmax_left; lra.
  rewrite sE /max_flooring Rmax_left; last lra.
  congr (c _)%:M; rewrite -{1}(sqrt_sqrt u); last lra.
  by Rf; lra.
rewrite /spatial_ip1 /varphi_ok nzP //= ifT; last first.
  by apply/forallP => n; apply/forallP => i; apply/forallP => j.
have [W' -> hW'] := @all_bins_ex 1 _ (Wc w) _ _ step; congr Some.
by apply: functional_extensionality => i; have [] := hW' i.
Qed.

Lemma fr_W w i : (0 < w)%coqR -> Wc w i \in unitmx.
Proof. by move=> w0; rewrite unitmxE det_scalar1 unitfE; apply: c_neq0; lra. Qed.
Theorem C48_floor_refuted : exists X W0 B0 V0 W1 B1 V1 W2 B2 V2 l1 l2,
  [/\ [/\ forall i, row_free (X i), forall i, W0 i \in unitmx, forall n i k, (eps <= B0 n i k)%coqR &
       forall n k j, (eps <= V0 n k j)%coqR],
     @ilrma_once_ip1 1 1 2 2 g2 MM fl true X (StateW W0 B0 V0) = Some (StateW W1 B1 V1),
     ilrma_once_ip1 g2 MM fl true X (StateW W1 B1 V1) = Some (StateW W2 B2 V2),
     loss_filter g2 X W1 (recon B1 V1) = Some l1 /\ loss_filter g2 X W2 (recon B2 V2) = Some l2 &
     (l1 < l2)%coqR].
Proof.
have ie0 := ie.
have fl_in x : (eps <= x)%coqR -> fl x = x by move=> h; rewrite /max_flooring Rmax_left.
have fl_act x : (x <= eps)%coqR -> fl x = eps by move=> h; rewrite /max_flooring Rmax_right.
have fl0 x : (0 <= x)%coqR -> (0 <= fl x)%coqR by move=> _; apply: Rle_trans (Rmax_r _ _); lra.
have w1 : (0 < 1)%coqR by lra.
have w8 : (0 < / 8)%coqR by lra.
have qa j : fr_q eps (2 * eps) 1 1 j = ((8 * 1) ^ 2)%coqR by rewrite /fr_q; case: ifP => _; Rf; lra.
have qb j : fr_q (eps / 64) (2 * eps / 64) 1 1 j = ((8 * / 8) ^ 2)%coqR by rewrite /fr_q; case: ifP => _; Rf; lra.
(* first iteration *)
have eB0 := fr_basis w1 w1 w1 qa; rewrite !fl_in in eB0; try lra.
have eV0 : update_activation g2 MM fl (separate_all X (Wc 1)) (Bc eps (2 * eps)) (Vc 1 1) = Some (Vc (1 * 1) (1 * 1)).
  by apply: fr_act; try lra; rewrite qa; Rr.
rewrite !Rmult_1_l in eV0.
have q1 n i j : recon (Bc eps (2 * eps)) (Vc 1 1) n i j = 64%coqR by rewrite fr_recon qa; lra.
have eW0 : spatial_ip1 g2 fl X (Wc 1) (recon (Bc eps (2 * eps)) (Vc 1 1)) = Some (Wc (/ R_sqrt.sqrt 1)).
  by apply: fr_ip1 => // *; rewrite ?q1; lra.
rewrite sqrt_1 Rinv_1 in eW0.
have pE n : psi fl (separate_all X (Wc 1)) n = 8%coqR.
  rewrite /psi sum1 sum2 !fr_amp // mul1n inv2R.
  have -> : (/ 2 * ((8 * 1) ^ 2 + (8 * 1) ^ 2) = 8 ^ 2)%coqR by Rf; lra.
  by rewrite sqrt_pow2 ?fl_in; lra.
have eN0 : norm_power g2 fl X (Wc 1) (Bc eps (2 * eps)) = Some (Wc (/ 8), Bc (eps / 64) (2 * eps / 64)).
  rewrite /norm_power /psi_ok /= ifT; last by apply/forallP => n; rewrite pE; apply/eqP; toR; lra.
  congr (Some (_, _)).
    apply: functional_extensionality => i; apply/matrixP => a b.
    rewrite !mxE pE !ord1 eqxx !mulr1n -cV -RinvE; last lra.
    by rewrite -cRM Rmult_1_l.
  do 3 (apply: functional_extensionality => ?); rewrite pE /domain pw_2; last lra.
  by rewrite /Bc; case: ifP => _; congr (_ / _)%coqR; lra.
have it0 : ilrma_once_ip1 g2 MM fl true X (StateW (Wc 1) (Bc eps (2 * eps)) (Vc 1 1)) =
    Some (StateW (Wc (/ 8)) (Bc (eps / 64) (2 * eps / 64)) (Vc 1 1)).
  by rewrite /ilrma_once_ip1 eB0 eV0 eW0 eN0.
(* second iteration *)
have eB1 := fr_basis w8 w1 w1 qb; rewrite !fl_act in eB1; try lra.
set s0 := R_sqrt.sqrt 48; set s1 := R_sqrt.sqrt 40.
have s0p : (0 < s0)%coqR by apply: sqrt_lt_R0; lra.
have s1p : (0 < s1)%coqR by apply: sqrt_lt_R0; lra.
have ss0 : (s0 * s0 = 48)%coqR by rewrite sqrt_sqrt; lra.
have ss1 : (s1 * s1 = 40)%coqR by rewrite sqrt_sqrt; lra.
have eV1 : update_activation g2 MM fl (separate_all X (Wc (/ 8))) (Bc eps eps) (Vc 1 1) = Some (Vc (s0 * 1) (s1 * 1)).
  apply: fr_act; try lra; try nra.
    have -> : ((8 * / 8 * s0) ^ 2 = s0 * s0)%coqR by Rf.
    by rewrite ss0 /fr_q /=; Rf; lra.
  have -> : ((8 * / 8 * s1) ^ 2 = s1 * s1)%coqR by Rf.
  by rewrite ss1 /fr_q /=; Rf; lra.
rewrite !Rmult_1_r in eV1.
have q20 n i : recon (Bc eps eps) (Vc s0 s1) n i 0 = s0.
  by rewrite fr_recon /fr_q /=; apply: (Rmult_eq_reg_r s0); [rewrite ss0; Rf; lra|lra].
have q21 n i : recon (Bc eps eps) (Vc s0 s1) n i 1 = s1.
  by rewrite fr_recon /fr_q /=; apply: (Rmult_eq_reg_r s1); [rewrite ss1; Rf; lra|lra].
have q2 n i j : (0 < recon (Bc eps eps) (Vc s0 s1) n i j)%coqR.
  move: j; case=> [[|[|//]] p].
    by rewrite (_ : Ordinal p = 0) ?q20 //; exact: val_inj.
  by rewrite (_ : Ordinal p = 1) ?q21 //; exact: val_inj.
set u := (32 * (/ s0 + / s1))%coqR.
have i0 := Rinv_0_lt_compat _ s0p; have i1 := Rinv_0_lt_compat _ s1p.
have up : (0 < u)%coqR by rewrite /u; lra.
have [s01 s11] : (1 <= s0)%coqR /\ (1 <= s1)%coqR by split; nra.
have u1 : (u * (/ 8) ^ 2 <= 1)%coqR.
  have a0 : (/ s0 <= / 1)%coqR by apply: Rinv_le_contravar; lra.
  have a1 : (/ s1 <= / 1)%coqR by apply: Rinv_le_contravar; lra.
  by rewrite /u; lra.
have eW1 : spatial_ip1 g2 fl X (Wc (/ 8)) (recon (Bc eps eps) (Vc s0 s1)) = Some (Wc (/ R_sqrt.sqrt u)).
  by apply: fr_ip1 => //; rewrite q20 q21.
have su := sqrt_lt_R0 _ up; have isu := Rinv_0_lt_compat _ su.
have [W2 [B2 eN1]] : exists W2 B2, norm_power g2 fl X (Wc (/ R_sqrt.sqrt u)) (Bc eps eps) = Some (W2, B2).
  rewrite /norm_power; case: ifP => [_|/negP[]]; first by do 2 eexists.
  rewrite /psi_ok /=; apply/forallP => n; apply/eqP; rewrite /psi /max_flooring => h.
  by have := Rmax_r (R_sqrt.sqrt ((1 * 2)%:R^-1 *
    (\sum_i \sum_j (amp (separate_all X (Wc (/ R_sqrt.sqrt u))) n i j ^ 2)%coqR))) eps; rewrite h; toR; lra.
have it1 : ilrma_once_ip1 g2 MM fl true X (StateW (Wc (/ 8)) (Bc (eps / 64) (2 * eps / 64)) (Vc 1 1)) =
    Some (StateW W2 B2 (Vc s0 s1)).
  by rewrite /ilrma_once_ip1 eB1 eV1 eW1 eN1.
have El2' := @loss_filterE 1 1 2 g2 X _ _ isT (fun i => fr_W i isu) q2.
have El2 := C47_power (g2_valid MM) fl0 eN1 El2'.
exists X, (Wc 1), (Bc eps (2 * eps)%coqR), (Vc 1%coqR 1%coqR), (Wc (/ 8)%coqR), (Bc (eps / 64)%coqR (2 * eps / 64)%coqR), (Vc 1%coqR 1%coqR).
exists W2, B2, (Vc s0 s1); do 2 eexists; split; first split.
- move=> i; rewrite /row_free eqn_leq rank_leq_row lt0n mxrank_eq0; apply/eqP => /matrixP/(_ 0 0).
  by rewrite !mxE => /eqP; rewrite c_eq0 => /eqP; toR; lra.
- by move=> i; apply: fr_W.
- by move=> n i k; rewrite /Bc; case: ifP => _; lra.
- move=> n k j; rewrite /Vc; have e1 : (1 <= / eps)%coqR.
    by rewrite -[X in (X <= _)%coqR]Rinv_1; apply: Rinv_le_contravar; lra.
  by case: ifP => _; case: ifP => _; rewrite /Rdiv Rinv_1; lra.
- exact: it0.
- exact: it1.
- split; last exact: El2.
  by apply: loss_filterE => // [i|n i j]; [exact: fr_W|rewrite fr_recon qb; lra].
- rewrite /loss_of !sum1 !mean2 q20 q21 !fr_amp // !fr_recon !qb !g2_loss //; last lra.
  rewrite !det_scalar1 !cabs_c !Rabs_pos_eq; try lra.
  have e1 : ((8 * / 8) ^ 2 = 1)%coqR by Rf; lra.
  rewrite e1 ln_1.
  have e2 : ((8 * / R_sqrt.sqrt u) ^ 2 = 64 * / u)%coqR.
    by rewrite -{2}(sqrt_sqrt u); [Rf|]; lra.
  rewrite e2; rewrite !ln_Rinv //; last lra.
  have e3 : (2 * ln (R_sqrt.sqrt u) = ln u)%coqR.
    by rewrite -{2}(sqrt_sqrt u) ?ln_mult //; lra.
  have e4 : (64 * / u / s0 + 64 * / u / s1 = 2)%coqR by rewrite /u; Rf; lra.
  have e5 : (2 * ln u + ln s0 + ln s1 = ln (u * u * (s0 * s1)))%coqR.
    by rewrite !ln_mult; try lra; apply: Rmult_lt_0_compat.
  have e6 : (u * u * (s0 * s1) = 1024 * (s0 + s1) ^ 2 / (s0 * s1))%coqR by rewrite /u; Rf; lra.
  have e7 : (ln 4096 = 4 * ln 8)%coqR.
    have -> : (4096 = 8 * 8 * (8 * 8))%coqR by lra.
    by rewrite !ln_mult; lra.
  have sn : (0 < (s0 - s1) ^ 2)%coqR.
    have [//|e] := pow2_ge_0 (s0 - s1); exfalso.
    by have : (s0 - s1 = 0)%coqR; [apply: Rsqr_0_uniq; rewrite Rsqr_pow2|nra].
  have e8 : (ln 4096 < ln (u * u * (s0 * s1)))%coqR.
    apply: ln_increasing; first lra.
    rewrite e6; apply: (Rmult_lt_reg_r (s0 * s1)); first exact: Rmult_lt_0_compat.
    have -> : (1024 * (s0 + s1) ^ 2 / (s0 * s1) * (s0 * s1) = 1024 * (s0 + s1) ^ 2)%coqR by Rf; lra.
    by nra.
  toR; lra.
Qed.
End Floor.

(** ** Concrete instances: two sources, two bins, two frames, eps = 1 *)
Lemma i_amp n i j : (1 <= amp (separate_all iXs iWs) n i j)%coqR.
Proof.
rewrite /amp /separate_all /separate /iXs mul_mx_scalar !mxE /=.
have k (m : nat) : cabs (m%:R : Cx) = INR m by rewrite -c_nat cabs_c Rabs_pos_eq //; exact: pos_INR.
have h (m : nat) : (0 < m)%N -> (1 <= INR m)%coqR.
  by move=> m0; have /le_INR : (1 <= m)%coq_nat by apply/ssrnat.leP.
by case: ifP => _; [|case: ifP => _]; rewrite ?mulr1 -?natrM k; apply: h.
Qed.
Definition iB (n i : 'I_2) (k : 'I_1) : R := 1%coqR.
Definition iV (n : 'I_2) (k : 'I_1) (j : 'I_2) : R := 1%coqR.
Lemma ggd_valid : valid (GGD 1 2) MM.
Proof. by split; [|split]; try lra. Qed.
Lemma t_valid : valid (Student 1 2) ME.
Proof. by split; [|split]; try lra. Qed.
Lemma i_inactive n i j : floor_inactive_at (GGD 1 2) (max_flooring 1) (amp (separate_all iXs iWs) n i j).
Proof.
have h := i_amp n i j; split; first lra.
have -> : (2 - 1 = 1)%coqR by lra.
by rewrite pw_1 /max_flooring ?Rmax_left; lra.
Qed.
Example C46_instance :
  (exists B' l l', [/\ update_basis (Student 1 2) ME (max_flooring 1) (separate_all iXs iWs) iB iV = Some B',
    forall n i k, (1 <= B' n i k)%coqR, loss_filter (Student 1 2) iXs iWs (recon iB iV) = Some l,
    loss_filter (Student 1 2) iXs iWs (recon B' iV) = Some l' & (l' <= l)%coqR]) /\
  (exists V' l l', [/\ update_activation g2 MM identity_fl (separate_all iXs iWs) iB iV = Some V',
    forall n k j, (0 < V' n k j)%coqR, loss_filter g2 iXs iWs (recon iB iV) = Some l,
    loss_filter g2 iXs iWs (recon iB V') = Some l' & (l' <= l)%coqR]).
Proof.
split.
- apply: (@C46_basis 2 2 2 1 _ ME 1 iXs iWs) => //; try by move=> *; rewrite /iB /iV; lra.
  exact: iWs_unit.
- apply: (@C46_activation_no_flooring 2 2 2 1 _ MM iXs iWs) => //; try by move=> *; rewrite /iB /iV; lra.
  + exact: iWs_unit.
  + move=> n j; exists 0; apply/eqP => e; have := i_amp n 0 j; rewrite /amp e cabs0; toR; lra.
Qed.
Example C48_instance nrm :
  exists W' B' V' l l', [/\ ilrma_once_ip1 (GGD 1 2) MM (max_flooring 1) nrm iXs (StateW iWs iB iV) = Some (StateW W' B' V'),
    [/\ forall i, W' i \in unitmx, forall n i k, ((if nrm then 0 else 1) <= B' n i k)%coqR &
        forall n k j, (1 <= V' n k j)%coqR],
    loss_filter (GGD 1 2) iXs iWs (recon iB iV) = Some l,
    loss_filter (GGD 1 2) iXs W' (recon B' V') = Some l' & (l' <= l)%coqR].
Proof.
apply: (@C48_ip1 2 2 2 1 _ MM 1 nrm) => //; try by move=> *; rewrite /iB /iV; lra.
- exact: ggd_valid.
- exact: iWs_unit.
- exact: iXs_free.
- exact: i_inactive.
Qed.
Example C47_instance : exists W' B' l, [/\ norm_power g2 identity_fl iXs iWs iB = Some (W', B'),
  loss_filter g2 iXs iWs (recon iB iV) = Some l & loss_filter g2 iXs W' (recon B' iV) = Some l].
Proof.
have p0 n : (0 < psi identity_fl (separate_all iXs iWs) n)%coqR.
  apply: sqrt_lt_R0; apply: Rmult_lt_0_compat.
    by apply/RltP; rewrite invr_gt0 ltr0n.
  have a0 i j : (0 < amp (separate_all iXs iWs) n i j ^ 2)%coqR.
    by apply: pow_lt; have := i_amp n i j; lra.
  apply: (@sumR_gt0 _ _ 0) => [i|]; first by apply: sumR_ge0 => j _; apply: Rlt_le.
  by apply: (@sumR_gt0 _ _ 0) => // j; apply: Rlt_le.
case e: (norm_power g2 identity_fl iXs iWs iB) => [[W' B']|]; last first.
  move: e; rewrite /norm_power; case: ifP => // /negP[]; rewrite /psi_ok /=.
  by apply/forallP => n; apply/eqP; have := p0 n; toR; lra.
have q0 n i j : (0 < recon iB iV n i j)%coqR by rewrite /recon sum1 /iB /iV; toR; lra.
have El := @loss_filterE 2 2 2 g2 iXs iWs (recon iB iV) isT iWs_unit q0.
by exists W', B'; eexists; split; [|exact: El|exact: (C47_power (g2_valid MM) _ e El)].
Qed.
Print Assumptions C46_basis.
Print Assumptions C46_partitioned_activation.
Print Assumptions C47_power_latent.
Print Assumptions C48_run.
Print Assumptions C48_spatial_iss2.
Print Assumptions C48_floor_refuted.
Print Assumptions C49_refuted.
