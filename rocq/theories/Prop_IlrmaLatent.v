(** C47, C83 with partitioning function: the power normalisation of the class without demixing
    filters leaves the loss unchanged; what follows the update of the latent variables never
    increases the loss. *)
From Coq Require Import Reals Lra FunctionalExtensionality.
From mathcomp Require Import all_ssreflect all_algebra.
From mathcomp Require Import ring.
From Verif Require Import RStruct MxC CxR NpLin RealLemmas NmfReal NmfMM Eigh EighProofs.
From Verif Require Import SpatialIP SpatialIPProofs SpatialISS SpatialISSProofs Prop_ISS1 SpatialIP2 SpatialISS2.
From Verif Require Import Scale ScaleProofs AuxIVA AuxIVAProofs AuxIVARun AuxIVACall Prop_AuxIVARun.
From Verif Require Import Ilrma IlrmaReal IlrmaProofs Prop_Ilrma Prop_IlrmaIter IlrmaRun Prop_AuxGain Prop_IlrmaGauge Prop_IlrmaMono.
Import Order.TTheory GRing.Theory Num.Theory.
Set Implicit Arguments.
Unset Strict Implicit.
Unset Printing Implicit Defensive.
Arguments pow : simpl never.
Local Open Scope ring_scope.

Section Latent.
Variables (N F T K : nat) (m : model) (alg : source_alg) (eig : eigh_t) (chol : chol_t).
Notation spec := ('I_F -> 'M[Cx]_(N, T)).
Notation filt := ('I_F -> 'M[Cx]_N).
Notation latent := ('I_N -> 'I_K -> R).
Notation pbasis := ('I_F -> 'I_K -> R).
Notation pactiv := ('I_K -> 'I_T -> R).
Implicit Types (W : filt) (X Y : spec) (Z : latent) (C : pbasis) (A : pactiv).
Hypothesis hm : valid m alg.

(** the model after the normalisation is the old one times the power of the gains *)
Lemma recon_lat_norm fl Y Z C A n i j : (forall x, (0 <= x)%coqR -> (0 <= fl x)%coqR) -> psi_ok fl Y ->
  (forall k, \sum_n (Z n k / pw (psi fl Y n) (domain m))%coqR != 0) ->
  recon_lat (fun n k => (Z n k / pw (psi fl Y n) (domain m) / (\sum_n' (Z n' k / pw (psi fl Y n') (domain m))%coqR)%R)%coqR)
    (fun i k => C i k * \sum_n' (Z n' k / pw (psi fl Y n') (domain m))%coqR) A n i j =
  recon_lat Z C A n i j * pw (cabs ((\row_n (c (psi fl Y n))^-1 : 'rV[Cx]_N) 0%R n)) (domain m).
Proof.
move=> fl0 ok sc; have p0 := psi_gt0 fl0 ok.
rewrite /recon_lat mulr_suml; apply: eq_bigr => k _; rewrite (@psi_scale _ _ _ m) //.
have S0 := sc k; rewrite RdivE; last exact/eqP.
move: (\sum_n' _) S0 => x x0; move: (pw _ _) => y.
by field.
Qed.
Theorem C47_power_latent_output fl X Y Z C A Y' Z' C' l : (forall x, (0 <= x)%coqR -> (0 <= fl x)%coqR) ->
  norm_power_latent_output m fl Y Z C = Some (Y', Z', C') ->
  loss_output m X Y (recon_lat Z C A) = Some l ->
  loss_output m X Y' (recon_lat Z' C' A) = Some l /\ forall k, \sum_n Z' n k = 1.
Proof.
move=> fl0; rewrite /norm_power_latent_output; case h: (_ && _); last by [].
have /andP[ok /forallP sc] := h; case=> <- <- <- hl.
have p0 := psi_gt0 fl0 ok; split; last first.
  by move=> k; rewrite /Rdiv -sumR_mulr Rinv_r //; apply/eqP; exact: sc.
pose s (i : 'I_F) : 'rV[Cx]_N := \row_n (c (psi fl Y n))^-1.
have sn i n : s i 0%R n != 0 by rewrite mxE invr_eq0; apply: c_neq0; have := p0 n; lra.
rewrite -(loss_output_scale hm sn hl); congr loss_output.
- by apply: functional_extensionality => i; rewrite div_rowsE.
- by do 3 (apply: functional_extensionality => ?); rewrite recon_lat_norm.
Qed.

(** ** C83 *)
Notation fl := identity_fl.
Implicit Types (p : part N F T K).
Hypotheses (N0 : (0 < N)%N) (K0 : (0 < K)%N) (F0 : (0 < F)%N) (T0 : (0 < T)%N).
Hypotheses (He : eigh_contract eig) (Hc : chol_contract chol).
Definition positive p := [/\ forall n k, (0 < pt_Z p n k)%coqR, forall i k, (0 < pt_C p i k)%coqR &
  forall k j, (0 < pt_A p k j)%coqR].
Lemma positive_precon p n i j : positive p -> (0 < precon p n i j)%coqR.
Proof. by case=> *; exact: recon_lat_gt0. Qed.
Lemma nz_at (q : 'I_N -> 'I_F -> 'I_T -> R) n i j : nz q -> q n i j <> 0.
Proof. by move/forallP/(_ n)/forallP/(_ i)/forallP/(_ j)/eqP. Qed.
(** latent variables that keep the model finite are positive *)
Lemma update_latent_gt0 Y Z C A Z1 : positive (Part Z C A) -> update_latent m alg Y Z C A = Some Z1 ->
  nz (recon_lat Z1 C A) -> forall n k, (0 < Z1 n k)%coqR.
Proof.
move=> [Z0 C0 A0]; rewrite /update_latent; case e: (latent_step m alg Y Z C A) => [Z2|//].
rewrite /latent_normalise; case sc: [forall k, _] => // -[<-] nz1.
have live n : exists i j, (0 < amp Y n i j)%coqR.
  case: (boolP [exists i, [exists j, Y i n j != 0]]) => [/existsP[i /existsP[j h]]|h].
    by exists i, j; exact: cabs_gt0.
  case: (nz_at (n := n) (i := Ordinal F0) (j := Ordinal T0) nz1); apply: big1 => k _.
  have y0 i j : Y i n j = 0.
    move: h; rewrite negb_exists => /forallP/(_ i); rewrite negb_exists => /forallP/(_ j).
    by rewrite negbK => /eqP.
  move: e; rewrite /latent_step; case: (_ && _); last by [].
  case=> <-; rewrite /latent_num big1 => [|i _]; last by rewrite big1 // => j _; rewrite /amp y0 cabs0 num_cell0 mulr0.
  by rewrite /Rdiv -R0E Rmult_0_l expo0 R0E mul0r -R0E Rmult_0_l R0E mul0r.
have [Z3 [e3 Z30 _]] := @latent_step_descent N F T K m alg hm Y Z C A (fun=> 1%:M) K0 F0 T0 Z0 C0 A0 live.
move: e3; rewrite e => -[e3] n k; rewrite e3; apply: Rdiv_lt_0_compat => //.
by apply: (@sumR_gt0 _ _ (Ordinal N0)) => // n'; exact: Rlt_le.
Qed.
Lemma psource_mono Y W Z C A Z1 p : positive (Part Z C A) -> update_latent m alg Y Z C A = Some Z1 ->
  psource_step m alg fl Y (Part Z C A) = Some p -> nz (precon p) ->
  [/\ positive (Part Z1 C A), positive p & (loss_of m Y W (precon p) <= loss_of m Y W (recon_lat Z1 C A))%coqR].
Proof.
move=> h0 eZ; have [Z0 C0 A0] := h0; rewrite /psource_step eZ.
case eC: (update_pbasis _ _ _ _ _ _ _) => [C1|//]; case eA: (update_pactivation _ _ _ _ _ _ _) => [A1|//] [<-] nz3.
have nz1 : nz (recon_lat Z1 C A) by move: eC; rewrite /update_pbasis; case: (nz _).
have nz2 : nz (recon_lat Z1 C1 A) by move: eA; rewrite /update_pactivation; case: (nz _).
have Z10 := update_latent_gt0 h0 eZ nz1.
have lC i : exists n j, (0 < amp Y n i j)%coqR.
  case: (boolP [exists n, [exists j, Y i n j != 0]]) => [/existsP[n /existsP[j h]]|h].
    by exists n, j; exact: cabs_gt0.
  case: (nz_at (n := Ordinal N0) (i := i) (j := Ordinal T0) nz2); apply: big1 => k _.
  have y0 n j : Y i n j = 0.
    move: h; rewrite negb_exists => /forallP/(_ n); rewrite negb_exists => /forallP/(_ j).
    by rewrite negbK => /eqP.
  move: eC; rewrite /update_pbasis; case: (_ && _); last by [].
  case=> <-; rewrite /pbasis_num big1 => [|n _]; last by rewrite big1 // => j _; rewrite /amp y0 cabs0 num_cell0 mulr0.
  by rewrite /Rdiv -R0E Rmult_0_l expo0 /identity_fl Rmult_0_l R0E mul0r mulr0.
have lA j : exists n i, (0 < amp Y n i j)%coqR.
  case: (boolP [exists n, [exists i, Y i n j != 0]]) => [/existsP[n /existsP[i h]]|h].
    by exists n, i; exact: cabs_gt0.
  case: (nz_at (n := Ordinal N0) (i := Ordinal F0) (j := j) nz3); apply: big1 => k _.
  have y0 n i : Y i n j = 0.
    move: h; rewrite negb_exists => /forallP/(_ n); rewrite negb_exists => /forallP/(_ i).
    by rewrite negbK => /eqP.
  move: eA; rewrite /update_pactivation; case: (_ && _); last by [].
  case=> <-; cbv [pt_A pt_Z pt_C]; rewrite /pact_num big1 => [|n _]; last by rewrite big1 // => i _; rewrite /amp y0 cabs0 num_cell0 mulr0.
  by rewrite /Rdiv -R0E Rmult_0_l expo0 /identity_fl Rmult_0_l R0E !mulr0.
have [||C' [e C'0 _ le]] := @pbasis_step N F T K m alg 0 _ hm id_fl Y Z1 C A W K0 N0 T0 Z10 C0 A0.
- by move=> *; lra.
- by right.
move: e; rewrite eC => -[e]; rewrite -{}e in C'0 le.
have [||A' [e A'0 _ le']] := @pactivation_step N F T K m alg 0 _ hm id_fl Y Z1 C1 A W K0 N0 F0 Z10 C'0 A0.
- by move=> *; lra.
- by right.
move: e; rewrite eA => -[e]; rewrite -{}e in A'0 le'.
by split=> //; apply: Rle_trans le' le.
Qed.
(** what follows the update of the latent variables in an iteration never increases the loss,
    whatever the spatial algorithm and the normalisation *)
Theorem C83_partitioned_filter a o X W Z C A Z1 W' p' l1 l' : distinct_f a -> (forall i, row_free (X i)) ->
  (forall i, W i \in unitmx) -> positive (Part Z C A) ->
  update_latent m alg (separate_all X W) Z C A = Some Z1 -> loss_filter m X W (recon_lat Z1 C A) = Some l1 ->
  ponce_f m alg fl eig chol a o X (W, Part Z C A) = Some (W', p') -> loss_filter m X W' (precon p') = Some l' ->
  (l' <= l1)%coqR.
Proof.
move=> ds fX uW h0 eZ el; rewrite /ponce_f [(_, _).1]/= [(_, _).2]/=.
case ep: (psource_step _ _ _ _ _) => [p|//]; case es: (spatial_f _ _ _ _ _ _ _ _) => [W1|//] en el'.
have q0 : nz (precon p) -> forall n i j, (0 < precon p n i j)%coqR.
  by move=> h; have [_ hp _] := psource_mono W h0 eZ ep h => n i j; exact: positive_precon.
have [nzq uW1 [l2 [l3 [e1 e2 le2]]]] := spatial_f_mono hm T0 He Hc ds fX uW q0 es.
have [h1 hp le1] := psource_mono W h0 eZ ep nzq.
have e3 : l' = l3.
  suff : loss_filter m X W' (precon p') = Some l3 by rewrite el' => -[].
  case: o en => [||r] //; first by case=> <- <-.
  rewrite /pnorm_f; case n: (norm_power_latent _ _ _ _ _ _) => [[[W2 Z2] C2]|//] [<- <-].
  by have [] := C47_power_latent (A := pt_A p) hm (fun x h => h) n e2.
rewrite e3; apply: Rle_trans le2 _.
move: e1; rewrite loss_filterE // => [[<-]|]; last exact: q0.
move: el; rewrite loss_filterE // => [[<-] //|n i j]; exact: (positive_precon (p := Part Z1 C A)).
Qed.
Theorem C83_partitioned_output a o X Y Z C A Z1 Y' p' l1 l' : distinct_o a -> (forall i, row_free (X i)) ->
  separated X Y -> positive (Part Z C A) ->
  update_latent m alg Y Z C A = Some Z1 -> loss_output m X Y (recon_lat Z1 C A) = Some l1 ->
  ponce_o m alg fl eig chol a o (Y, Part Z C A) = Some (Y', p') -> loss_output m X Y' (precon p') = Some l' ->
  (l' <= l1)%coqR.
Proof.
move=> ds fX sY h0 eZ el; rewrite /ponce_o [(_, _).1]/= [(_, _).2]/=.
case ep: (psource_step _ _ _ _ _) => [p|//]; case es: (spatial_o _ _ _ _ _ _ _) => [Y1|//] en el'.
have [W uW eY] := sY.
have q0 : nz (precon p) -> forall n i j, (0 < precon p n i j)%coqR.
  by move=> h; have [_ hp _] := psource_mono W h0 eZ ep h => n i j; exact: positive_precon.
have [nzq sY1 [l2 [l3 [e1 e2 le2]]]] := spatial_o_mono hm T0 He Hc ds fX sY q0 es.
have [h1 hp le1] := psource_mono W h0 eZ ep nzq.
have e3 : l' = l3.
  suff : loss_output m X Y' (precon p') = Some l3 by rewrite el' => -[].
  case: o en => [||r] //; first by case=> <- <-.
  rewrite /pnorm_o; case n: (norm_power_latent_output _ _ _ _ _) => [[[Y2 Z2] C2]|//] [<- <-].
  by have [] := C47_power_latent_output (A := pt_A p) (fun x h => h) n e2.
rewrite e3; apply: Rle_trans le2 _.
move: e1; rewrite (loss_outputE m T0 uW fX eY (q0 nzq)) => -[<-].
by move: el; rewrite (loss_outputE m T0 uW fX eY) => [[<-] //|n i j]; exact: (positive_precon (p := Part Z1 C A)).
Qed.
End Latent.

(** identity filters on two orthogonal sources, one basis shared equally, all variances four
    instead of one: the iteration lowers the loss *)
Section Instance.
Variables (eig : eigh_t) (chol : chol_t).
Notation G := (Gauss 2%coqR).
Notation fl := identity_fl.
Let h2 : 'I_2 -> 'I_1 -> R := fun _ _ => (/ 2)%coqR.
Let cst (x : R) : 'I_2 -> 'I_1 -> R := fun _ _ => x.
Let on : 'I_1 -> 'I_2 -> R := fun _ _ => 1%coqR.
Let W1 : 'I_2 -> 'M[Cx]_2 := st_W (st 1).
Let Y := separate_all Xe W1.
Lemma qE x : recon_lat h2 (cst x) on = fun _ _ _ => (x / 2)%coqR.
Proof.
do 3 (apply: functional_extensionality => ?); rewrite /recon_lat big_ord_recl big_ord0 /h2 /cst /on addr0.
by toR; lra.
Qed.
Lemma nzq (q : 'I_2 -> 'I_2 -> 'I_2 -> R) : (forall n i j, q n i j <> 0%coqR) -> nz q.
Proof. by move=> h; apply/forallP => n; apply/forallP => i; apply/forallP => j; apply/eqP/h. Qed.
Lemma ncell x : (0 < x)%coqR -> num_cell G ME 1%R x = (/ x ^ 2)%coqR.
Proof. by move=> x0; rewrite /num_cell -R1E; Rf; lra. Qed.
Lemma latent_one : update_latent G ME Y h2 (cst 8) on = Some h2.
Proof.
have d n k : latent_den h2 (cst 8) on n k = 8%coqR.
  rewrite /latent_den qE; under eq_bigr do rewrite sum2; rewrite sum2 /cst /on; toR; lra.
have n4 : num_cell G ME 1%R (8 / 2)%coqR = (/ 16)%coqR by rewrite ncell; lra.
have u n k : latent_num G ME h2 (cst 8) on Y n k = 2%coqR.
  rewrite /latent_num qE; under eq_bigr do under eq_bigr do rewrite amp_hada n4.
  by rewrite !sum2 /cst /on; toR; lra.
rewrite /update_latent /latent_step qE nzq => [|n i j]; last by lra.
rewrite ifT; last by apply/forallP => n; apply/forallP => k; rewrite d; apply/eqP; toR; lra.
rewrite /latent_normalise.
have e n k : pw (latent_num G ME h2 (cst 8) on Y n k / latent_den h2 (cst 8) on n k) (expo G ME) * h2 n k = (/ 8)%coqR.
  by rewrite d u /expo pw_1 /h2; toR; lra.
rewrite ifT; last by apply/forallP => k; rewrite sum2 !e; apply/eqP; toR; lra.
by congr Some; do 2 (apply: functional_extensionality => ?); rewrite sum2 !e /h2; toR; Rf.
Qed.
Lemma pbasis_one : update_pbasis G ME fl Y h2 (cst 8) on = Some (cst 2).
Proof.
have d i k : pbasis_den h2 (cst 8) on i k = (/ 2)%coqR.
  rewrite /pbasis_den qE; under eq_bigr do rewrite sum2; rewrite sum2 /h2 /on; toR; lra.
have n4 : num_cell G ME 1%R (8 / 2)%coqR = (/ 16)%coqR by rewrite ncell; lra.
have u i k : pbasis_num G ME h2 (cst 8) on Y i k = (/ 8)%coqR.
  rewrite /pbasis_num qE; under eq_bigr do under eq_bigr do rewrite amp_hada n4.
  by rewrite !sum2 /h2 /on; toR; lra.
rewrite /update_pbasis qE nzq => [|n i j]; last by lra.
rewrite ifT; last by apply/forallP => i; apply/forallP => k; rewrite d; apply/eqP; toR; lra.
congr Some; do 2 (apply: functional_extensionality => ?); rewrite d u /expo pw_1 /identity_fl /cst; lra.
Qed.
Lemma pact_one : update_pactivation G ME fl Y h2 (cst 2) on = Some on.
Proof.
have d k j : pact_den h2 (cst 2) on k j = 4%coqR.
  rewrite /pact_den qE; under eq_bigr do rewrite sum2; rewrite sum2 /h2 /cst; toR; lra.
have n4 : num_cell G ME 1%R (2 / 2)%coqR = 1%coqR by rewrite ncell; lra.
have u k j : pact_num G ME h2 (cst 2) on Y k j = 4%coqR.
  rewrite /pact_num qE; under eq_bigr do under eq_bigr do rewrite amp_hada n4.
  by rewrite !sum2 /h2 /cst; toR; lra.
rewrite /update_pactivation qE nzq => [|n i j]; last by lra.
rewrite ifT; last by apply/forallP => k; apply/forallP => j; rewrite d; apply/eqP; toR; lra.
congr Some; do 2 (apply: functional_extensionality => ?); rewrite d u /expo pw_1 /identity_fl /on; lra.
Qed.
Lemma spatial_one : spatial_ip1 G fl Xe W1 (fun _ _ _ => 1%coqR) = Some W1.
Proof.
have fx := fixed_one eig chol; move: fx.
change (IlrmaRun.once_f G ME fl eig chol (FIP1 2) NoNorm Xe (st 1)) with
  (if source_step G ME fl (separate_all Xe (st_W (st 1))) (st_B (st 1)) (st_V (st 1)) is Some (B1, V1) then
    if spatial_ip1 G fl Xe (st_W (st 1)) (recon B1 V1) is Some W1 then Some (StateW W1 B1 V1) else None else None).
case: source_step => [[B1 V1]|//]; case e: spatial_ip1 => [W2|//] [e1 e2 e3].
move: e; rewrite e1 e2 e3 -/W1 => <-; congr spatial_ip1.
by do 3 (apply: functional_extensionality => ?); rewrite recon_one.
Qed.
Example C83_partitioned_instance : exists l1 l', [/\ update_latent G ME Y h2 (cst 8) on = Some h2,
  loss_filter G Xe W1 (recon_lat h2 (cst 8) on) = Some l1,
  ponce_f G ME fl eig chol (FIP1 2) NoNorm Xe (W1, Part h2 (cst 8) on) = Some (W1, Part h2 (cst 2) on),
  loss_filter G Xe W1 (precon (Part h2 (cst 2) on)) = Some l' & (l' < l1)%coqR].
Proof.
have eW i : W1 i = 1%:M by rewrite /W1 -[st_W _ _]/(c 1%coqR *: 1%:M) [c _]c1 scale1r.
have E (b : R) : recon (K := 1) (fun _ _ _ => b) (fun _ _ _ => 1%coqR) = fun (_ : 'I_2) (_ : 'I_2) (_ : 'I_2) => b.
  do 3 (apply: functional_extensionality => ?).
  by rewrite /recon big_ord_recl big_ord0 /= addr0; toR; lra.
exists (4 * (/ 4 + ln 4))%coqR, (4 * (/ 1 + ln 1))%coqR; split; first exact: latent_one.
- rewrite qE; have -> : (8 / 2 = 4)%coqR by lra.
  by rewrite -E loss_const //; lra.
- rewrite -[LHS]/(if psource_step G ME fl Y (Part h2 (cst 8) on) is Some p then
    if spatial_f G fl eig chol (FIP1 2) Xe W1 (precon p) is Some W2 then Some (W2, p) else None else None).
  rewrite /psource_step latent_one pbasis_one pact_one.
  rewrite /omap /obind /oapp /precon [pt_Z _]/= [pt_C _]/= [pt_A _]/= qE.
  have -> : (2 / 2 = 1)%coqR by lra.
  by rewrite /spatial_f spatial_one.
- rewrite /precon [pt_Z _]/= [pt_C _]/= [pt_A _]/= qE; have -> : (2 / 2 = 1)%coqR by lra.
  by rewrite -E loss_const //; lra.
- rewrite ln_1.
  have : (ln (exp (3 / 4)) < ln 4)%coqR.
    apply: ln_increasing; first exact: exp_pos.
    by have := exp_increasing (3 / 4) 1; have := exp_le_3; lra.
  by rewrite ln_exp; lra.
Qed.
End Instance.
