(** C87: GaussMNMF without flooring: the normalisation to unit trace changes neither the recorded
    losses nor the returned signals; a call follows a mixing of the recording and the gain of
    every bin. *)
From Coq Require Import Reals Lra FunctionalExtensionality.
From mathcomp Require Import all_ssreflect all_fingroup all_algebra.
From mathcomp Require Import ring.
From Verif Require Import RStruct MxC CxR NpLin RealLemmas NmfReal NmfMM Eigh EighProofs Prop_Linalg TraceMM.
From Verif Require Import SpatialIP SpatialISS SpatialIP2 Scale ScaleProofs AuxIVA AuxIVAProofs AuxIVARun AuxIVACall Prop_AuxIVA Prop_AuxIVAFloor Prop_AuxIVARun.
From Verif Require Import Ilrma IlrmaProofs Mnmf MnmfMM MnmfGauss Prop_Mnmf Prop_MnmfGauss Prop_MnmfRun Prop_AuxGain Prop_IlrmaGauge Prop_MnmfGauge GaussRun Prop_GaussRun.
Import Order.TTheory GRing.Theory Num.Theory.
Set Implicit Arguments.
Unset Strict Implicit.
Unset Printing Implicit Defensive.
Arguments pow : simpl never.
Local Open Scope ring_scope.

Section Gauge.
Variables (N M F T K : nat) (eig : eigh_t) (chol : chol_t).
Notation spec := ('I_F -> 'M[Cx]_(M, T)).
Notation mixes := ('I_F -> 'M[Cx]_M).
Notation cells := ('I_N -> 'I_F -> 'I_T -> R).
Notation basis := ('I_N -> 'I_F -> 'I_K -> R).
Notation activ := ('I_N -> 'I_K -> 'I_T -> R).
Notation spat := ('I_N -> 'I_F -> 'M[Cx]_M).
Notation levels := ('I_N -> 'I_F -> R).
Notation state := (gauss_state N M F T K).
Notation fl := identity_fl.
Notation images := ('I_N -> 'I_F -> 'I_T -> Cx).
Implicit Types (A : mixes) (X : spec) (B : basis) (V : activ) (L : cells) (H : spat) (v w : levels) (s : state).
Hypotheses (N0 : (0 < N)%N) (M0 : (0 < M)%N) (F0 : (0 < F)%N) (T0 : (0 < T)%N) (K0 : (0 < K)%N).
Hypotheses (He : eigh_contract eig) (Hc : chol_strict chol).
Notation cov := (inst_cov fl eig).
Notation core := (gauss_once fl eig chol false).

(** recording mixed by [A]: spatial covariances mixed likewise; [v] moves level between bases and
    spatial covariances *)
Definition gH A v H : spat := fun n i => c (/ v n i)%coqR *: (A i *m H n i *m (A i)^H).
Definition gG A v s : state := GaussState (gH A v (gs_H s)) (gBv v (gs_B s)) (gs_V s).

Section One.
Variables (A : mixes) (v : levels).
Hypotheses (uA : forall i, A i \in unitmx) (v0 : pos_levels v).
Let iv n i : (0 < / v n i)%coqR. Proof. exact: Rinv_0_lt_compat. Qed.
Let uAH i : (A i)^H \in unitmx. Proof. by rewrite ctr_unit. Qed.

Lemma gH_pd H : (forall n i, pd (H n i)) -> forall n i, pd (gH A v H n i).
Proof.
move=> pH n i; apply: pdZ; first exact: c_gt0.
by have := pd_congr_unit (pH n i) (uAH i); rewrite ctrK.
Qed.
Lemma gG_proper s : gproper s -> gproper (gG A v s).
Proof.
case=> pH B0 V0; split=> //=; first exact: gH_pd.
by move=> n i k; apply: Rmult_lt_0_compat.
Qed.
Lemma audible_mixed X : audible X -> audible (mixed A X).
Proof.
have h i j : col j (X i) != 0 -> col j (mixed A X i) != 0.
  move=> h; apply/eqP => e; case/eqP: h.
  have : invmx (A i) *m col j (mixed A X i) = 0 by rewrite e mulmx0.
  by rewrite colE /mixed -!mulmxA mulKmx // -colE.
by case=> a b; split=> [i|j]; [have [j ?] := a i; exists j|have [i ?] := b j; exists i]; exact: h.
Qed.
Lemma cov_mixed X i j : cov (mixed A X) i j = A i *m cov X i j *m (A i)^H.
Proof. by rewrite !inst_covE // /mixed !colE ctrM !ctrM -!mulmxA. Qed.
Lemma rmodel_g L H i j : rmodel (gL v L) (gH A v H) i j = A i *m rmodel L H i j *m (A i)^H.
Proof.
rewrite /rmodel mulmx_sumr mulmx_suml; apply: eq_bigr => n _.
rewrite /gH /gL scalerA -cM -!scalemxAr -!scalemxAl; congr (c _ *: _).
by have := v0 n i; move: (L n i j) (v n i) => x y y0; toR; Rf; lra.
Qed.
Lemma inv_cong i (P : 'M[Cx]_M) : P \in unitmx ->
  invmx (A i *m P *m (A i)^H) = invmx (A i)^H *m invmx P *m invmx (A i).
Proof. by move=> uP; rewrite !invmx_mul ?unitmx_mul ?uA // mulmxA. Qed.

Section Pos.
Variables (H : spat) (L : cells).
Hypotheses (pH : forall n i, pd (H n i)) (L0 : forall n i j, (0 < L n i j)%coqR).
Let pR i j : pd (rmodel L H i j). Proof. exact: rmodel_pd. Qed.
Let gL0 n i j : (0 < gL v L n i j)%coqR. Proof. exact: Rmult_lt_0_compat. Qed.
Lemma rpsdE i j : rpsd fl eig L H i j = rmodel L H i j.
Proof. by apply: inactE; exact: id_inact. Qed.
Lemma rpsd_g i j : rpsd fl eig (gL v L) (gH A v H) i j = A i *m rmodel L H i j *m (A i)^H.
Proof. by rewrite inactE ?rmodel_g //; apply: id_inact => //; exact: gH_pd. Qed.
Lemma rpsd_unit_g : rpsd_unit fl eig (gL v L) (gH A v H) = rpsd_unit fl eig L H.
Proof.
by apply: eq_forallb => i; apply: eq_forallb => j; rewrite rpsd_g rpsdE !unitmx_mul uA uAH andbT.
Qed.
Lemma tr_RXXRH_g X n i j : tr_RXXRH fl eig (cov (mixed A X)) (gL v L) (gH A v H) n i j =
  (tr_RXXRH fl eig (cov X) L H n i j * / v n i)%coqR.
Proof.
rewrite /tr_RXXRH rpsd_g rpsdE inv_cong ?pd_unit // cov_mixed /gH -!scalemxAr -![re _]/(rtr _) rtrZ RmulE mulrC; congr (_ * _).
rewrite -!mulmxA rtrC -!mulmxA; do ?(rewrite mulKmx //); do ?(rewrite mulKVmx //).
by rewrite mulmxV // mulmx1.
Qed.
Lemma tr_RH_g n i j : tr_RH fl eig (gL v L) (gH A v H) n i j = (tr_RH fl eig L H n i j * / v n i)%coqR.
Proof.
rewrite /tr_RH rpsd_g rpsdE inv_cong ?pd_unit // /gH -!scalemxAr -![re _]/(rtr _) rtrZ RmulE mulrC; congr (_ * _).
rewrite -!mulmxA rtrC -!mulmxA; do ?(rewrite mulKmx //); do ?(rewrite mulKVmx //).
by rewrite mulmxV // mulmx1.
Qed.
Lemma gauss_loss_g X : gauss_loss fl eig (cov (mixed A X)) (gL v L) (gH A v H) =
  omap (fun l => l + shift A) (gauss_loss fl eig (cov X) L H).
Proof.
rewrite /gauss_loss rpsd_unit_g; case hc: (_ && _); last by [].
have /andP[T1 _] := hc; congr Some; rewrite /shift -big_split /=; apply: eq_bigr => i _.
have cE j : re (\tr (invmx (rpsd fl eig (gL v L) (gH A v H) i j) *m cov (mixed A X) i j)) +
     ln (cabs (\det (rpsd fl eig (gL v L) (gH A v H) i j))) =
   re (\tr (invmx (rpsd fl eig L H i j) *m cov X i j)) + ln (cabs (\det (rpsd fl eig L H i j))) + (2 * ln (cabs (\det (A i))))%coqR.
  rewrite rpsd_g rpsdE inv_cong ?pd_unit // cov_mixed -!mulmxA -![re _]/(rtr _) rtrC -!mulmxA.
  do ?(rewrite mulKmx //); do ?(rewrite mulKVmx //); rewrite mulmxV // mulmx1 -[RHS]addrA; congr (_ + _).
  rewrite !det_mulmx det_ctr !cabsM cabs_conj.
  have d0 (U : 'M[Cx]_M) : U \in unitmx -> (0 < cabs (\det U))%coqR by move=> u; apply: cabs_gt0; rewrite -unitfE -unitmxE.
  have := d0 _ (uA i); have := d0 _ (pd_unit (pR i j)); move: (cabs _) (cabs _) => x y x0 y0.
  by rewrite -!RmulE !ln_mult //; [toR; lra|exact: Rmult_lt_0_compat].
by rewrite (eq_meanR cE) meanRD meanR_const ?lt0n.
Qed.
Lemma ric_P_g n i : ric_P (gL v L) (gH A v H) n i = c (v n i) *: (invmx (A i)^H *m ric_P L H n i *m invmx (A i)).
Proof.
rewrite /ric_P mulmx_sumr mulmx_suml scaler_sumr; apply: eq_bigr => j _.
rewrite -[\sum_m _]/(rmodel (gL v L) (gH A v H) i j) rmodel_g inv_cong ?pd_unit //.
by rewrite -!scalemxAr -!scalemxAl scalerA -cM /gL mulrC.
Qed.
Lemma ric_Q_g X n i : ric_Q (cov (mixed A X)) (gL v L) (gH A v H) n i =
  c (v n i) *: (invmx (A i)^H *m ric_Q (cov X) L H n i *m invmx (A i)).
Proof.
rewrite /ric_Q mulmx_sumr mulmx_suml scaler_sumr; apply: eq_bigr => j _.
rewrite -[\sum_m _]/(rmodel (gL v L) (gH A v H) i j) rmodel_g inv_cong ?pd_unit // cov_mixed.
rewrite -!scalemxAr -!scalemxAl scalerA -cM /gL [v n i * _]mulrC; congr (_ *: _).
by rewrite -!mulmxA; do ?(rewrite mulKmx //); do ?(rewrite mulKVmx //).
Qed.
Lemma spatial_g X H1 : gauss_spatial fl eig chol (cov X) L H = Some H1 ->
  gauss_spatial fl eig chol (cov (mixed A X)) (gL v L) (gH A v H) = Some (gH A v H1).
Proof.
move=> e; have pQ := spatial_some He Hc (inst_psd He X) pH e; have [Hc1 _] := Hc.
have [H2 [e2 pH2 hH2]] := C53_riccati_no_flooring He Hc1 N0 T0 pH L0 pQ.
move: e2; rewrite e => -[E]; rewrite -{H2}E in pH2 hH2 *.
have pQ' n i : pd (ric_Q (cov (mixed A X)) (gL v L) (gH A v H) n i).
  rewrite ric_Q_g; apply: pdZ; first exact: c_gt0.
  by rewrite -ctr_inv; apply: pd_congr_unit => //; rewrite unitmx_inv.
have [H3 [e3 pH3 hH3]] := C53_riccati_no_flooring He Hc1 N0 T0 (gH_pd pH) gL0 pQ'.
rewrite e3; congr Some; apply: functional_extensionality => n; apply: functional_extensionality => i.
have pP : pd (ric_P (gL v L) (gH A v H) n i).
  by have := sp_P_pd T0 n i gL0 (id_inact He _ (gH_pd pH)) (fun i j => rmodel_pd i j N0 gL0 (gH_pd pH)); rewrite (ric_PE _ _ (id_inact He _ (gH_pd pH))).
apply: (riccati_uniq pP) => //; first exact: gH_pd.
rewrite hH3 ric_P_g ric_Q_g /gH -!scalemxAr -!scalemxAl -?scalemxAr -?scalemxAl !scalerA; congr (_ *: _).
by rewrite -!mulmxA; do ?(rewrite mulKmx //); do ?(rewrite mulKVmx //); congr (_ *m _); rewrite !mulmxA hH2.
Qed.
End Pos.

Lemma basis_g X H B V : (forall n i, pd (H n i)) -> (forall n i k, (0 < B n i k)%coqR) -> (forall n k j, (0 < V n k j)%coqR) ->
  gauss_basis fl eig (cov (mixed A X)) (gH A v H) (gBv v B) V = omap (gBv v) (gauss_basis fl eig (cov X) H B V).
Proof.
move=> pH B0 V0; have L0 n i j : (0 < recon B V n i j)%coqR by exact: recon_gt0.
have nE n i k : gb_num fl eig (cov (mixed A X)) (gH A v H) (gBv v B) V n i k = (gb_num fl eig (cov X) H B V n i k * / v n i)%coqR.
  rewrite /gb_num RmulE mulr_suml; apply: eq_bigr => j _; rewrite recon_gBv tr_RXXRH_g // RmulE mulrA //.
have dE n i k : gb_den fl eig (gH A v H) (gBv v B) V n i k = (gb_den fl eig H B V n i k * / v n i)%coqR.
  rewrite /gb_den RmulE mulr_suml; apply: eq_bigr => j _; rewrite recon_gBv tr_RH_g // RmulE mulrA //.
rewrite /gauss_basis recon_gBv rpsd_unit_g //.
have -> : [forall n, [forall i, [forall k, ratio_ok (gb_num fl eig (cov (mixed A X)) (gH A v H) (gBv v B) V n i k)
      (gb_den fl eig (gH A v H) (gBv v B) V n i k)]]] =
    [forall n, [forall i, [forall k, ratio_ok (gb_num fl eig (cov X) H B V n i k) (gb_den fl eig H B V n i k)]]].
  by do 3 (apply: eq_forallb => ?); rewrite nE dE ratio_ok_scale.
case: (_ && _); last by [].
congr Some; do 3 (apply: functional_extensionality => ?); rewrite nE dE ratio_scale //.
by rewrite /identity_fl /gBv mulrAC.
Qed.
Lemma activation_g X H B V : (forall n i, pd (H n i)) -> (forall n i k, (0 < B n i k)%coqR) -> (forall n k j, (0 < V n k j)%coqR) ->
  gauss_activation fl eig (cov (mixed A X)) (gH A v H) (gBv v B) V = gauss_activation fl eig (cov X) H B V.
Proof.
move=> pH B0 V0; have L0 n i j : (0 < recon B V n i j)%coqR by exact: recon_gt0.
have z n i (x y : R) : (x * v n i * (y * / v n i) = x * y)%coqR by have := v0 n i => ?; Rf; lra.
have nE n k j : ga_num fl eig (cov (mixed A X)) (gH A v H) (gBv v B) V n k j = ga_num fl eig (cov X) H B V n k j.
  by apply: eq_bigr => i _; rewrite recon_gBv tr_RXXRH_g // /gBv -!RmulE z.
have dE n k j : ga_den fl eig (gH A v H) (gBv v B) V n k j = ga_den fl eig H B V n k j.
  by apply: eq_bigr => i _; rewrite recon_gBv tr_RH_g // /gBv -!RmulE z.
rewrite /gauss_activation recon_gBv rpsd_unit_g //.
have -> : [forall n, [forall k, [forall j, ratio_ok (ga_num fl eig (cov (mixed A X)) (gH A v H) (gBv v B) V n k j)
      (ga_den fl eig (gH A v H) (gBv v B) V n k j)]]] =
    [forall n, [forall k, [forall j, ratio_ok (ga_num fl eig (cov X) H B V n k j) (ga_den fl eig H B V n k j)]]].
  by do 3 (apply: eq_forallb => ?); rewrite nE dE.
case: (_ && _); last by [].
by congr Some; do 3 (apply: functional_extensionality => ?); rewrite nE dE.
Qed.
Lemma core_mixed X s s1 : audible X -> gproper s -> core (cov X) s = Some s1 ->
  core (cov (mixed A X)) (gG A v s) = Some (gG A v s1).
Proof.
case: s => H B V aX [/= pH B0 V0].
have [B1 [_ [_ [eB B10 _ _ _]]]] := C64_basis_no_flooring He N0 M0 T0 K0 (inst_psd He X) pH (audible_bins He aX) B0 V0.
have [V1 [_ [_ [eV V10 _ _ _]]]] := C64_activation_no_flooring He N0 M0 T0 K0 (inst_psd He X) F0 pH (audible_frames He aX) B10 V0.
have R0 n i j : (0 < recon B1 V1 n i j)%coqR by exact: recon_gt0.
rewrite /gauss_once /gG [gs_H _]/= [gs_B _]/= [gs_V _]/= basis_g // eB.
change (omap (gBv v) (Some B1)) with (Some (gBv v B1)); cbv iota; rewrite activation_g // eV recon_gBv.
case eS: (gauss_spatial _ _ _ _ _ _) => [H1|//] [<-].
by rewrite (spatial_g pH R0 eS).
Qed.
Lemma loss_mixed X s : gproper s -> mnmf_loss fl eig (cov (mixed A X)) (gG A v s) =
  omap (fun l => l + shift A) (mnmf_loss fl eig (cov X) s).
Proof.
case=> pH B0 V0; rewrite /mnmf_loss /gG [gs_H _]/= [gs_B _]/= [gs_V _]/= recon_gBv gauss_loss_g //.
by move=> n i j; exact: recon_gt0.
Qed.
Lemma separate_mixed X s r (Y : 'I_M -> images) : gproper s ->
  (forall b, mnmf_separate fl eig X b s = Some (Y b)) ->
  mnmf_separate fl eig (mixed A X) r (gG A v s) = Some (fun n i j => \sum_b A i r b * Y b n i j).
Proof.
case=> pH B0 V0 h; have hm := @gH_pd (gs_H s) pH.
have L0 n i j : (0 < recon (gs_B s) (gs_V s) n i j)%coqR by exact: recon_gt0.
rewrite /mnmf_separate /gG [gs_H _]/= [gs_B _]/= [gs_V _]/= recon_gBv.
apply: (@wiener_mixed N M F T eig A uA _ _ X He _ _ _ r Y h) => [i j|i j|n i j].
- by have := rmodel_herm (recon (gs_B s) (gs_V s)) i j pH.
- by have := rmodel_herm (gL v (recon (gs_B s) (gs_V s))) i j hm.
- rewrite /gH /gL scalerA -cM -!scalemxAr -!scalemxAl; congr (c _ *: _).
  by have := v0 n i; move: (recon _ _ _ _ _) (v n i) => x y y0; toR; Rf; lra.
Qed.
End One.

(** ** Normalisation and runs *)
Notation one_m := (fun=> 1%:M : 'M[Cx]_M).
Definition prodl w v : levels := fun n i => (w n i * v n i)%coqR.
Lemma prodl_pos w v : pos_levels w -> pos_levels v -> pos_levels (prodl w v).
Proof. by move=> w0 v0 n i; apply: Rmult_lt_0_compat. Qed.
Lemma u1 (i : 'I_F) : (1%:M : 'M[Cx]_M) \in unitmx. Proof. exact: unitmx1. Qed.
Lemma gG_comp A w v s : gG one_m w (gG A v s) = gG A (prodl w v) s.
Proof.
rewrite /gG; congr (GaussState _ _ _).
  apply: functional_extensionality => n; apply: functional_extensionality => i; rewrite /gH /= ctr1 mul1mx mulmx1.
  by rewrite scalerA -cM /prodl Rinv_mult.
do 3 (apply: functional_extensionality => ?); rewrite /gBv /prodl /= RmulE -mulrA [_ * v _ _]mulrC //.
Qed.
Lemma gG1 s : gG one_m (fun _ _ => 1%coqR) s = s.
Proof.
case: s => H B V; rewrite /gG; congr (GaussState _ _ _).
  by do 2 (apply: functional_extensionality => ?); rewrite /gH /= ctr1 mul1mx mulmx1 Rinv_1 c1 scale1r.
by do 3 (apply: functional_extensionality => ?); rewrite /gBv /= mulr1.
Qed.
Lemma gGK w s : pos_levels w -> gG one_m (fun n i => / w n i)%coqR (gG one_m w s) = s.
Proof.
move=> w0; rewrite gG_comp -[RHS]gG1; congr gG.
apply: functional_extensionality => n; apply: functional_extensionality => i; rewrite /prodl.
by have := w0 n i => h; Rf; lra.
Qed.
Lemma inv_pos w : pos_levels w -> pos_levels (fun n i => / w n i)%coqR.
Proof. by move=> w0 n i; exact: Rinv_0_lt_compat. Qed.
Lemma one_pos' : pos_levels (fun (_ : 'I_N) (_ : 'I_F) => 1%coqR). Proof. by move=> n i; exact: Rlt_0_1. Qed.

Lemma once_norm nrm XX s : gauss_once fl eig chol nrm XX s =
  if core XX s is Some s1 then
    if nrm then omap (fun p => GaussState p.1 p.2 (gs_V s1)) (gauss_norm (gs_H s1) (gs_B s1)) else Some s1
  else None.
Proof.
case: s => H B V; rewrite /gauss_once; case: (gauss_basis _ _ _ _ _ _) => [B1|//].
case: (gauss_activation _ _ _ _ _ _) => [V1|//]; case: (gauss_spatial _ _ _ _ _ _) => [H1|//].
by case: nrm => //=; case: (gauss_norm _ _) => [[H2 B2]|].
Qed.
(** an iteration with normalisation is one without, followed by a change of level *)
Lemma once_level nrm X s s1 : audible X -> gproper s -> core (cov X) s = Some s1 ->
  exists2 w, pos_levels w & gauss_once fl eig chol nrm (cov X) s = Some (gG one_m w s1).
Proof.
move=> aX ps e; have [[pH B0 V0] _ _] := once_some N0 M0 F0 T0 K0 He Hc aX ps e.
rewrite once_norm e; case: nrm; last by exists (fun _ _ => 1%coqR); [exact: one_pos'|rewrite gG1].
have t0 n i : (0 < re (\tr (gs_H s1 n i)))%coqR by exact: rtr_pd.
exists (fun n i => re (\tr (gs_H s1 n i))) => //.
rewrite /gauss_norm ifT; last first.
  by apply/forallP => n; apply/forallP => i; apply/eqP; have := t0 n i; toR; lra.
rewrite /=; congr Some; rewrite /gG; congr (GaussState _ _ _).
  apply: functional_extensionality => n; apply: functional_extensionality => i; rewrite /gH ctr1 mul1mx mulmx1 -cV RinvE //.
  by have := t0 n i; lra.
by do 3 (apply: functional_extensionality => ?); rewrite /gBv mulrC.
Qed.
Notation corerun X := (recorded (core (cov X)) (mnmf_loss fl eig (cov X))).
Lemma run_mixed A nrm X k : (forall i, A i \in unitmx) -> audible X -> forall v s s0 l, pos_levels v -> gproper s ->
  corerun X k s = Some (s0, l) ->
  exists w, [/\ pos_levels w, gproper s0 &
    mnmf_run fl eig chol nrm (mixed A X) k (gG A v s) = Some (gG A w s0, [seq x + shift A | x <- l])].
Proof.
move=> uA aX; rewrite /mnmf_run; elim: k => [|k IH] v s s0 l v0 ps; rewrite ?recordedS ?recorded0 loss_mixed //.
  by case: (mnmf_loss _ _ _ s) => [x|//] [<- <-]; exists v.
case: (mnmf_loss _ _ _ s) => [x|//].
change (omap (fun l => l + shift A) (Some x)) with (Some (x + shift A)); cbv iota.
case e: (core (cov X) s) => [s1|//]; case er: (recorded _ _ k _) => [[s2 l2]|//] [es <-]; rewrite es in er.
have [ps1 _ _] := once_some N0 M0 F0 T0 K0 He Hc aX ps e.
have e' := core_mixed uA v0 aX ps e.
have [w w0 ->] := once_level nrm (audible_mixed uA aX) (gG_proper uA v0 ps) e'.
rewrite gG_comp; have [w' [w'0 ps0 ->]] := IH _ _ _ _ (prodl_pos w0 v0) ps1 er.
by exists w'.
Qed.
Lemma core_back w X s s1 : audible X -> pos_levels w -> gproper s -> core (cov X) (gG one_m w s) = Some s1 ->
  exists2 s2, core (cov X) s = Some s2 & s1 = gG one_m w s2.
Proof.
move=> aX w0 ps e; have := core_mixed u1 (inv_pos w0) aX (gG_proper u1 w0 ps) e.
rewrite mixed1 gGK // => e2; exists (gG one_m (fun n i => / w n i)%coqR s1) => //.
have := gGK s1 (inv_pos w0); have -> // : (fun n i => / / w n i)%coqR = w.
by do 2 (apply: functional_extensionality => ?); rewrite Rinv_inv.
Qed.
Lemma run_core nrm X k : audible X -> forall w s s1 l, pos_levels w -> gproper s ->
  mnmf_run fl eig chol nrm X k (gG one_m w s) = Some (s1, l) ->
  exists w' s0, [/\ pos_levels w', corerun X k s = Some (s0, l) & s1 = gG one_m w' s0].
Proof.
move=> aX; rewrite /mnmf_run.
have lE w s : pos_levels w -> gproper s -> mnmf_loss fl eig (cov X) (gG one_m w s) = mnmf_loss fl eig (cov X) s.
  move=> w0 ps; have := loss_mixed u1 w0 X ps; rewrite mixed1 => ->; rewrite (shift1 M F).
  by case: (mnmf_loss _ _ _ _) => //= x; rewrite addr0.
elim: k => [|k IH] w s s1 l w0 ps; rewrite ?recordedS ?recorded0 lE //.
  by case: (mnmf_loss _ _ _ s) => [x|//] [<- <-]; exists w, s.
case: (mnmf_loss _ _ _ s) => [x|//]; case e: (gauss_once _ _ _ nrm _ _) => [s2|//].
case ec: (core (cov X) (gG one_m w s)) => [s3|]; last by move: e; rewrite once_norm ec.
have [s4 e4 E3] := core_back aX w0 ps ec.
have [w2 w20] := once_level nrm aX (gG_proper u1 w0 ps) ec; rewrite e E3 gG_comp => -[->].
have [ps4 _ _] := once_some N0 M0 F0 T0 K0 He Hc aX ps e4.
case er: (recorded _ _ k _) => [[s5 l5]|//] [<- <-].
have [w' [s0 [w'0 e5 ->]]] := IH _ _ _ _ (prodl_pos w20 w0) ps4 er.
by exists w', s0; rewrite e4 e5.
Qed.

(** * C87 *)
Notation call := (mnmf_call fl eig chol).
(** A call on [X], and one on the recording mixed by [A] with the spatial covariances mixed
    likewise and level moved by [v]: if the first returns so does the second; whatever the
    normalisations, the signals are the images of the first mixed by [A] and the losses differ by
    a constant *)
Theorem C87_mixing A v nrm nrm' X k s (r : 'I_M) (Y : 'I_M -> images) l :
  audible X -> gproper s -> (forall i, A i \in unitmx) -> pos_levels v ->
  (forall b, call nrm' X b k s = Some (Y b, l)) ->
  call nrm (mixed A X) r k (gG A v s) =
    Some (fun n i j => \sum_b A i r b * Y b n i j, [seq x + (\sum_i (2 * ln (cabs (\det (A i))))%coqR) | x <- l]).
Proof.
move=> aX ps uA v0 h.
have [s1 [e1 h1]] : exists s1, mnmf_run fl eig chol nrm' X k s = Some (s1, l) /\
    forall b, mnmf_separate fl eig X b s1 = Some (Y b).
  have := h r; rewrite /mnmf_call; case: (mnmf_separate _ _ _ _ s) => [_|//].
  case e: (mnmf_run _ _ _ _ _ _ _) => [[s1 l1]|//] E; exists s1; split.
    by move: E; case: (mnmf_separate _ _ _ _ _) => [y|//] [_ <-].
  move=> b; have := h b; rewrite /mnmf_call; case: (mnmf_separate _ _ _ _ s) => [_|//]; rewrite e.
  by case: (mnmf_separate _ _ _ _ _) => [y|//] [<- _].
have := e1; rewrite -{1}(gG1 s) => /(run_core aX one_pos' ps)[w' [s0 [w'0 e0 E1]]].
have [w [w0 ps0 e2]] := run_mixed nrm uA aX v0 ps e0.
have sep0 b : mnmf_separate fl eig X b s0 = Some (Y b).
  have ps1 : gproper s1 by rewrite E1; apply: gG_proper => //; exact: u1.
  have := separate_mixed u1 (inv_pos w'0) b ps1 h1; rewrite mixed1 E1 gGK // => ->; congr Some.
  do 3 (apply: functional_extensionality => ?); rewrite (bigD1 b) //= mxE eqxx mul1r big1 ?addr0 // => c1 ne.
  by rewrite mxE eq_sym (negbTE ne) mul0r.
have [Y0 es _] := separate_some N0 K0 He (mixed A X) r (gG_proper uA v0 ps).
by rewrite /mnmf_call es e2 (separate_mixed uA w0 r ps0 sep0).
Qed.
Lemma call_every nrm X k s r Y l : gproper s -> audible X -> call nrm X r k s = Some (Y, l) ->
  exists2 Z : 'I_M -> images, forall b, call nrm X b k s = Some (Z b, l) & Z r = Y.
Proof.
move=> ps aX h; have := h; rewrite {1}/mnmf_call; case: (mnmf_separate _ _ _ _ s) => [_|//].
case e: (mnmf_run _ _ _ _ _ _ _) => [[s1 l1]|//] E.
have [ps1 _ _] := C86_run N0 M0 F0 T0 K0 He Hc aX ps e.
have El : l1 = l by move: E; case: (mnmf_separate _ _ _ _ _) => [y|//] [_ <-].
have hb b : call nrm X b k s = Some (odflt Y (mnmf_separate fl eig X b s1), l).
  have [Y0 e0 _] := separate_some N0 K0 He X b ps; have [Y1 e1 _] := separate_some N0 K0 He X b ps1.
  by rewrite /mnmf_call e0 e e1 El.
by exists (fun b => odflt Y (mnmf_separate fl eig X b s1)) => //; have := hb r; rewrite h => -[<-].
Qed.
(** the normalisation changes neither signals nor losses, nor whether the call returns *)
Theorem C87_normalization nrm nrm' X k s (r : 'I_M) : audible X -> gproper s -> call nrm X r k s = call nrm' X r k s.
Proof.
move=> aX ps.
have H nr nr' Y l : call nr X r k s = Some (Y, l) -> call nr' X r k s = Some (Y, l).
  move=> e; have [Z hZ <-] := call_every ps aX e.
  have := C87_mixing nr' r aX ps u1 one_pos' hZ; rewrite mixed1 gG1 => ->; congr (Some (_, _)).
    do 3 (apply: functional_extensionality => ?); rewrite (bigD1 r) //= mxE eqxx mul1r big1 ?addr0 // => c1 ne.
    by rewrite mxE eq_sym (negbTE ne) mul0r.
  rewrite -[\sum_i _]/(shift one_m) (shift1 M F); elim: (l) => //= x t ->.
  by rewrite addr0.
case e: (call nrm X r k s) => [[Y l]|]; first by rewrite (H _ nrm' _ _ e).
by case e': (call nrm' X r k s) => [[Y l]|//]; rewrite (H _ nrm _ _ e') in e.
Qed.
(** every bin of the recording multiplied by its own gain [z i], from the same spatial
    covariances, the bases multiplied by the power of the gain *)
Definition mlouder (z : 'I_F -> Cx) s : state :=
  GaussState (gs_H s) (fun n i k => (gs_B s n i k * cabs (z i) ^ 2)%coqR) (gs_V s).
Theorem C87_gain (z : 'I_F -> Cx) nrm X k s (r : 'I_M) Y l : audible X -> gproper s -> (forall i, z i != 0) ->
  call nrm X r k s = Some (Y, l) ->
  call nrm (fun i => z i *: X i) r k (mlouder z s) =
    Some (fun n i j => z i * Y n i j, [seq x + (\sum_i (2 * M%:R * ln (cabs (z i)))%coqR) | x <- l]).
Proof.
move=> aX ps z0 e; pose A : mixes := fun i => (z i)%:M.
pose v : levels := fun _ i => (cabs (z i) ^ 2)%coqR.
have uA i : A i \in unitmx by rewrite unitmxE det_scalar unitfE expf_neq0.
have v0 : pos_levels v by move=> n i; apply: pow_lt; exact: cabs_gt0.
have [Z hZ <-] := call_every ps aX e.
have := C87_mixing nrm r aX ps uA v0 hZ.
have -> : mixed A X = (fun i => z i *: X i).
  by apply: functional_extensionality => i; rewrite /mixed mul_scalar_mx.
have -> : gG A v s = mlouder z s.
  rewrite /gG /mlouder; congr (GaussState _ _ _).
  apply: functional_extensionality => n; apply: functional_extensionality => i; rewrite /gH /A ctr_scalar mul_scalar_mx mul_mx_scalar.
  rewrite !scalerA -mulrA [_ * z i]mulrC -cabs_sqr -cM /v -RpowE.
  have h : (cabs (z i) ^ 2)%coqR <> 0%coqR by apply: Rgt_not_eq; apply: pow_lt; exact: cabs_gt0.
  by rewrite -RmulE Rinv_l // c1 scale1r.
move=> ->; congr (Some (_, _)).
  apply: functional_extensionality => n; apply: functional_extensionality => i; apply: functional_extensionality => j.
  rewrite (bigD1 r) //= mxE eqxx mulr1n big1 ?addr0 // => c1 ne.
  by rewrite mxE eq_sym (negbTE ne) mul0r.
apply: eq_map => x; congr (_ + _); apply: eq_bigr => i _; rewrite det_scalar ln_cabsX // -RmulE.
by rewrite Rmult_assoc.
Qed.
End Gauge.

(** the recording of C64's example, the bin multiplied by 3 *)
Example C87_instance (r : 'I_2) : exists eig chol Y ls (s : gauss_state 2 2 1 2 1),
  [/\ eigh_contract eig /\ chol_strict chol,
      mnmf_call identity_fl eig chol true eX r 1 s = Some (Y, ls),
      mnmf_call identity_fl eig chol false eX r 1 s = Some (Y, ls) &
      exists ls', mnmf_call identity_fl eig chol true (fun i => 3%:R *: eX i) r 1 (mlouder (fun=> 3%:R) s) =
        Some (fun n i j => 3%:R * Y n i j, ls')].
Proof.
have [eig [chol [Y [ls [s [[He Hc] aX ps e _]]]]]] := C86_instance true r.
exists eig, chol, Y, ls, s; split=> //.
  by rewrite (@C87_normalization 2 2 1 2 1 eig chol isT isT isT isT isT He Hc false true).
have z0 (i : 'I_1) : (3%:R : Cx) != 0 by rewrite pnatr_eq0.
by eexists; exact: (@C87_gain 2 2 1 2 1 eig chol isT isT isT isT isT He Hc (fun=> 3%:R) true eX 1 s r Y ls aX ps z0 e).
Qed.

Print Assumptions C87_mixing.
Print Assumptions C87_normalization.
Print Assumptions C87_gain.
