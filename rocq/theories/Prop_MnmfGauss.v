(** C53, C64: GaussMNMF.  The spatial update solves its Riccati equation; no update increases the loss. *)
From Coq Require Import Reals Lra Psatz FunctionalExtensionality.
From mathcomp Require Import all_ssreflect all_algebra.
From mathcomp Require Import ring.
From Verif Require Import RStruct MxC CxR NpLin RealLemmas NmfReal NmfMM Eigh EighProofs Prop_Linalg.
From Verif Require Import SpatialIP SpatialIPProofs Scale AuxIVA AuxIVAProofs Prop_AuxIVAFloor Ilrma IlrmaReal IlrmaProofs Prop_IlrmaRef.
From Verif Require Import TraceMM MnmfMM Mnmf MnmfGauss Prop_Mnmf.
Import Order.TTheory GRing.Theory Num.Theory.
Set Implicit Arguments.
Unset Strict Implicit.
Unset Printing Implicit Defensive.
Local Open Scope ring_scope.
Arguments pow : simpl never.

Section Gauss.
Variables (N M F T K : nat) (eig : eigh_t) (chol : chol_t).
Notation cells := ('I_N -> 'I_F -> 'I_T -> R).
Notation basis := ('I_N -> 'I_F -> 'I_K -> R).
Notation activ := ('I_N -> 'I_K -> 'I_T -> R).
Notation pbasis := ('I_F -> 'I_K -> R).
Notation pactiv := ('I_K -> 'I_T -> R).
Notation latent := ('I_N -> 'I_K -> R).
Notation spat := ('I_N -> 'I_F -> 'M[Cx]_M).
Notation covs := ('I_F -> 'I_T -> 'M[Cx]_M).
Implicit Types (B : basis) (V : activ) (L : cells) (H : spat) (XX : covs) (C : pbasis) (A : pactiv) (Z : latent).
Hypotheses (He : eigh_contract eig) (Hc : chol_contract chol).
Hypotheses (N0 : (0 < N)%N) (M0 : (0 < M)%N) (T0 : (0 < T)%N) (K0 : (0 < K)%N).

(** the modelled covariance of every bin and frame has no eigenvalue below [eps] *)
Definition high eps L H : Prop := forall i j, above eps (\sum_n c (L n i j) *: H n i).

Lemma high_inact eps L H : (forall n i, pd (H n i)) -> high eps L H -> inact (max_flooring eps) eig L H.
Proof. by move=> pH hi i j; apply: (C25_identity He); [exact: rmodel_herm|exact: hi]. Qed.
Lemma id_inact L H : (forall n i, pd (H n i)) -> inact identity_fl eig L H.
Proof. by move=> pH i j; apply: to_psd_id => //; exact: rmodel_herm. Qed.
Lemma pos_of eps (x : R) : (0 < eps)%coqR -> (eps <= x)%coqR -> (0 < x)%coqR.
Proof. by lra. Qed.

Section Upd.
Variables (eps : R) (XX : covs).
Hypotheses (e0 : (0 < eps)%coqR) (pX : forall i j, psd (XX i j)).
Notation fl := (max_flooring eps).
Notation loss := (gauss_loss fl eig XX).

(** ** C64, one update at a time *)
Theorem C64_basis H B V : (forall n i, pd (H n i)) ->
  (forall n i k, (eps <= B n i k)%coqR) -> (forall n k j, (0 < V n k j)%coqR) -> high eps (recon B V) H ->
  exists B', [/\ gauss_basis fl eig XX H B V = Some B', forall n i k, (eps <= B' n i k)%coqR &
    high eps (recon B' V) H -> exists l l', [/\ loss (recon B V) H = Some l,
      loss (recon B' V) H = Some l' & (l' <= l)%coqR]].
Proof.
move=> pH Be V0 hi; have B0 n i k := pos_of e0 (Be n i k).
have [B' [eB B'0 B'e le]] := gauss_basis_step (@max_floor_nonneg eps) M0 T0 (high_inact pH hi) N0 K0 pX pH B0 V0
  (fun n i k _ => Be n i k) (or_introl e0 : live_b eps XX).
exists B'; split=> // hi'; do 2 eexists; split; last exact: le.
  apply: gauss_lossE => //; first exact: high_inact.
  by move=> i j; apply: rmodel_pd => // n' i' j'; apply: recon_gt0.
apply: gauss_lossE => //; first exact: high_inact.
by move=> i j; apply: rmodel_pd => // n' i' j'; apply: recon_gt0.
Qed.
Theorem C64_activation H B V : (0 < F)%N -> (forall n i, pd (H n i)) ->
  (forall n i k, (0 < B n i k)%coqR) -> (forall n k j, (eps <= V n k j)%coqR) -> high eps (recon B V) H ->
  exists V', [/\ gauss_activation fl eig XX H B V = Some V', forall n k j, (eps <= V' n k j)%coqR &
    high eps (recon B V') H -> exists l l', [/\ loss (recon B V) H = Some l,
      loss (recon B V') H = Some l' & (l' <= l)%coqR]].
Proof.
move=> F0 pH B0 Ve hi; have V0 n k j := pos_of e0 (Ve n k j).
have [V' [eV V'0 V'e le]] := gauss_activation_step (@max_floor_nonneg eps) M0 (high_inact pH hi) N0 K0 F0 pX pH B0 V0
  (fun n k j _ => Ve n k j) (or_introl e0 : live_a eps XX).
exists V'; split=> // hi'; do 2 eexists; split; last exact: le.
  apply: gauss_lossE => //; first exact: high_inact.
  by move=> i j; apply: rmodel_pd => // n' i' j'; apply: recon_gt0.
apply: gauss_lossE => //; first exact: high_inact.
by move=> i j; apply: rmodel_pd => // n' i' j'; apply: recon_gt0.
Qed.

Lemma loss_high L H : (forall n i, pd (H n i)) -> (forall n i j, (0 < L n i j)%coqR) -> high eps L H ->
  loss L H = Some (loss_mx XX (rmodel L H)).
Proof.
move=> pH L0 hi; apply: gauss_lossE => //; first exact: high_inact.
by move=> i j; apply: rmodel_pd.
Qed.

Theorem C64_partitioned_basis H Z C A : (forall n i, pd (H n i)) -> (forall n k, (0 < Z n k)%coqR) ->
  (forall i k, (eps <= C i k)%coqR) -> (forall k j, (0 < A k j)%coqR) -> high eps (recon_lat Z C A) H ->
  exists C', [/\ gauss_pbasis fl eig XX H Z C A = Some C', forall i k, (eps <= C' i k)%coqR &
    high eps (recon_lat Z C' A) H -> exists l l', [/\ loss (recon_lat Z C A) H = Some l,
      loss (recon_lat Z C' A) H = Some l' & (l' <= l)%coqR]].
Proof.
move=> pH Z0 Ce A0 hi; have C0 i k := pos_of e0 (Ce i k).
have [C' [eC C'0 C'e le]] := gauss_pbasis_step (@max_floor_nonneg eps) M0 T0 (high_inact pH hi) N0 K0 pX pH Z0 C0 A0
  (fun i k _ => Ce i k) (or_introl e0 : live_b eps XX).
exists C'; split=> // hi'; do 2 eexists; split; last exact: le; apply: loss_high => // n i j; exact: recon_lat_gt0'.
Qed.
Theorem C64_partitioned_activation H Z C A : (0 < F)%N -> (forall n i, pd (H n i)) -> (forall n k, (0 < Z n k)%coqR) ->
  (forall i k, (0 < C i k)%coqR) -> (forall k j, (eps <= A k j)%coqR) -> high eps (recon_lat Z C A) H ->
  exists A', [/\ gauss_pactivation fl eig XX H Z C A = Some A', forall k j, (eps <= A' k j)%coqR &
    high eps (recon_lat Z C A') H -> exists l l', [/\ loss (recon_lat Z C A) H = Some l,
      loss (recon_lat Z C A') H = Some l' & (l' <= l)%coqR]].
Proof.
move=> F0 pH Z0 C0 Ae hi; have A0 k j := pos_of e0 (Ae k j).
have [A' [eA A'0 A'e le]] := gauss_pactivation_step (@max_floor_nonneg eps) M0 (high_inact pH hi) N0 K0 F0 pX pH Z0 C0 A0
  (fun k j _ => Ae k j) (or_introl e0 : live_a eps XX).
exists A'; split=> // hi'; do 2 eexists; split; last exact: le; apply: loss_high => // n i j; exact: recon_lat_gt0'.
Qed.
(** the multiplicative half of the latent update *)
Theorem C64_latent_step H Z C A : (forall n i, pd (H n i)) -> (forall n k, (0 < Z n k)%coqR) ->
  (forall i k, (0 < C i k)%coqR) -> (forall k j, (0 < A k j)%coqR) -> (exists i j, XX i j != 0) ->
  high eps (recon_lat Z C A) H ->
  exists Z', [/\ gauss_latent_step fl eig XX H Z C A = Some Z', forall n k, (0 < Z' n k)%coqR &
    high eps (recon_lat Z' C A) H -> exists l l', [/\ loss (recon_lat Z C A) H = Some l,
      loss (recon_lat Z' C A) H = Some l' & (l' <= l)%coqR]].
Proof.
move=> pH Z0 C0 A0 nz hi.
have [Z' [eZ Z'0 le]] := gauss_latent_step_descent M0 (high_inact pH hi) N0 K0 pX pH Z0 C0 A0 nz.
exists Z'; split=> // hi'; do 2 eexists; split; last exact: le; apply: loss_high => // n i j; exact: recon_lat_gt0'.
Qed.
(** the whole latent update keeps the latent variables positive with columns summing to one *)
Theorem C64_latent_simplex H Z C A : (forall n i, pd (H n i)) -> (forall n k, (0 < Z n k)%coqR) ->
  (forall i k, (0 < C i k)%coqR) -> (forall k j, (0 < A k j)%coqR) -> (exists i j, XX i j != 0) ->
  high eps (recon_lat Z C A) H ->
  exists Z', [/\ gauss_latent fl eig XX H Z C A = Some Z', forall n k, (0 < Z' n k)%coqR &
    forall k, \sum_n Z' n k = 1].
Proof.
move=> pH Z0 C0 A0 nz hi.
have [Z' [eZ Z'0 _]] := C64_latent_step pH Z0 C0 A0 nz hi.
have s0 k : (0 < (\sum_n Z' n k)%R)%coqR by apply: (@sumR_gt0 _ (Z'^~ k) (Ordinal N0)) => [n|]; [apply: Rlt_le|]; exact: Z'0.
rewrite /gauss_latent eZ /latent_normalise ifT; last first.
  by apply/forallP => k; apply/eqP; have := s0 k; toR; lra.
eexists; split; first by [].
  by move=> n k; apply: Rdiv_lt_0_compat.
by move=> k; rewrite /Rdiv -sumR_mulr Rinv_r //; have := s0 k; lra.
Qed.

(** ** C53: the spatial update *)
Definition ric_P L H n i : 'M[Cx]_M := \sum_j c (L n i j) *: invmx (\sum_m c (L m i j) *: H m i).
Definition ric_Q L H n i : 'M[Cx]_M := \sum_j c (L n i j) *:
  (invmx (\sum_m c (L m i j) *: H m i) *m XX i j *m invmx (\sum_m c (L m i j) *: H m i)).
Lemma ric_PE fl' L H n i : inact fl' eig L H -> sp_P fl' eig L H n i = ric_P L H n i.
Proof. by move=> ina; apply: eq_bigr => j _; rewrite inactE. Qed.
Lemma ric_QE fl' L H n i : inact fl' eig L H -> sp_Q fl' eig XX L H n i = ric_Q L H n i.
Proof. by move=> ina; apply: eq_bigr => j _; rewrite !inactE. Qed.

(** no eigenvalue below the floor, in the operands and in the solution *)
Definition high_spatial L H : Prop := forall n i,
  [/\ above eps (ric_P L H n i), above eps (H n i *m ric_Q L H n i *m H n i) &
      forall G, pd G -> G *m ric_P L H n i *m G = H n i *m ric_Q L H n i *m H n i -> above eps G].

Lemma spatial_ready L H : (forall i j, pd (XX i j)) -> (forall n i, pd (H n i)) -> (forall n i j, (0 < L n i j)%coqR) ->
  high eps L H -> high_spatial L H -> exists H', [/\ gauss_spatial fl eig chol XX L H = Some H', forall n i, pd (H' n i) &
    forall n i, H' n i *m sp_P fl eig L H n i *m H' n i = H n i *m sp_Q fl eig XX L H n i *m H n i].
Proof.
move=> pXX pH L0 hi hs; have ina := high_inact pH hi.
have pR i j := rmodel_pd i j N0 L0 pH.
have pQ n i := sp_Q_pd T0 n i L0 ina pR pXX.
apply: (gauss_spatial_riccati T0 He Hc ina _ N0 L0 pH pQ) => n i; have [aP aQ aG] := hs n i.
split.
- apply: (C25_identity He); last by rewrite (ric_PE _ _ ina).
  by have [] := sp_P_pd T0 n i L0 ina pR.
- apply: (C25_identity He); last by rewrite (ric_QE _ _ ina).
  by rewrite !ctrM; have [-> _] := pQ n i; have [-> _] := pH n i; rewrite mulmxA.
- move=> G pG; rewrite (ric_PE _ _ ina) (ric_QE _ _ ina) => eG.
  by apply: (C25_identity He); [have [] := pG|exact: aG].
Qed.

Theorem C53_riccati L H : (forall i j, pd (XX i j)) -> (forall n i, pd (H n i)) -> (forall n i j, (0 < L n i j)%coqR) ->
  high eps L H -> high_spatial L H ->
  exists H', [/\ gauss_spatial fl eig chol XX L H = Some H', forall n i, pd (H' n i),
    forall n i, H' n i *m ric_P L H n i *m H' n i = H n i *m ric_Q L H n i *m H n i &
    forall n i G, pd G -> G *m ric_P L H n i *m G = H n i *m ric_Q L H n i *m H n i -> G = H' n i].
Proof.
move=> pXX pH L0 hi hs; have ina := high_inact pH hi.
have pR i j := rmodel_pd i j N0 L0 pH.
have [H' [eH pH' hH']] := spatial_ready pXX pH L0 hi hs.
exists H'; split=> // [n i|n i G pG eG].
  by have := hH' n i; rewrite (ric_PE _ _ ina) (ric_QE _ _ ina).
have pP := sp_P_pd T0 n i L0 ina pR; have pQ := sp_Q_pd T0 n i L0 ina pR pXX.
rewrite (ric_PE _ _ ina) in pP; rewrite (ric_QE _ _ ina) in pQ.
have pHQ : pd (H n i *m ric_Q L H n i *m H n i).
  by have [h _] := pH n i; rewrite -{1}h; apply: pd_congr_unit => //; exact: pd_unit.
have [G0 [_ _ _ uG]] := C24_type2 He Hc pP pHQ.
rewrite (uG _ pG eG); symmetry; apply: uG => //.
by have := hH' n i; rewrite (ric_PE _ _ ina) (ric_QE _ _ ina).
Qed.

Theorem C64_spatial L H : (forall i j, pd (XX i j)) -> (forall n i, pd (H n i)) -> (forall n i j, (0 < L n i j)%coqR) ->
  high eps L H -> high_spatial L H ->
  exists H', [/\ gauss_spatial fl eig chol XX L H = Some H', forall n i, pd (H' n i) &
    high eps L H' -> exists l l', [/\ loss L H = Some l, loss L H' = Some l' & (l' <= l)%coqR]].
Proof.
move=> pXX pH L0 hi hs.
have [H' [eH pH' hH']] := spatial_ready pXX pH L0 hi hs.
exists H'; split=> // hi'; do 2 eexists; split; try exact: loss_high.
exact: (spatial_descent (high_inact pH hi) N0 L0 pH pH' pX hH').
Qed.

(** ** a whole iteration: no floor acts along the way *)
Definition quiet nrm (s : gauss_state N M F T K) : Prop :=
  [/\ high eps (recon (gs_B s) (gs_V s)) (gs_H s),
     forall B1, gauss_basis fl eig XX (gs_H s) (gs_B s) (gs_V s) = Some B1 ->
       high eps (recon B1 (gs_V s)) (gs_H s) /\
       forall V1, gauss_activation fl eig XX (gs_H s) B1 (gs_V s) = Some V1 ->
         high eps (recon B1 V1) (gs_H s) /\ high_spatial (recon B1 V1) (gs_H s) &
     forall s', gauss_once fl eig chol nrm XX s = Some s' -> high eps (recon (gs_B s') (gs_V s')) (gs_H s')].

Theorem C64_once nrm (s : gauss_state N M F T K) : (0 < F)%N -> (forall i j, pd (XX i j)) ->
  (forall n i, pd (gs_H s n i)) -> (forall n i k, (eps <= gs_B s n i k)%coqR) ->
  (forall n k j, (eps <= gs_V s n k j)%coqR) -> quiet nrm s ->
  exists s' l l', [/\ gauss_once fl eig chol nrm XX s = Some s',
    [/\ forall n i, pd (gs_H s' n i), forall n i k, (0 < gs_B s' n i k)%coqR,
        forall n k j, (eps <= gs_V s' n k j)%coqR & nrm -> forall n i, re (\tr (gs_H s' n i)) = 1],
    loss (recon (gs_B s) (gs_V s)) (gs_H s) = Some l,
    loss (recon (gs_B s') (gs_V s')) (gs_H s') = Some l' & (l' <= l)%coqR].
Proof.
case: s => H B V F0 pXX /= pH Be Ve [/= hi hB hO].
have V0 n k j := pos_of e0 (Ve n k j).
have [B1 [eB B1e dB]] := C64_basis pH Be V0 hi.
have [hi1 hV] := hB _ eB; have [l0 [l1 [L0 L1 le1]]] := dB hi1.
have B10 n i k := pos_of e0 (B1e n i k).
have [V1 [eV V1e dV]] := C64_activation F0 pH B10 Ve hi1.
have [hi2 hs] := hV _ eV; have [l1' [l2 [L1' L2 le2]]] := dV hi2.
have V10 n k j := pos_of e0 (V1e n k j).
have R0 n i j : (0 < recon B1 V1 n i j)%coqR by apply: recon_gt0.
have [H1 [eH pH1 dH]] := C64_spatial pXX pH R0 hi2 hs.
move: hO; rewrite /gauss_once eB eV eH.
have fin : high eps (recon B1 V1) H1 -> exists l3, loss (recon B1 V1) H1 = Some l3 /\ (l3 <= l0)%coqR.
  move=> hi3; have [l2' [l3 [L2' L3 le3]]] := dH hi3; exists l3; split=> //.
  have := L1'; rewrite L1 => -[h1]; have := L2'; rewrite L2 => -[h2].
  by rewrite -h1 in le2; rewrite -h2 in le3; lra.
case: nrm => hO; last first.
  have [l3 [L3 le]] := fin (hO _ erefl).
  by exists (GaussState H1 B1 V1), l0, l3.
have [H2 [B2 e2]] := C51_gauss_defined B1 M0 pH1.
rewrite e2 in hO *.
have [eR eL _ tr1] := C51_gauss fl eig (fun _ => 0) XX V1 (Ordinal M0) e2.
have [|l3 [L3 le]] := fin.
  by move=> i j; have := hO _ erefl i j; rewrite /= -[\sum_n _]/(rmodel _ _ i j) eR.
have t0 n i := rtr_pd M0 (pH1 n i).
exists (GaussState H2 B2 V1), l0, l3; split=> //=; last by rewrite eL.
suff [pH2 B20] : (forall n i, pd (H2 n i)) /\ (forall n i k, (0 < B2 n i k)%coqR) by split=> // _; exact: tr1.
move: e2; rewrite /gauss_norm; case: ifP => [_|_]; last by [].
case=> <- <-; split=> [n i|n i k].
  by apply: pdZ => //; rewrite -cV; apply: c_gt0; rewrite -RinvE; [exact: Rinv_0_lt_compat (t0 n i)|have := t0 n i; rewrite /rtr; lra].
exact: Rmult_lt_0_compat (t0 n i) (B10 n i k).
Qed.
End Upd.

(** ** without flooring ([flooring_fn=None]) *)
Section NoFloor.
Variables (XX : covs).
Hypothesis pX : forall i j, psd (XX i j).
Notation loss := (gauss_loss identity_fl eig XX).

Lemma loss_id L H : (forall n i, pd (H n i)) -> (forall n i j, (0 < L n i j)%coqR) ->
  loss L H = Some (loss_mx XX (rmodel L H)).
Proof.
move=> pH L0; apply: gauss_lossE => //; first exact: id_inact.
by move=> i j; apply: rmodel_pd.
Qed.
Theorem C64_basis_no_flooring H B V : (forall n i, pd (H n i)) -> (forall i, exists j, XX i j != 0) ->
  (forall n i k, (0 < B n i k)%coqR) -> (forall n k j, (0 < V n k j)%coqR) ->
  exists B' l l', [/\ gauss_basis identity_fl eig XX H B V = Some B', forall n i k, (0 < B' n i k)%coqR,
    loss (recon B V) H = Some l, loss (recon B' V) H = Some l' & (l' <= l)%coqR].
Proof.
move=> pH nz B0 V0.
have [|B' [eB B'0 _ le]] := gauss_basis_step id_floor_nonneg M0 T0 (id_inact _ pH) N0 K0 pX pH B0 V0
  _ (or_intror (conj erefl nz)); first by move=> n i k h; lra.
by exists B'; do 2 eexists; split; [exact: eB|exact: B'0| | |exact: le];
   apply: loss_id => // n i j; apply: recon_gt0.
Qed.
Theorem C64_activation_no_flooring H B V : (0 < F)%N -> (forall n i, pd (H n i)) -> (forall j, exists i, XX i j != 0) ->
  (forall n i k, (0 < B n i k)%coqR) -> (forall n k j, (0 < V n k j)%coqR) ->
  exists V' l l', [/\ gauss_activation identity_fl eig XX H B V = Some V', forall n k j, (0 < V' n k j)%coqR,
    loss (recon B V) H = Some l, loss (recon B V') H = Some l' & (l' <= l)%coqR].
Proof.
move=> F0 pH nz B0 V0.
have [|V' [eV V'0 _ le]] := gauss_activation_step id_floor_nonneg M0 (id_inact _ pH) N0 K0 F0 pX pH B0 V0
  _ (or_intror (conj erefl nz)); first by move=> n k j h; lra.
by exists V'; do 2 eexists; split; [exact: eV|exact: V'0| | |exact: le];
   apply: loss_id => // n i j; apply: recon_gt0.
Qed.

Theorem C53_riccati_no_flooring L H : (forall n i, pd (H n i)) -> (forall n i j, (0 < L n i j)%coqR) ->
  (forall n i, pd (ric_Q XX L H n i)) ->
  exists H', [/\ gauss_spatial identity_fl eig chol XX L H = Some H', forall n i, pd (H' n i) &
    forall n i, H' n i *m ric_P L H n i *m H' n i = H n i *m ric_Q XX L H n i *m H n i].
Proof.
move=> pH L0 pQ; have ina := @id_inact L H pH.
have pR i j := rmodel_pd i j N0 L0 pH.
have pQ' n i : pd (sp_Q identity_fl eig XX L H n i) by rewrite (ric_QE _ _ _ ina).
have [|H' [eH pH' hH']] := gauss_spatial_riccati T0 He Hc ina _ N0 L0 pH pQ'.
  move=> n i; split.
  - by apply: to_psd_id => //; have [] := sp_P_pd T0 n i L0 ina pR.
  - apply: to_psd_id => //; rewrite !ctrM; have [-> _] := pQ' n i; have [-> _] := pH n i; by rewrite mulmxA.
  - by move=> G [h _] _; apply: to_psd_id.
exists H'; split=> // n i; by have := hH' n i; rewrite (ric_PE _ _ ina) (ric_QE _ _ _ ina).
Qed.
Theorem C64_spatial_no_flooring L H : (forall n i, pd (H n i)) -> (forall n i j, (0 < L n i j)%coqR) ->
  (forall n i, pd (ric_Q XX L H n i)) ->
  exists H' l l', [/\ gauss_spatial identity_fl eig chol XX L H = Some H', forall n i, pd (H' n i),
    loss L H = Some l, loss L H' = Some l' & (l' <= l)%coqR].
Proof.
move=> pH L0 pQ; have [H' [eH pH' hH']] := C53_riccati_no_flooring pH L0 pQ.
exists H'; do 2 eexists; split; [exact: eH|exact: pH'|exact: loss_id|exact: loss_id|].
apply: (spatial_descent (@id_inact L H pH) N0 L0 pH pH' pX) => n i.
by rewrite (ric_PE _ _ (id_inact _ pH)) (ric_QE _ _ _ (id_inact _ pH)).
Qed.

Theorem C64_once_no_flooring nrm (s : gauss_state N M F T K) : (0 < F)%N ->
  (forall i, exists j, XX i j != 0) -> (forall j, exists i, XX i j != 0) ->
  (forall n i, pd (gs_H s n i)) -> (forall n i k, (0 < gs_B s n i k)%coqR) -> (forall n k j, (0 < gs_V s n k j)%coqR) ->
  (forall L n i, (forall n i j, (0 < L n i j)%coqR) -> pd (ric_Q XX L (gs_H s) n i)) ->
  exists s' l l', [/\ gauss_once identity_fl eig chol nrm XX s = Some s',
    [/\ forall n i, pd (gs_H s' n i), forall n i k, (0 < gs_B s' n i k)%coqR,
        forall n k j, (0 < gs_V s' n k j)%coqR & nrm -> forall n i, re (\tr (gs_H s' n i)) = 1],
    loss (recon (gs_B s) (gs_V s)) (gs_H s) = Some l,
    loss (recon (gs_B s') (gs_V s')) (gs_H s') = Some l' & (l' <= l)%coqR].
Proof.
case: s => H B V F0 nzi nzj /= pH B0 V0 pQ.
have [B1 [l0 [l1 [eB B10 L0 L1 le1]]]] := C64_basis_no_flooring pH nzi B0 V0.
have [V1 [l1' [l2 [eV V10 L1' L2 le2]]]] := C64_activation_no_flooring F0 pH nzj B10 V0.
have R0 n i j : (0 < recon B1 V1 n i j)%coqR by apply: recon_gt0.
have [H1 [l2' [l3 [eH pH1 L2' L3 le3]]]] := C64_spatial_no_flooring pH R0 (fun n i => pQ _ n i R0).
have le : (l3 <= l0)%coqR.
  have := L1'; rewrite L1 => -[h1]; have := L2'; rewrite L2 => -[h2].
  by rewrite -h1 in le2; rewrite -h2 in le3; lra.
rewrite /gauss_once eB eV eH; case: nrm; last by exists (GaussState H1 B1 V1), l0, l3.
have [H2 [B2 e2]] := C51_gauss_defined B1 M0 pH1.
have [_ eL _ tr1] := C51_gauss identity_fl eig (fun _ => 0) XX V1 (Ordinal M0) e2.
have t0 n i := rtr_pd M0 (pH1 n i).
rewrite e2; exists (GaussState H2 B2 V1), l0, l3; split=> //=; last by rewrite eL.
suff [pH2 B20] : (forall n i, pd (H2 n i)) /\ (forall n i k, (0 < B2 n i k)%coqR) by split=> // _; exact: tr1.
move: e2; rewrite /gauss_norm; case: ifP => [_|_]; last by [].
case=> <- <-; split=> [n i|n i k].
  by apply: pdZ => //; rewrite -cV; apply: c_gt0; rewrite -RinvE; [exact: Rinv_0_lt_compat (t0 n i)|have := t0 n i; rewrite /rtr; lra].
exact: Rmult_lt_0_compat (t0 n i) (B10 n i k).
Qed.
End NoFloor.
End Gauss.

(** ** diagonal and scalar examples *)
Definition dg (a b : R) : 'M[Cx]_2 := rdiag (\row_i if i == 0 then a else b).
Lemma dgE a b i j : dg a b i j = if i == j then (if i == 0 then c a else c b) else 0.
Proof. by rewrite /dg rdiagE mxE; case: eqP => // _; case: ifP. Qed.
Lemma dg_add a b a' b' : dg a b + dg a' b' = dg (a + a') (b + b').
Proof. by apply/matrixP => i j; rewrite mxE !dgE; case: ifP => _; [case: ifP => _; rewrite -cD|rewrite addr0]. Qed.
Lemma dg_scale k a b : c k *: dg a b = dg (k * a) (k * b).
Proof. by apply/matrixP => i j; rewrite mxE !dgE; case: ifP => _; [case: ifP => _; rewrite -cM|rewrite mulr0]. Qed.
Lemma dg_mul a b a' b' : dg a b *m dg a' b' = dg (a * a') (b * b').
Proof. by rewrite /dg rdiagM; congr rdiag; apply/rowP => i; rewrite !mxE; case: ifP. Qed.
Lemma dg1 : dg 1 1 = 1%:M.
Proof. by rewrite -rdiag1; congr rdiag; apply/rowP => i; rewrite !mxE; case: ifP. Qed.
Lemma dg_inv a b : (0 < a)%coqR -> (0 < b)%coqR -> invmx (dg a b) = dg (/ a)%coqR (/ b)%coqR.
Proof.
move=> a0 b0; have e : dg a b *m dg (/ a)%coqR (/ b)%coqR = 1%:M.
  by rewrite dg_mul -dg1; congr dg; toR; apply: Rinv_r; lra.
have [u _] := mulmx1_unit e; by rewrite -[RHS](mulKmx u) e mulmx1.
Qed.
Lemma dg_tr a b : re (\tr (dg a b)) = (a + b)%coqR.
Proof. by rewrite /mxtrace !big_ord_recl big_ord0 addr0 !dgE /= -cD rec. Qed.
Lemma dg_det a b : (0 < a)%coqR -> (0 < b)%coqR -> cabs (\det (dg a b)) = (a * b)%coqR.
Proof.
move=> a0 b0; rewrite /dg /rdiag det_diag !big_ord_recl big_ord0 mulr1 !mxE /= -cM cabs_c Rabs_pos_eq //.
by apply: Rlt_le; apply: Rmult_lt_0_compat.
Qed.
Lemma dg_pd a b : (0 < a)%coqR -> (0 < b)%coqR -> pd (dg a b).
Proof. by move=> a0 b0; apply: pd_rdiag => i; rewrite mxE; case: ifP. Qed.
Lemma dg_psd a b : (0 <= a)%coqR -> (0 <= b)%coqR -> psd (dg a b).
Proof. by move=> a0 b0; apply: psd_rdiag => i; rewrite mxE; case: ifP. Qed.
Lemma dg_herm a b : (dg a b)^H = dg a b.
Proof. exact: rdiag_ctr. Qed.
Lemma dg_above eps a b : (eps <= a)%coqR -> (eps <= b)%coqR -> above eps (dg a b).
Proof.
move=> ha hb x; rewrite -dg1 /dg !form_rdiag !rec sumR_mull.
apply: sumR_le => i _; rewrite !mxE.
have := pow2_ge_0 (cabs (x i 0)); rewrite -!RpowE; move: (cabs _ ^ 2)%coqR => y y0.
by case: ifP => _; toR; nra.
Qed.

Definition eH (n : 'I_2) (i : 'I_1) : 'M[Cx]_2 := if n == 0 then dg (/ 5)%coqR (4 / 5)%coqR else dg (3 / 5)%coqR (2 / 5)%coqR.
Definition eX (i : 'I_1) : 'M[Cx]_2 := dg (R_sqrt.sqrt 15) (R_sqrt.sqrt 57).
Definition eXX (i : 'I_1) (j : 'I_2) : 'M[Cx]_2 := if j == 0 then dg 15%coqR 0%coqR else dg 0%coqR 57%coqR.
Definition one (I J : Type) (i : I) (j : J) : R := 1%coqR.
Lemma eH_pd n i : pd (eH n i).
Proof. by rewrite /eH; case: ifP => _; apply: dg_pd; lra. Qed.
Lemma eH_tr n i : re (\tr (eH n i)) = 1.
Proof. by rewrite /eH; case: ifP => _; rewrite dg_tr; toR; Rf; lra. Qed.
Lemma eXXE eig i j : eigh_contract eig -> inst_cov identity_fl eig eX i j = eXX i j.
Proof.
move=> He; have e : col j (eX i) *m (col j (eX i))^H = eXX i j.
  have cE (k : 'I_2) l : col j (eX i) k l = if k == j then (if k == 0 then c (R_sqrt.sqrt 15) else c (R_sqrt.sqrt 57)) else 0.
    by rewrite [LHS]mxE /eX dgE.
  apply/matrixP => a b; rewrite [LHS]mxE big_ord_recl big_ord0 addr0 ctrE !cE.
  have s15 : (R_sqrt.sqrt 15 * R_sqrt.sqrt 15 = 15)%coqR by apply: sqrt_sqrt; lra.
  have s57 : (R_sqrt.sqrt 57 * R_sqrt.sqrt 57 = 57)%coqR by apply: sqrt_sqrt; lra.
  rewrite RmulE in s15; rewrite RmulE in s57.
  have -> : eXX i j a b = if a == b then (if a == 0 then c (if j == 0 then 15%coqR else 0%coqR) else c (if j == 0 then 0%coqR else 57%coqR)) else 0.
    by rewrite /eXX; case: (j == 0); rewrite dgE.
  by case: (ord2P a) => ->; case: (ord2P b) => ->; case: (ord2P j) => ->;
    rewrite /= ?conjC0 ?mul0r ?mulr0 //= ?c0 // c_conj -cM ?s15 ?s57.
rewrite /inst_cov e; apply: to_psd_id => //.
by rewrite /eXX; case: ifP => _; exact: dg_herm.
Qed.
Lemma eXX_psd i j : psd (eXX i j).
Proof. by rewrite /eXX; case: ifP => _; apply: dg_psd; lra. Qed.
Lemma eXX_nz i j : eXX i j != 0.
Proof.
apply/eqP => e.
have h0 : (15 + 0 <> 0 :> R)%coqR by lra.
have h1 : (0 + 57 <> 0 :> R)%coqR by lra.
have : re (\tr (eXX i j)) = re (\tr (0 : 'M[Cx]_2)) by rewrite e.
by rewrite mxtrace0 -c0 rec /eXX; case: ifP => _; rewrite dg_tr.
Qed.
Lemma e_model (L : 'I_2 -> 'I_1 -> 'I_2 -> R) i j : rmodel L eH i j =
  dg (L 0%R i j / 5 + 3 * L 1%R i j / 5)%coqR (4 * L 0%R i j / 5 + 2 * L 1%R i j / 5)%coqR.
Proof. by rewrite /rmodel EighProofs.sum2 /eH /= !dg_scale dg_add; congr dg; toR; Rf; lra. Qed.

(** the whole latent update can increase the loss: renormalising the columns of the latent
    matrix is not compensated in the basis *)
Theorem C64_latent_refuted eig : eigh_contract eig ->
  exists (X : 'I_1 -> 'M[Cx]_(2, 2)) (H : 'I_2 -> 'I_1 -> 'M[Cx]_2)
   (Z Z' : 'I_2 -> 'I_1 -> R) (C : 'I_1 -> 'I_1 -> R) (A : 'I_1 -> 'I_2 -> R) l l',
  [/\ [/\ forall n i, pd (H n i) /\ re (\tr (H n i)) = 1, forall n k, (0 < Z n k)%coqR, forall k, \sum_n Z n k = 1,
       forall i k, (0 < C i k)%coqR & forall k j, (0 < A k j)%coqR],
     gauss_latent identity_fl eig (inst_cov identity_fl eig X) H Z C A = Some Z',
     gauss_loss identity_fl eig (inst_cov identity_fl eig X) (recon_lat Z C A) H = Some l,
     gauss_loss identity_fl eig (inst_cov identity_fl eig X) (recon_lat Z' C A) H = Some l' & (l < l')%coqR].
Proof.
move=> He.
have XE : inst_cov identity_fl eig eX = eXX.
  by apply: functional_extensionality => i; apply: functional_extensionality => j; exact: eXXE.
pose Z (n : 'I_2) (k : 'I_1) : R := if n == 0 then (2 / 3)%coqR else (/ 3)%coqR.
pose Z' (n : 'I_2) (k : 'I_1) : R := if n == 0 then (16 / 23)%coqR else (7 / 23)%coqR.
pose C1 := one (I := 'I_1) (J := 'I_1); pose A1 := one (I := 'I_1) (J := 'I_2).
have qE (Z1 : 'I_2 -> 'I_1 -> R) n i j : recon_lat Z1 C1 A1 n i j = Z1 n 0.
  by rewrite /recon_lat sum1 /C1 /A1 /one; toR; Rr.
have Z0 n k : (0 < Z n k)%coqR by rewrite /Z; case: ifP => _; lra.
have Z'0 n k : (0 < Z' n k)%coqR by rewrite /Z'; case: ifP => _; lra.
have ina L := id_inact He L eH_pd.
have mE i j : rmodel (recon_lat Z C1 A1) eH i j = dg (/ 3)%coqR (2 / 3)%coqR.
  by rewrite e_model !qE /Z /=; congr dg; Rf; lra.
have mE' i j : rmodel (recon_lat Z' C1 A1) eH i j = dg (37 / 115)%coqR (78 / 115)%coqR.
  by rewrite e_model !qE /Z' /=; congr dg; Rf; lra.
have iE i j : invmx (rpsd identity_fl eig (recon_lat Z C1 A1) eH i j) = dg 3%coqR (3 / 2)%coqR.
  by rewrite inactE // mE dg_inv; [congr dg; Rf; lra|lra|lra].
have t1 n i j : tr_RXXRH identity_fl eig eXX (recon_lat Z C1 A1) eH n i j =
    if j == 0 then (if n == 0 then (27)%coqR else (81)%coqR) else (if n == 0 then (513 / 5)%coqR else (513 / 10)%coqR).
  rewrite /tr_RXXRH !iE /eXX /eH.
  by case: ifP => _; case: ifP => _; rewrite !dg_mul dg_tr; toR; Rf; lra.
have t2 n i j : tr_RH identity_fl eig (recon_lat Z C1 A1) eH n i j = (if n == 0 then (9 / 5)%coqR else (12 / 5)%coqR).
  by rewrite /tr_RH iE /eH; case: ifP => _; rewrite !dg_mul dg_tr; toR; Rf; lra.
have nE n k : gl_num identity_fl eig eXX eH Z C1 A1 n k = (if n == 0 then (648 / 5)%coqR else (1323 / 10)%coqR).
  rewrite /gl_num sum1 sum2 !t1 /C1 /A1 /one; toR; rewrite /=.
  by case: ifP => _; Rf; lra.
have dE n k : gl_den identity_fl eig eH Z C1 A1 n k = (if n == 0 then (18 / 5)%coqR else (24 / 5)%coqR).
  rewrite /gl_den sum1 sum2 !t2 /C1 /A1 /one; toR.
  by case: ifP => _; Rf; lra.
have st : gauss_latent_step identity_fl eig eXX eH Z C1 A1 =
   Some (fun n k => if n == 0 then 4%coqR else (7 / 4)%coqR).
  rewrite /gauss_latent_step rpsd_unitP //; last by move=> i j; rewrite mE; apply: dg_pd; lra.
  rewrite ifT; last first.
    apply/forallP => n; apply/forallP => k; rewrite nE dE; apply: ratio_okP; case: ifP => _; lra.
  congr Some; apply: functional_extensionality => n; apply: functional_extensionality => k.
  rewrite nE dE /Z; case: ifP => _.
    have -> : (648 / 5 / (18 / 5) = 6 * 6)%coqR by Rf; lra.
    by rewrite sqrt_square; [toR; Rf; lra|lra].
  have -> : (1323 / 10 / (24 / 5) = (21 / 4) * (21 / 4))%coqR by Rf; lra.
  by rewrite sqrt_square; [toR; Rf; lra|lra].
exists eX, eH, Z, Z', C1, A1; rewrite XE; do 2 eexists; split.
- split=> [n i|//|k|i k|k j]; last 2 first.
  + by rewrite /C1 /one; lra.
  + by rewrite /A1 /one; lra.
  + by split; [exact: eH_pd|exact: eH_tr].
  + by rewrite sum2 /Z /=; toR; Rf; lra.
- rewrite /gauss_latent st /latent_normalise ifT; last first.
    by apply/forallP => k; rewrite sum2 /=; apply/eqP; toR; lra.
  congr Some; apply: functional_extensionality => n; apply: functional_extensionality => k.
  by rewrite sum2 /Z' /=; case: ifP => _; Rf; lra.
- by apply: gauss_lossE => // i j; rewrite mE; apply: dg_pd; lra.
- by apply: gauss_lossE => // i j; rewrite mE'; apply: dg_pd; lra.
rewrite /loss_mx !sum1 !mean2 /cost_at !mE !mE' !dg_inv; try lra.
rewrite !dg_det; try lra.
rewrite /rtr /eXX /= !dg_mul !dg_tr; toR.
set u := (/ 3 * (2 / 3))%coqR; set v := (37 / 115 * (78 / 115))%coqR.
suff : (ln u - ln v < / 50)%coqR by rewrite /u /v; lra.
have v0 : (0 < v)%coqR by rewrite /v; lra.
have h : (u = v * (13225 / 12987))%coqR by rewrite /u /v; Rf; lra.
rewrite h ln_mult; [|exact: v0|lra].
have := exp_ineq1_le (13225 / 12987 - 1)%coqR => h1.
have : (ln (13225 / 12987) <= 13225 / 12987 - 1)%coqR.
  rewrite -[X in (_ <= X)%coqR]ln_exp; case: h1 => h1; last by rewrite -h1; apply: Req_le; congr ln; lra.
  by apply: Rlt_le; apply: ln_increasing; lra.
lra.
Qed.

Lemma e_recon_gt0 (L : 'I_2 -> 'I_1 -> 'I_2 -> R) i j : (forall n i j, (0 < L n i j)%coqR) ->
  (0 < L 0%R i j / 5 + 3 * L 1%R i j / 5)%coqR /\ (0 < 4 * L 0%R i j / 5 + 2 * L 1%R i j / 5)%coqR.
Proof. by move=> L0; have := L0 0 i j; have := L0 1 i j; lra. Qed.
Lemma e_ricQ L n i : (forall n i j, (0 < L n i j)%coqR) -> pd (ric_Q eXX L eH n i).
Proof.
move=> L0.
have -> : ric_Q eXX L eH n i =
  \sum_j c (L n i j) *: (invmx (rmodel L eH i j) *m eXX i j *m invmx (rmodel L eH i j)) by [].
rewrite EighProofs.sum2 !e_model.
have [a0 b0] := e_recon_gt0 i 0 L0; have [a1 b1] := e_recon_gt0 i 1 L0.
rewrite !dg_inv // /eXX /= !dg_mul !dg_scale dg_add.
have la := L0 n i 0; have lb := L0 n i 1.
apply: dg_pd; toR.
  apply: Rplus_lt_le_0_compat; last by rewrite !(Rmult_0_r, Rmult_0_l); exact: Rle_refl.
  apply: Rmult_lt_0_compat => //; apply: Rmult_lt_0_compat; last exact: Rinv_0_lt_compat.
  by apply: Rmult_lt_0_compat; [exact: Rinv_0_lt_compat|lra].
apply: Rplus_le_lt_0_compat; first by rewrite !(Rmult_0_r, Rmult_0_l); exact: Rle_refl.
apply: Rmult_lt_0_compat => //; apply: Rmult_lt_0_compat; last exact: Rinv_0_lt_compat.
by apply: Rmult_lt_0_compat; [exact: Rinv_0_lt_compat|lra].
Qed.

Example C64_once_no_flooring_instance : exists eig chol s' l l',
  [/\ eigh_contract eig /\ chol_contract chol,
    gauss_once identity_fl eig chol true (inst_cov identity_fl eig eX)
      (GaussState eH (fun _ => one (J := 'I_1)) (fun _ => one (J := 'I_2))) = Some s',
    gauss_loss identity_fl eig (inst_cov identity_fl eig eX) (recon (fun _ => one (J := 'I_1)) (fun _ => one (J := 'I_2))) eH = Some l,
    gauss_loss identity_fl eig (inst_cov identity_fl eig eX) (recon (gs_B s') (gs_V s')) (gs_H s') = Some l' & (l' <= l)%coqR].
Proof.
have [eig He] := eigh_contract_sat; have [chol Hc] := chol_contract_sat.
have XE : inst_cov identity_fl eig eX = eXX.
  by apply: functional_extensionality => i; apply: functional_extensionality => j; exact: eXXE.
have h : (0 < 1)%coqR by lra.
have [||||||s' [l [l' [e1 _ e2 e3 le]]]] := @C64_once_no_flooring 2 2 1 2 1 eig chol He Hc isT isT isT isT eXX eXX_psd true
  (GaussState eH (fun _ => one (J := 'I_1)) (fun _ => one (J := 'I_2))) isT.
- by move=> i; exists 0; exact: eXX_nz.
- by move=> j; exists 0; exact: eXX_nz.
- exact: eH_pd.
- by [].
- by [].
- by move=> L n i; exact: e_ricQ.
by exists eig, chol, s', l, l'; rewrite XE.
Qed.

(** a case where the floor is present but does not act: all covariances are scalar matrices *)
Definition sH (n : 'I_2) (i : 'I_1) : 'M[Cx]_2 := dg 1 1.
Definition sXX (i : 'I_1) (j : 'I_2) : 'M[Cx]_2 := dg 8%coqR 8%coqR.
Lemma s_model (L : 'I_2 -> 'I_1 -> 'I_2 -> R) (h q : R) i j : (forall n i j, L n i j = q) ->
  rmodel L (fun _ _ => dg h h) i j = dg (2 * q * h)%coqR (2 * q * h)%coqR.
Proof. by move=> Lq; rewrite /rmodel EighProofs.sum2 !dg_scale dg_add !Lq; congr dg; toR; Rf; lra. Qed.
Section Scalar.
Variables (eig : eigh_t) (chol : chol_t).
Hypotheses (He : eigh_contract eig) (Hc : chol_contract chol).
Notation fl := (max_flooring 1).
Lemma s_psd x : (1 <= x)%coqR -> to_psd eig fl (dg x x) = dg x x.
Proof. by move=> x1; apply: (C25_identity He); [exact: dg_herm|exact: dg_above]. Qed.
Lemma s_rpsd (L : 'I_2 -> 'I_1 -> 'I_2 -> R) q i j : (forall n i j, L n i j = q) -> (1 <= 2 * q)%coqR ->
  rpsd fl eig L sH i j = dg (2 * q)%coqR (2 * q)%coqR.
Proof. by move=> Lq q1; rewrite /rpsd (s_model 1 i j Lq) Rmult_1_r s_psd. Qed.
Lemma s_high (L : 'I_2 -> 'I_1 -> 'I_2 -> R) q : (forall n i j, L n i j = q) -> (1 <= 2 * q)%coqR -> high 1 L sH.
Proof. by move=> Lq q1 i j; rewrite -[\sum_n _]/(rmodel L sH i j) (s_model 1 i j Lq) Rmult_1_r; apply: dg_above. Qed.
Lemma s_t1 (L : 'I_2 -> 'I_1 -> 'I_2 -> R) q n i j : (forall n i j, L n i j = q) -> (1 <= 2 * q)%coqR ->
  tr_RXXRH fl eig sXX L sH n i j = (4 / (q * q))%coqR.
Proof.
move=> Lq q1; rewrite /tr_RXXRH !(s_rpsd _ _ Lq) // !dg_inv; try lra.
by rewrite /sXX /sH !dg_mul dg_tr; toR; Rf; lra.
Qed.
Lemma s_t2 (L : 'I_2 -> 'I_1 -> 'I_2 -> R) q n i j : (forall n i j, L n i j = q) -> (1 <= 2 * q)%coqR -> tr_RH fl eig L sH n i j = (/ q)%coqR.
Proof.
move=> Lq q1; rewrite /tr_RH !(s_rpsd _ _ Lq) // !dg_inv; try lra.
by rewrite /sH !dg_mul dg_tr; toR; Rf; lra.
Qed.
Notation B0 := (fun _ : 'I_2 => one (I := 'I_1) (J := 'I_1)).
Notation V0 := (fun _ : 'I_2 => one (I := 'I_1) (J := 'I_2)).

Lemma s_recon0 n i j : recon B0 V0 n i j = 1%coqR.
Proof. by rewrite /recon sum1 /one; toR; Rr. Qed.
Lemma s_basis B1 : gauss_basis fl eig sXX sH B0 V0 = Some B1 -> forall n i k, B1 n i k = 2%coqR.
Proof.
have r0 := s_recon0; rewrite /gauss_basis; case: ifP => [_|_]; last by [].
case=> <- n i k; rewrite /gb_num /gb_den !sum2 !(s_t1 _ _ _ r0) ?(s_t2 _ _ _ r0); try lra.
rewrite /one; toR.
have -> : ((1 * (4 / (1 * 1)) + 1 * (4 / (1 * 1))) / (1 * / 1 + 1 * / 1) = 2 * 2)%coqR by Rf; lra.
by rewrite sqrt_square; [rewrite /max_flooring Rmax_left; lra|lra].
Qed.
Lemma s_recon1 B1 : gauss_basis fl eig sXX sH B0 V0 = Some B1 -> forall n i j, recon B1 V0 n i j = 2%coqR.
Proof. by move=> e n i j; rewrite /recon sum1 (s_basis e) /one; toR; Rr. Qed.
Lemma s2 : (R_sqrt.sqrt 2 * R_sqrt.sqrt 2 = 2)%coqR. Proof. by apply: sqrt_sqrt; lra. Qed.
Lemma s1 : (1 < R_sqrt.sqrt 2)%coqR. Proof. by rewrite -sqrt_1; apply: sqrt_lt_1; lra. Qed.
Lemma s_recon2 B1 V1 : gauss_basis fl eig sXX sH B0 V0 = Some B1 -> gauss_activation fl eig sXX sH B1 V0 = Some V1 ->
  forall n i j, recon B1 V1 n i j = (2 * R_sqrt.sqrt 2)%coqR.
Proof.
move=> eB eV; have rB := s_recon1 eB; have := s1 => s1.
have V1E n k j : V1 n k j = R_sqrt.sqrt 2.
  move: eV; rewrite /gauss_activation; case: ifP => [_|_]; last by [].
  case=> <-; rewrite /ga_num /ga_den !sum1 !(s_t1 _ _ _ rB) ?(s_t2 _ _ _ rB); try lra.
  rewrite !(s_basis eB) /one; toR.
  have -> : (2 * (4 / (2 * 2)) / (2 * / 2) = 2)%coqR by Rf; lra.
  by rewrite /max_flooring Rmult_1_l Rmax_left; lra.
by move=> n i j; rewrite /recon sum1 (s_basis eB) V1E.
Qed.
Lemma s_ric (L : 'I_2 -> 'I_1 -> 'I_2 -> R) n i : (forall n i j, L n i j = (2 * R_sqrt.sqrt 2)%coqR) ->
  ric_P L sH n i = dg 1%coqR 1%coqR /\ sH n i *m ric_Q sXX L sH n i *m sH n i = dg (R_sqrt.sqrt 2) (R_sqrt.sqrt 2).
Proof.
move: (R_sqrt.sqrt 2) s1 s2 => w w1 w2 r2.
have rmE j : \sum_m c (L m i j) *: sH m i = dg (4 * w)%coqR (4 * w)%coqR.
  by rewrite -[\sum_n _]/(rmodel _ sH i j) (s_model 1 i j r2); congr dg; Rf; lra.
split.
  rewrite /ric_P EighProofs.sum2 !rmE !r2 !dg_inv; try lra.
  by rewrite !dg_scale dg_add; congr dg; toR; Rf; lra.
have -> : ric_Q sXX L sH n i = dg w w.
  rewrite /ric_Q EighProofs.sum2 !rmE !r2 !dg_inv; try lra.
  rewrite /sXX !dg_mul !dg_scale dg_add; toR.
  suff -> : (2 * w * (/ (4 * w) * 8 * / (4 * w)) + 2 * w * (/ (4 * w) * 8 * / (4 * w)) = w)%coqR by [].
  have -> : (2 * w * (/ (4 * w) * 8 * / (4 * w)) + 2 * w * (/ (4 * w) * 8 * / (4 * w)) = 2 / w)%coqR by Rf; lra.
  by rewrite -w2; Rf; lra.
by rewrite /sH !dg_mul; congr dg; toR; Rf; lra.
Qed.
Lemma s_solution (G : 'M[Cx]_2) : pd G -> G *m dg 1%coqR 1%coqR *m G = dg (R_sqrt.sqrt 2) (R_sqrt.sqrt 2) ->
  exists2 g, (1 < g)%coqR & G = dg g g.
Proof.
move: (R_sqrt.sqrt 2) s1 => w w1 pG eG.
have w0 : (0 < w)%coqR by lra.
have [G0 [_ _ _ u]] := C24_type2 He Hc (dg_pd Rlt_0_1 Rlt_0_1) (dg_pd w0 w0).
have q1 : (1 < R_sqrt.sqrt w)%coqR by rewrite -sqrt_1; apply: sqrt_lt_1; lra.
exists (R_sqrt.sqrt w) => //.
rewrite (u _ pG eG); symmetry; apply: u; first by apply: dg_pd; lra.
by rewrite !dg_mul; congr dg; toR; rewrite Rmult_1_r sqrt_sqrt; lra.
Qed.
Lemma s_high_spatial L : (forall n i j, L n i j = (2 * R_sqrt.sqrt 2)%coqR) -> high_spatial 1 sXX L sH.
Proof.
move=> r2 n i; have [-> ->] := s_ric n i r2; have := s1 => s1.
split; [by apply: dg_above; lra|by apply: dg_above; lra|].
by move=> G pG /(s_solution pG)[g g1 ->]; apply: dg_above; lra.
Qed.
Lemma s_H_pd n i : pd (sH n i).
Proof. by apply: dg_pd; toR; lra. Qed.
Lemma s_XX_pd i j : pd (sXX i j).
Proof. by apply: dg_pd; lra. Qed.
Lemma s_quiet nrm : quiet eig chol 1 sXX nrm (GaussState sH B0 V0).
Proof.
have e1 : (0 < 1)%coqR by lra.
split=> /= [|B1 eB|s'].
- by apply: (s_high s_recon0); lra.
- have rB := s_recon1 eB; split; first by apply: (s_high rB); lra.
  move=> V1 eV; have r2 := s_recon2 eB eV; have := s1 => s1; split; first by apply: (s_high r2); lra.
  exact: s_high_spatial.
rewrite /gauss_once; case eB: (gauss_basis _ _ _ _ _ _) => [B1|//].
case eV: (gauss_activation _ _ _ _ _ _) => [V1|//].
have r2 := s_recon2 eB eV; have := s1 => s1.
have R0 n i j : (0 < recon B1 V1 n i j)%coqR by rewrite r2; lra.
have h2 : high 1 (recon B1 V1) sH by apply: (s_high r2); lra.
have [H1 [-> pH1 hH1 _]] := C53_riccati He Hc (isT : (0 < 2)%N) (isT : (0 < 2)%N) s_XX_pd s_H_pd R0 h2 (s_high_spatial r2).
have hi : high 1 (recon B1 V1) H1.
  have gE n i : exists2 g, (1 < g)%coqR & H1 n i = dg g g.
    by apply: s_solution; [exact: pH1|have := hH1 n i; have [-> ->] := s_ric n i r2].
  move=> i j; rewrite EighProofs.sum2; have [g0 h0 ->] := gE 0 i; have [g1 h1 ->] := gE 1 i.
  rewrite !r2 !dg_scale dg_add; apply: dg_above; toR; nra.
case: nrm; last by case=> <-.
case eN: (gauss_norm _ _) => [[H2 B2]|//] [<-] /= i j.
have [eR _ _ _] := C51_gauss fl eig (fun _ => 0) sXX V1 0 eN.
rewrite -[\sum_n _]/(rmodel (recon B2 V1) H2 i j) eR; exact: hi.
Qed.
Example C64_once_instance nrm : exists s' l l', [/\ gauss_once fl eig chol nrm sXX (GaussState sH B0 V0) = Some s',
    gauss_loss fl eig sXX (recon B0 V0) sH = Some l,
    gauss_loss fl eig sXX (recon (gs_B s') (gs_V s')) (gs_H s') = Some l' & (l' <= l)%coqR].
Proof.
have e1 : (0 < 1)%coqR by lra.
have h : (1 <= 1)%coqR by lra.
have [|||s' [l [l' [a1 _ a2 a3 le]]]] := @C64_once 2 2 1 2 1 eig chol He Hc isT isT isT isT 1 sXX e1 (fun i j => pd_psd (s_XX_pd i j))
  nrm (GaussState sH B0 V0) isT s_XX_pd s_H_pd.
- by [].
- by [].
- exact: s_quiet.
by exists s', l, l'.
Qed.
End Scalar.

(** a separated mixture *)
Example C50_instance : exists eig Y, [/\ eigh_contract eig,
  gauss_separate identity_fl eig eX (fun _ => one (I := 'I_1) (J := 'I_2)) eH 1 = Some Y &
  \sum_n Y n 0 1 = c (R_sqrt.sqrt 57)].
Proof.
have [eig He] := eigh_contract_sat.
have h : (0 < 1)%coqR by lra.
have [|Y eY hY] := @C50_gauss_no_flooring 2 2 1 2 eig eX (fun _ => one (I := 'I_1) (J := 'I_2)) eH 1 He isT eH_pd; first by [].
by exists eig, Y; split=> //; rewrite hY /eX dgE.
Qed.

(** with [partitioning=True] the trace normalisation is not compensated and can increase the loss *)
Theorem C51_partitioning_refuted eig : eigh_contract eig ->
  exists (XX : 'I_1 -> 'I_1 -> 'M[Cx]_2) (H H' : 'I_1 -> 'I_1 -> 'M[Cx]_2)
   (Z C A : 'I_1 -> 'I_1 -> R) l l',
  [/\ forall n i, pd (H n i), gauss_pnorm H = Some H',
     gauss_loss identity_fl eig XX (recon_lat Z C A) H = Some l,
     gauss_loss identity_fl eig XX (recon_lat Z C A) H' = Some l' & (l < l')%coqR].
Proof.
move=> He.
pose XX (i j : 'I_1) := dg 2%coqR 2%coqR.
pose H (n i : 'I_1) := dg 2%coqR 2%coqR; pose H' (n i : 'I_1) := dg (/ 2)%coqR (/ 2)%coqR.
pose o := one (I := 'I_1) (J := 'I_1).
have pH n i : pd (H n i) by apply: dg_pd; lra.
have pH' n i : pd (H' n i) by apply: dg_pd; lra.
have rE n i j : recon_lat o o o n i j = 1 by rewrite /recon_lat sum1 /o /one; toR; Rr.
have mE (G : 'I_1 -> 'I_1 -> 'M[Cx]_2) i j : rmodel (recon_lat o o o) G i j = G 0 i.
  by rewrite /rmodel big_ord_recl big_ord0 addr0 rE c1 scale1r.
exists XX, H, H', o, o, o; do 2 eexists; split.
- exact: pH.
- rewrite /gauss_pnorm ifT; last first.
    by apply/forallP => n; apply/forallP => i; rewrite dg_tr; apply/eqP; toR; lra.
  congr Some; apply: functional_extensionality => n; apply: functional_extensionality => i.
  rewrite dg_tr -cV -RinvE; last by lra.
  by rewrite dg_scale; congr dg; toR; Rf; lra.
- by apply: gauss_lossE => //; [exact: id_inact|move=> i j; rewrite mE].
- by apply: gauss_lossE => //; [exact: id_inact|move=> i j; rewrite mE].
rewrite /loss_mx !sum1 !mean1 /cost_at !mE /H /H' /XX !dg_inv; try lra.
rewrite !dg_det; try lra.
rewrite /rtr !dg_mul !dg_tr; toR.
have -> : (/ 2 * / 2 = / (2 * 2))%coqR by Rf; lra.
rewrite ln_Rinv; last by lra.
have := ln_sub1 2 (ltac:(lra) : (0 < 2)%coqR).
by rewrite ln_mult; lra.
Qed.

Print Assumptions C53_riccati.
Print Assumptions C53_riccati_no_flooring.
Print Assumptions C64_basis.
Print Assumptions C64_activation.
Print Assumptions C64_basis_no_flooring.
Print Assumptions C64_activation_no_flooring.
Print Assumptions C64_partitioned_basis.
Print Assumptions C64_partitioned_activation.
Print Assumptions C64_latent_step.
Print Assumptions C64_latent_simplex.
Print Assumptions C64_spatial.
Print Assumptions C64_spatial_no_flooring.
Print Assumptions C64_once.
Print Assumptions C64_once_no_flooring.
Print Assumptions C64_latent_refuted.
Print Assumptions C51_partitioning_refuted.
