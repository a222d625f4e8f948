(** C86: calls of GaussMNMF without flooring. *)
From Coq Require Import Reals Lra FunctionalExtensionality ClassicalEpsilon.
From mathcomp Require Import all_ssreflect all_algebra.
From mathcomp Require Import ring.
From Verif Require Import RStruct MxC CxR NpLin RealLemmas NmfReal NmfMM Eigh EighProofs Prop_Linalg.
From Verif Require Import SpatialIP SpatialIP2 Scale AuxIVA AuxIVAProofs AuxIVARun AuxIVACall Prop_AuxIVA Prop_AuxIVAFloor Prop_AuxIVARun.
From Verif Require Import Ilrma IlrmaProofs TraceMM Mnmf MnmfMM MnmfGauss Prop_Mnmf Prop_MnmfGauss Prop_MnmfRun GaussRun.
Import Order.TTheory GRing.Theory Num.Theory.
Set Implicit Arguments.
Unset Strict Implicit.
Unset Printing Implicit Defensive.
Local Open Scope ring_scope.

(** [np.linalg.cholesky] moreover raises on Hermitian matrices that are not positive definite *)
Definition chol_strict (chol : chol_t) : Prop :=
  chol_contract chol /\ forall n (B L : 'M[Cx]_n), B^H = B -> chol n B = Some L -> pd B.
Lemma chol_strict_sat : exists chol, chol_strict chol.
Proof.
have [ch Hc] := chol_contract_sat.
exists (fun n B => if excluded_middle_informative (pd B) then ch n B else None); split=> [n B pB|n B L _].
  by case: (excluded_middle_informative (pd B)) => [p|//]; exact: Hc.
by case: (excluded_middle_informative (pd B)).
Qed.

Lemma recorded_last S (step : S -> option S) (loss : S -> option R) (Inv : S -> Prop) :
  (forall s s', Inv s -> step s = Some s' -> Inv s') -> forall k s s' ls, Inv s ->
  recorded step loss k.+1 s = Some (s', ls) -> exists u, Inv u /\ step u = Some s'.
Proof.
move=> hs; elim=> [|k IH] s s' ls ps.
  rewrite /=; case: (loss s) => [l|//]; case eu: (step s) => [u|//]; case: (loss u) => [l2|//] [<- _].
  by exists s.
rewrite -[recorded _ _ _ s]/(if loss s is Some l then if step s is Some s1 then
  if recorded step loss k.+1 s1 is Some (sf, ls) then Some (sf, l :: ls) else None else None else None).
case: (loss s) => [l|//]; case eu: (step s) => [u|//]; case e: (recorded _ _ _ _) => [[s2 l2]|//] [es _].
by rewrite es in e; exact: (IH u s' l2 (hs _ _ ps eu) e).
Qed.

Section Gauss.
Variables (N M F T K : nat) (eig : eigh_t) (chol : chol_t).
Notation state := (gauss_state N M F T K).
Notation spec := ('I_F -> 'M[Cx]_(M, T)).
Notation spat := ('I_N -> 'I_F -> 'M[Cx]_M).
Notation covs := ('I_F -> 'I_T -> 'M[Cx]_M).
Notation cells := ('I_N -> 'I_F -> 'I_T -> R).
Notation fl := identity_fl.
Implicit Types (s : state) (X : spec) (H : spat) (XX : covs) (L : cells).
Hypotheses (N0 : (0 < N)%N) (M0 : (0 < M)%N) (F0 : (0 < F)%N) (T0 : (0 < T)%N) (K0 : (0 < K)%N).
Hypotheses (He : eigh_contract eig) (Hc : chol_strict chol).

(** positive definite spatial covariances, positive parameters *)
Definition gproper s : Prop :=
  [/\ forall n i, pd (gs_H s n i), forall n i k, (0 < gs_B s n i k)%coqR & forall n k j, (0 < gs_V s n k j)%coqR].
(** no bin and no frame of the recording is silent *)
Definition audible X : Prop := (forall i, exists j, col j (X i) != 0) /\ (forall j, exists i, col j (X i) != 0).

Lemma inst_covE X i j : inst_cov fl eig X i j = col j (X i) *m (col j (X i))^H.
Proof. by apply: to_psd_id => //; rewrite ctrM ctrK. Qed.
Lemma inst_psd X i j : psd (inst_cov fl eig X i j).
Proof. by rewrite inst_covE; exact: psd_outer. Qed.

Lemma xx_neq0 (x : 'cV[Cx]_M) : x != 0 -> x *m x^H != 0.
Proof.
apply: contraNneq => h; apply/eqP/colP => i; rewrite [RHS]mxE.
have := congr1 (fun A : 'M[Cx]_M => A i i) h; rewrite mxE big_ord1 ctrE mxE => e.
by apply/eqP; rewrite -mul_conjC_eq0 e.
Qed.
Lemma audible_bins X : audible X -> forall i, exists j, inst_cov fl eig X i j != 0.
Proof. by move=> [h _] i; have [j hj] := h i; exists j; rewrite inst_covE; exact: xx_neq0. Qed.
Lemma audible_frames X : audible X -> forall j, exists i, inst_cov fl eig X i j != 0.
Proof. by move=> [_ h] j; have [i hi] := h j; exists i; rewrite inst_covE; exact: xx_neq0. Qed.

(** the spatial update returns only when the right-hand sides of its Riccati equations are
    positive definite *)
Lemma spatial_some XX L H H' : (forall i j, psd (XX i j)) -> (forall n i, pd (H n i)) ->
  gauss_spatial fl eig chol XX L H = Some H' -> forall n i, pd (ric_Q XX L H n i).
Proof.
move=> pX pH; rewrite /gauss_spatial; case hc: (_ && _); last by [].
have /andP[_ /forallP ok] := hc => _ n i.
have := ok n; move/forallP/(_ i); rewrite /gauss_spatial_at.
have ina := id_inact He L pH.
have hR i' j' : (rmodel L H i' j')^H = rmodel L H i' j' by exact: rmodel_herm.
have hQ : (ric_Q XX L H n i)^H = ric_Q XX L H n i.
  rewrite /ric_Q ctr_sum; apply: eq_bigr => j _; rewrite ctrZ c_conj; congr (_ *: _).
  rewrite -[\sum_m _]/(rmodel L H i j) !ctrM ctr_inv hR; have [-> _] := pX i j.
  by rewrite mulmxA.
have [hH _] := pH n i; have uH := pd_unit (pH n i).
have hHQH : (H n i *m ric_Q XX L H n i *m H n i)^H = H n i *m ric_Q XX L H n i *m H n i.
  by rewrite !ctrM hQ hH mulmxA.
rewrite (ric_QE _ _ _ ina) (to_psd_id He hHQH) /gmeanmh /eigh /geigh.
case ec: (chol _) => [Lc|//] _; have [_ /(_ _ _ _ hHQH ec) p] := Hc.
have -> : ric_Q XX L H n i = (invmx (H n i))^H *m (H n i *m ric_Q XX L H n i *m H n i) *m invmx (H n i).
  by rewrite ctr_inv hH -!mulmxA mulmxV // mulmx1 mulKmx.
by apply: pd_congr_unit => //; rewrite unitmx_inv.
Qed.

Lemma mnmf_loss_some XX s : gproper s -> exists l, mnmf_loss fl eig XX s = Some l.
Proof.
by case=> pH B0 V0; eexists; apply: loss_id => // n i j; exact: recon_gt0.
Qed.
Lemma once_some nrm X s s' : audible X -> gproper s -> gauss_once fl eig chol nrm (inst_cov fl eig X) s = Some s' ->
  [/\ gproper s', nrm -> forall n i, re (\tr (gs_H s' n i)) = 1 &
    exists l l', [/\ mnmf_loss fl eig (inst_cov fl eig X) s = Some l,
      mnmf_loss fl eig (inst_cov fl eig X) s' = Some l' & (l' <= l)%coqR]].
Proof.
case: s => H B V aX [/= pH B0 V0]; set XX := inst_cov fl eig X.
have pX i j : psd (XX i j) by exact: inst_psd.
have [Hc1 _] := Hc.
have [B1 [l0 [l1 [eB B10 L0 L1 le1]]]] := C64_basis_no_flooring He N0 M0 T0 K0 pX pH (audible_bins aX) B0 V0.
have [V1 [l1' [l2 [eV V10 L1' L2 le2]]]] := C64_activation_no_flooring He N0 M0 T0 K0 pX F0 pH (audible_frames aX) B10 V0.
have R0 n i j : (0 < recon B1 V1 n i j)%coqR by apply: recon_gt0.
rewrite /gauss_once eB eV; case eS: (gauss_spatial _ _ _ _ _ _) => [H1'|//].
have pQ := spatial_some pX pH eS.
have [H1 [l2' [l3 [eH pH1 L2' L3 le3]]]] := C64_spatial_no_flooring He Hc1 N0 T0 pX pH R0 pQ.
have := eH; rewrite eS => -[eHH]; rewrite {H1'}eHH in eS *.
have le : (l3 <= l0)%coqR.
  have := L1'; rewrite L1 => -[h1]; have := L2'; rewrite L2 => -[h2].
  by rewrite -h1 in le2; rewrite -h2 in le3; lra.
case: nrm; last by case=> <-; split=> //; exists l0, l3.
have [H2 [B2 e2]] := C51_gauss_defined B1 M0 pH1.
have [_ eL _ tr1] := C51_gauss fl eig (fun _ => 0) XX V1 (Ordinal M0) e2.
have t0 n i := rtr_pd M0 (pH1 n i).
rewrite e2 => -[<-]; split=> //; last first.
  by exists l0, l3; split=> //; rewrite /mnmf_loss /= eL.
move: e2; rewrite /gauss_norm; case: [forall n, _] => [|//].
case=> <- <-; split=> //= [n i|n i k].
  by apply: pdZ => //; rewrite -cV; apply: c_gt0; rewrite -RinvE; [exact: Rinv_0_lt_compat (t0 n i)|have := t0 n i; rewrite /rtr; lra].
exact: Rmult_lt_0_compat (t0 n i) (B10 n i k).
Qed.

(** every run that returns has non-increasing losses *)
Theorem C86_run nrm X k s s' ls : audible X -> gproper s -> mnmf_run fl eig chol nrm X k s = Some (s', ls) ->
  [/\ gproper s', size ls = k.+1 & non_increasing ls].
Proof.
move=> aX ps e.
have [||ps' sz w] := @recorded_some _ (gauss_once fl eig chol nrm (inst_cov fl eig X)) (mnmf_loss fl eig (inst_cov fl eig X)) 0%coqR gproper _ _ k s s' ls ps e.
- by move=> u pu; exact: mnmf_loss_some.
- move=> u u' pu eu; have [pu' _ [l [l' [? ? ?]]]] := once_some aX pu eu.
  by split=> //; exists l, l'; split=> //; lra.
by split=> //; exact: within0.
Qed.
(** it is complete as long as the Riccati equations have positive definite right-hand sides *)
Definition solvable X s : Prop := forall B1 V1,
  gauss_basis fl eig (inst_cov fl eig X) (gs_H s) (gs_B s) (gs_V s) = Some B1 ->
  gauss_activation fl eig (inst_cov fl eig X) (gs_H s) B1 (gs_V s) = Some V1 ->
  forall n i, pd (ric_Q (inst_cov fl eig X) (recon B1 V1) (gs_H s) n i).
Theorem C86_run_complete nrm X k s : audible X -> gproper s ->
  along (gauss_once fl eig chol nrm (inst_cov fl eig X)) (solvable X) k s ->
  exists s' ls, mnmf_run fl eig chol nrm X k s = Some (s', ls).
Proof.
move=> aX ps al.
have [|||s' [ls [e _ _ _]]] := @recorded_along _ (gauss_once fl eig chol nrm (inst_cov fl eig X))
    (mnmf_loss fl eig (inst_cov fl eig X)) 0%coqR gproper (solvable X) _ _ k s ps; last by exists s', ls.
- by move=> u pu; exact: mnmf_loss_some.
- move=> u pu su; suff [u' eu] : exists u', gauss_once fl eig chol nrm (inst_cov fl eig X) u = Some u'.
    have [pu' _ [l [l' [? ? ?]]]] := once_some aX pu eu.
    by exists u', l, l'; split=> //; lra.
  case: u pu su => H B V [/= pH B0 V0] su; set XX := inst_cov fl eig X.
  have pX i j : psd (XX i j) by exact: inst_psd.
  have [Hc1 _] := Hc.
  have [B1 [_ [_ [eB B10 _ _ _]]]] := C64_basis_no_flooring He N0 M0 T0 K0 pX pH (audible_bins aX) B0 V0.
  have [V1 [_ [_ [eV V10 _ _ _]]]] := C64_activation_no_flooring He N0 M0 T0 K0 pX F0 pH (audible_frames aX) B10 V0.
  have R0 n i j : (0 < recon B1 V1 n i j)%coqR by apply: recon_gt0.
  have [H1 [_ [_ [eH pH1 _ _ _]]]] := C64_spatial_no_flooring He Hc1 N0 T0 pX pH R0 (su _ _ eB eV).
  rewrite /gauss_once eB eV eH; case: nrm {al}; last by eexists.
  by have [H2 [B2 ->]] := C51_gauss_defined B1 M0 pH1; eexists.
- exact: al.
Qed.
Lemma separate_some X r s : gproper s ->
  exists2 Y, mnmf_separate fl eig X r s = Some Y & forall i j, \sum_n Y n i j = X i r j.
Proof.
by case=> pH B0 V0; apply: C50_gauss_no_flooring => // n i j; exact: recon_gt0.
Qed.
(** the returned signals sum to the reference channel; they and the last loss belong to the same
    parameters; with normalisation the final spatial covariances have unit trace *)
Theorem C86_call nrm X r k s Y ls : audible X -> gproper s -> mnmf_call fl eig chol nrm X r k s = Some (Y, ls) ->
  [/\ forall i j, \sum_n Y n i j = X i r j, size ls = k.+1, non_increasing ls &
    exists s', [/\ gproper s', mnmf_separate fl eig X r s' = Some Y,
      mnmf_loss fl eig (inst_cov fl eig X) s = Some (head 0%coqR ls),
      mnmf_loss fl eig (inst_cov fl eig X) s' = Some (last 0%coqR ls) &
      nrm -> (0 < k)%N -> forall n i, re (\tr (gs_H s' n i)) = 1]].
Proof.
move=> aX ps; rewrite /mnmf_call; case: (mnmf_separate _ _ _ _ s) => [_|//].
case e: (mnmf_run _ _ _ _ _ _ _) => [[s' l']|//]; case es: (mnmf_separate _ _ _ _ s') => [Y'|//] [<- <-].
have [ps' sz ni] := C86_run aX ps e.
have [Y2] := separate_some X r ps'; rewrite es => -[<-] hY.
have [h1 h2] := recorded_ends e.
split=> //; exists s'; split=> // hn k0.
case: k k0 e {sz ni h1 h2} => // k _; rewrite /mnmf_run => e.
have [u [pu eu]] : exists u, gproper u /\ gauss_once fl eig chol nrm (inst_cov fl eig X) u = Some s'.
  by apply: (recorded_last _ ps e) => u u' pu eu; have [] := once_some aX pu eu.
by have [_ /(_ hn)] := once_some aX pu eu.
Qed.

(** fewer frames than channels: no iteration succeeds *)
Theorem C86_few_frames nrm X r k s : (T < M)%N -> gproper s -> mnmf_call fl eig chol nrm X r k.+1 s = None.
Proof.
move=> TM [pH _ _]; rewrite /mnmf_call; case: (mnmf_separate _ _ _ _ _) => [_|//].
suff -> : mnmf_run fl eig chol nrm X k.+1 s = None by [].
rewrite /mnmf_run /=; case: (mnmf_loss _ _ _ _) => [l|//].
suff -> : gauss_once fl eig chol nrm (inst_cov fl eig X) s = None by [].
case: s pH => H B V /= pH; rewrite /gauss_once.
case: (gauss_basis _ _ _ _ _ _) => [B1|//]; case: (gauss_activation _ _ _ _ _ _) => [V1|//].
case eS: (gauss_spatial _ _ _ _ _ _) => [H1|//].
have pX i j : psd (inst_cov fl eig X i j) by exact: inst_psd.
have pQ := spatial_some pX pH eS (Ordinal N0) (Ordinal F0).
have := pd_unit pQ; rewrite -row_full_unit /row_full => /eqP rk; exfalso.
have : (\rank (ric_Q (inst_cov fl eig X) (recon B1 V1) H (Ordinal N0) (Ordinal F0)) <= T)%N; last by rewrite rk leqNgt TM.
rewrite /ric_Q; apply: leq_trans (_ : (\sum_(j < T) 1 <= T)%N); last by rewrite sum1_card card_ord.
apply: (big_ind2 (fun (A : 'M[Cx]_M) n => (\rank A <= n)%N)); first by rewrite mxrank0.
  by move=> A a A' a' h h'; apply: leq_trans (mxrank_add _ _) _; exact: leq_add.
move=> j _; apply: leq_trans (mxrank_scale _ _) _; apply: leq_trans (mxrankM_maxl _ _) _.
apply: leq_trans (mxrankM_maxr _ _) _; rewrite inst_covE; apply: leq_trans (mxrankM_maxl _ _) _.
exact: rank_leq_col.
Qed.

(** *** [partitioning=True] *)
Notation pstate := (pgauss N M F T K).
Definition pproper (s : pstate) : Prop :=
  [/\ forall n i, pd (pg_H s n i), forall n k, (0 < pg_Z s n k)%coqR, forall i k, (0 < pg_C s i k)%coqR &
      forall k j, (0 < pg_A s k j)%coqR].
Lemma pstep_some nrm X (s s' : pstate) : audible X -> pproper s ->
  pmnmf_step fl eig chol nrm (inst_cov fl eig X) s = Some s' ->
  [/\ pproper s', forall k, \sum_n pg_Z s' n k = 1 & nrm -> forall n i, re (\tr (pg_H s' n i)) = 1].
Proof.
case: s => H Z C A aX [/= pH Z0 C0 A0]; set XX := inst_cov fl eig X.
have pX i j : psd (XX i j) by exact: inst_psd.
have [Hc1 _] := Hc.
have [|C1 [eC C10 _ _]] := gauss_pbasis_step id_floor_nonneg M0 T0 (id_inact He _ pH) N0 K0 pX pH Z0 C0 A0 _ (or_intror (conj erefl (audible_bins aX))).
  by move=> i k h; lra.
have [|A1 [eA A10 _ _]] := gauss_pactivation_step id_floor_nonneg M0 (id_inact He _ pH) N0 K0 F0 pX pH Z0 C10 A0 _ (or_intror (conj erefl (audible_frames aX))).
  by move=> k j h; lra.
have R0 n i j : (0 < recon_lat Z C1 A1 n i j)%coqR by apply: recon_lat_gt0'.
rewrite /pmnmf_step eC eA; case eS: (gauss_spatial _ _ _ _ _ _) => [H1|//].
have pQ := spatial_some pX pH eS.
have [H1' [_ [_ [eH pH1 _ _ _]]]] := C64_spatial_no_flooring He Hc1 N0 T0 pX pH R0 pQ.
move: eH; rewrite eS => -[eHH]; rewrite -{H1'}eHH in pH1 *.
have t0 n i := rtr_pd M0 (pH1 n i).
case eN: (if nrm then _ else _) => [H2|//].
have [pH2 tr2] : (forall n i, pd (H2 n i)) /\ (nrm -> forall n i, re (\tr (H2 n i)) = 1).
  case: nrm eN => [|[<-]] //; rewrite /gauss_pnorm; case: [forall n, _] => [|//] [<-].
  have i0 n i : (0 < re (\tr (H1 n i)))%coqR by exact: t0.
  split=> [n i|_ n i].
    by apply: pdZ => //; rewrite -cV; apply: c_gt0; rewrite -RinvE; [exact: Rinv_0_lt_compat|have := i0 n i; lra].
  have tz n' i' : re (\tr ((c (re (\tr (H1 n' i'))))^-1 *: H1 n' i')) = 1; last exact: tz.
  rewrite -cV -[re _]/(rtr _) rtrZ mulVf //; apply/eqP => h; have := i0 n' i'; rewrite h; exact: Rlt_irrefl.
have nz : exists i j, XX i j != 0 by have [j hj] := audible_bins aX (Ordinal F0); exists (Ordinal F0), j.
have [Z1 [eZ Z10 _]] := gauss_latent_step_descent M0 (id_inact He _ pH2) N0 K0 pX pH2 Z0 C10 A10 nz.
have s0 k : (0 < (\sum_n Z1 n k)%R)%coqR by apply: (@sumR_gt0 _ (Z1^~ k) (Ordinal N0)) => [n|]; [apply: Rlt_le|]; exact: Z10.
rewrite /gauss_latent eZ /latent_normalise ifT; last first.
  by apply/forallP => k; apply/eqP; have := s0 k; toR; lra.
case=> <-; split=> //=; first by split=> //= n k; apply: Rdiv_lt_0_compat.
by move=> k; rewrite /Rdiv -sumR_mulr; apply: Rinv_r; apply: Rgt_not_eq; exact: s0.
Qed.
(** a partitioned call that returns: the signals sum to the reference channel, the latent
    variables of every basis sum to one over the sources *)
Theorem C86_partitioned_call nrm X r k (s : pstate) Y ls : audible X -> pproper s ->
  pmnmf_call fl eig chol nrm X r k s = Some (Y, ls) ->
  [/\ forall i j, \sum_n Y n i j = X i r j, size ls = k.+1 &
    exists s' : pstate, [/\ pproper s', pmnmf_separate fl eig X r s' = Some Y,
      pmnmf_loss fl eig (inst_cov fl eig X) s = Some (head 0%coqR ls),
      pmnmf_loss fl eig (inst_cov fl eig X) s' = Some (last 0%coqR ls) &
      (0 < k)%N -> (forall b, \sum_n pg_Z s' n b = 1) /\ (nrm -> forall n i, re (\tr (pg_H s' n i)) = 1)]].
Proof.
move=> aX ps; rewrite /pmnmf_call; case: (pmnmf_separate _ _ _ _ s) => [_|//].
case e: (pmnmf_run _ _ _ _ _ _ _) => [[s' l']|//]; case es: (pmnmf_separate _ _ _ _ s') => [Y'|//] [<- <-].
have stp u u' : pproper u -> pmnmf_step fl eig chol nrm (inst_cov fl eig X) u = Some u' -> pproper u'.
  by move=> pu eu; have [] := pstep_some aX pu eu.
have [ps' sz] : pproper s' /\ size l' = k.+1.
  move: e; rewrite /pmnmf_run; elim: k s l' ps => [|k IH] u l' pu /=; case: (pmnmf_loss _ _ _ u) => [l|//].
    by case=> <- <-.
  case eu: (pmnmf_step _ _ _ _ _ u) => [u1|//]; case e: (recorded _ _ _ _) => [[s2 l2]|//] [es2 <-].
  by rewrite es2 in e; have [p <-] := IH _ _ (stp _ _ pu eu) e.
have [pH Z0 C0 A0] := ps'.
have [|Y2] := @C50_gauss_no_flooring N M F T eig X (recon_lat (pg_Z s') (pg_C s') (pg_A s')) (pg_H s') r He N0 pH.
  by move=> n i j; exact: recon_lat_gt0'.
rewrite -[gauss_separate _ _ _ _ _ _]/(pmnmf_separate fl eig X r s') es => -[<-] hY.
have [h1 h2] := recorded_ends e.
split=> //; exists s'; split=> // k0.
case: k k0 e {sz h1 h2} => // k _; rewrite /pmnmf_run => e.
have [u [pu eu]] := recorded_last stp ps e.
by have [] := pstep_some aX pu eu.
Qed.
End Gauss.

(** [update_spatial] without flooring can raise although the recording has full rank in every
    bin, the spatial covariances are positive definite and the modelled powers positive *)
Definition fX (i : 'I_1) : 'M[Cx]_2 := \matrix_(a, b) if a == b then c 5%coqR else c 4%coqR.
Definition fH (n : 'I_2) (i : 'I_1) : 'M[Cx]_2 := if n == 0 then dg 1%coqR 2%coqR else dg 2%coqR 1%coqR.
Definition fL (n : 'I_2) (i : 'I_1) (j : 'I_2) : R := if n == j then 1%coqR else 2%coqR.
Theorem C86_spatial_refuted eig chol : eigh_contract eig -> chol_strict chol ->
  exists (X : 'I_1 -> 'M[Cx]_2) (H : 'I_2 -> 'I_1 -> 'M[Cx]_2) (L : 'I_2 -> 'I_1 -> 'I_2 -> R),
  [/\ forall i, X i \in unitmx, forall n i, pd (H n i), forall n i j, (0 < L n i j)%coqR &
    gauss_spatial identity_fl eig chol (inst_cov identity_fl eig X) L H = None].
Proof.
move=> He Hc; exists fX, fH, fL.
have pH n i : pd (fH n i) by rewrite /fH; case: ifP => _; apply: dg_pd; lra.
split=> //.
- move=> i; rewrite unitmxE unitfE EighProofs.det2 /fX !mxE /= -!cM -cB.
  by apply: c_neq0; toR; lra.
- by move=> n i j; rewrite /fL; case: ifP => _; lra.
case eS: (gauss_spatial _ _ _ _ _ _) => [H1|//]; exfalso.
have pX i j : psd (inst_cov identity_fl eig fX i j) by exact: inst_psd.
have := pd_unit (spatial_some He Hc pX pH eS 0 0).
have mE j : \sum_m c (fL m 0 j) *: fH m 0 = if j == 0 then dg 5%coqR 4%coqR else dg 4%coqR 5%coqR.
  rewrite EighProofs.sum2 /fL /fH /= !dg_scale dg_add.
  by case: (ord2P j) => -> /=; congr dg; toR; Rf.
have vE j : invmx (\sum_m c (fL m 0 j) *: fH m 0) *m col j (fX 0) = const_mx 1.
  have [h5 h4] : (0 < 5)%coqR /\ (0 < 4)%coqR by lra.
  rewrite mE; case: (ord2P j) => -> /=; rewrite dg_inv //; apply/colP => a; rewrite !mxE EighProofs.sum2 !dgE !mxE;
    case: (ord2P a) => -> /=; rewrite ?mul0r ?addr0 ?add0r -cM -c1; congr c; toR; Rf; lra.
have hR j : (\sum_m c (fL m 0 j) *: fH m 0)^H = \sum_m c (fL m 0 j) *: fH m 0.
  by rewrite mE; case: ifP => _; exact: dg_herm.
suff -> : ric_Q (inst_cov identity_fl eig fX) fL fH 0 0 = \matrix_(a, b) c 3%coqR.
  by rewrite unitmxE unitfE EighProofs.det2 !mxE subrr eqxx.
have E j : invmx (\sum_m c (fL m 0 j) *: fH m 0) *m inst_cov identity_fl eig fX 0 j *m invmx (\sum_m c (fL m 0 j) *: fH m 0) = const_mx 1.
  rewrite inst_covE // -mulmxA -{2}hR -ctr_inv -mulmxA -ctrM mulmxA vE.
  by apply/matrixP => a b; rewrite !mxE big_ord1 ctrE !mxE conjC1 mulr1.
rewrite /ric_Q EighProofs.sum2 !E; apply/matrixP => a b; rewrite !mxE !mulr1 /fL /= -cD; congr c; toR; lra.
Qed.

(** a call on the recording of C64's example *)
Example C86_instance nrm (r : 'I_2) : exists eig chol Y ls (s : gauss_state 2 2 1 2 1),
  [/\ eigh_contract eig /\ chol_strict chol, audible eX, gproper s,
      mnmf_call identity_fl eig chol nrm eX r 1 s = Some (Y, ls) & (nth 0%coqR ls 1 <= nth 0%coqR ls 0)%coqR].
Proof.
have [eig He] := eigh_contract_sat; have [chol Hc] := chol_strict_sat.
pose s := GaussState eH (fun _ : 'I_2 => one (I := 'I_1) (J := 'I_1)) (fun _ : 'I_2 => one (I := 'I_1) (J := 'I_2)).
have ps : gproper s by split=> //= *; [exact: eH_pd|exact: Rlt_0_1|exact: Rlt_0_1].
have aX : audible eX.
  have nz i j : col j (eX i) != 0.
    by have := eXX_nz i j; rewrite -(eXXE i j He) inst_covE //; apply: contraNneq => ->; rewrite mul0mx.
  by split=> [i|j]; exists 0; exact: nz.
have XE : inst_cov identity_fl eig eX = eXX.
  by apply: functional_extensionality => i; apply: functional_extensionality => j; exact: eXXE.
have [|s' [ls e]] := @C86_run_complete 2 2 1 2 1 eig chol isT isT isT isT isT He Hc nrm eX 1 s aX ps.
  split=> // B1 V1; rewrite XE => eB eV n i; apply: e_ricQ => n' i' j'.
  have z : (0 < one tt tt)%coqR by exact: Rlt_0_1.
  have [B2 [_ [_ [eB' B20 _ _ _]]]] := @C64_basis_no_flooring 2 2 1 2 1 eig He isT isT isT isT eXX eXX_psd eH (gs_B s) (gs_V s) eH_pd (fun i => ex_intro _ 0 (eXX_nz i 0)) (fun _ _ _ => z) (fun _ _ _ => z).
  move: eB'; rewrite eB => -[E]; rewrite -{B2}E in B20 *.
  have [V2 [_ [_ [eV' V20 _ _ _]]]] := @C64_activation_no_flooring 2 2 1 2 1 eig He isT isT isT isT eXX eXX_psd eH B1 (gs_V s) isT eH_pd (fun j => ex_intro _ 0 (eXX_nz 0 j)) B20 (fun _ _ _ => z).
  move: eV'; rewrite eV => -[E]; rewrite -{V2}E in V20 *.
  exact: recon_gt0.
have [Y0 e0 _] := @separate_some 2 2 1 2 1 eig isT isT He eX r s ps.
have [ps' sz ni] := @C86_run 2 2 1 2 1 eig chol isT isT isT isT isT He Hc _ _ _ _ _ _ aX ps e.
have [Y e1 _] := @separate_some 2 2 1 2 1 eig isT isT He eX r s' ps'.
exists eig, chol, Y, ls, s; split=> //; first by rewrite /mnmf_call e0 e e1.
by apply: ni => //; rewrite sz.
Qed.

Print Assumptions C86_run.
Print Assumptions C86_run_complete.
Print Assumptions C86_call.
Print Assumptions C86_few_frames.
Print Assumptions C86_partitioned_call.
Print Assumptions C86_spatial_refuted.
