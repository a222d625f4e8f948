(** C82: the normalisation of ILRMA changes neither the recorded losses nor the separated
    signals, and a call follows the gain of every frequency bin of the recording.  Without
    flooring ([flooring_fn=None]), IP1 and ISS1, every class and source algorithm. *)
From Coq Require Import Reals Lra FunctionalExtensionality.
From mathcomp Require Import all_ssreflect all_algebra.
From mathcomp Require Import ring.
From Verif Require Import RStruct MxC CxR NpLin RealLemmas NmfReal NmfMM Eigh EighProofs.
From Verif Require Import SpatialIP SpatialISS SpatialIP2 SpatialISS2 Scale ScaleProofs AuxIVA AuxIVARun AuxIVACall Ilrma IlrmaReal IlrmaProofs IlrmaRun.
From Verif Require Import AuxIVAProofs Prop_Ilrma Prop_AuxGain.
Import Order.TTheory GRing.Theory Num.Theory.
Set Implicit Arguments.
Unset Strict Implicit.
Unset Printing Implicit Defensive.
Arguments pow : simpl never.

(** * One cell *)
Section Cell.
Local Open Scope R_scope.
Lemma num_cell_scale m alg y q s : valid m alg -> 0 <= y -> 0 < q -> 0 < s ->
  num_cell m alg (y * s) (q * pw s (domain m)) = num_cell m alg y q / pw s (domain m).
Proof.
move=> h y0 q0 s0; have p0 := domain_gt0 h; have P0 := pw_gt0 s (domain m) s0.
have pq a : pw (q * pw s (domain m)) a = pw q a * pw s (domain m * a).
  by rewrite pw_mult ?pw_pw //; lra.
have s2 : pw s 2 = s ^ 2 by rewrite pw_2 //; lra.
have Q0 a := pw_gt0 q a q0.
case: m h p0 P0 pq => [p|nu p|be p] h p0 P0 pq; last first.
- rewrite /num_cell /domain in p0 P0 pq *; rewrite pq pw_mult //.
  have -> : p * ((be + p) / p) = be + p by Rfield; lra.
  rewrite pw_plus //; have b0 := pw_gt0 s be s0; have := Q0 ((be + p) / p).
  by move: (pw q _) (pw s be) (pw s p) (pw y be) b0 P0 => a b d x *; Rfield; split; lra.
- case: h => nu0 [h12 hME]; rewrite /domain in p0 P0 pq *; case: alg hME => [_|/(_ erefl) e].
    rewrite /num_cell pq.
    have -> : p * (2 / p) = 2 by Rfield; lra.
    rewrite s2.
    have := rtilde_gt0 nu0 (Q0 (2 / p)) (pow2_ge_0 y).
    move: (pw q _) (pw s p) P0 => a b b0.
    have -> : nu / (nu + 2) * (a * s ^ 2) + (1 - nu / (nu + 2)) * (y * s) ^ 2 =
      (nu / (nu + 2) * a + (1 - nu / (nu + 2)) * y ^ 2) * s ^ 2 by Rring.
    by move: (nu / _ * a + _) => d d0; Rfield; split; lra.
  rewrite /num_cell e s2.
  have := rtilde_gt0 nu0 q0 (pow2_ge_0 y).
  have -> : nu / (nu + 2) * (q * s ^ 2) + (1 - nu / (nu + 2)) * (y * s) ^ 2 =
      (nu / (nu + 2) * q + (1 - nu / (nu + 2)) * y ^ 2) * s ^ 2 by Rring.
  by move: (nu / _ * q + _) => d d0; Rfield; split; lra.
- case: h => h12 hME; rewrite /domain in p0 P0 pq *; case: alg hME => [_|/(_ erefl) e].
    rewrite /num_cell pq.
    have -> : p * ((p + 2) / p) = p + 2 by Rfield; lra.
    rewrite pw_plus // s2; have := Q0 ((p + 2) / p).
    by move: (pw q _) (pw s p) P0 => a b b0 a0; Rfield; split; lra.
  by rewrite /num_cell e s2; Rfield; split; lra.
Qed.
Lemma weight_scale m alg y q s : valid m alg -> 0 <= y -> 0 < q -> 0 < s ->
  spatial_weight m identity_fl (y * s) (q * pw s (domain m)) = / s ^ 2 * spatial_weight m identity_fl y q.
Proof.
move=> h y0 q0 s0; have p0 := domain_gt0 h; have P0 := pw_gt0 s (domain m) s0.
have pq a : pw (q * pw s (domain m)) a = pw q a * pw s (domain m * a).
  by rewrite pw_mult ?pw_pw //; lra.
have s2 : pw s 2 = s ^ 2 by rewrite pw_2 //; lra.
have Q0 a := pw_gt0 q a q0.
case: m h p0 P0 pq => [p|nu p|be p] h p0 P0 pq; rewrite /spatial_weight /domain in p0 P0 pq *; rewrite pq.
- have -> : p * (2 / p) = 2 by Rfield; lra.
  by rewrite s2; have ? := Q0 (2 / p); Rfield; split; lra.
- case: h => nu0 _.
  have -> : p * (2 / p) = 2 by Rfield; lra.
  rewrite s2; have := rtilde_gt0 nu0 (Q0 (2 / p)) (pow2_ge_0 y).
  move: (pw q _) => a.
  have -> : nu / (nu + 2) * (a * s ^ 2) + (1 - nu / (nu + 2)) * (y * s) ^ 2 =
      (nu / (nu + 2) * a + (1 - nu / (nu + 2)) * y ^ 2) * s ^ 2 by Rring.
  by move: (nu / _ * a + _) => d d0; Rfield; split; lra.
- have -> : p * (be / p) = be by Rfield; lra.
  rewrite /identity_fl pw_mult //.
  have -> : 2 / be * (pw y (2 - be) * pw s (2 - be)) * (pw q (be / p) * pw s be) =
     (2 / be * pw y (2 - be) * pw q (be / p)) * (pw s (2 - be) * pw s be) by Rring.
  rewrite -pw_plus //; have -> : 2 - be + be = 2 by Rring.
  by rewrite s2 /Rdiv !Rmult_1_l Rinv_mult Rmult_comm.
Qed.
Lemma weight_ok_scale m y s : 0 <= y -> 0 < s -> weight_ok m identity_fl (y * s) = weight_ok m identity_fl y.
Proof.
move=> y0 s0; case: m => // be p; rewrite /weight_ok /identity_fl pw_mult //.
have := pw_gt0 s (2 - be) s0; move: (pw y _) (pw s _) => a b b0.
apply: (congr1 negb); apply/eqP/eqP => e; last by rewrite e; toR; lra.
by have [//|e'] := Rmult_integral _ _ e; move: b0; rewrite e'; lra.
Qed.
End Cell.
Local Open Scope ring_scope.

(** * IP1 and ISS1 in one bin, the weight of a source divided by the squared gain of its row *)
Section Bin.
Variables (N T : nat).
Implicit Types (U : 'I_N -> 'M[Cx]_N) (A W : 'M[Cx]_N) (d : 'rV[Cx]_N) (phi : 'M[R]_(N, T)) (Y : 'M[Cx]_(N, T)).
Definition lowered d phi : 'M[R]_(N, T) := \matrix_(n, t) ((/ cabs (d 0%R n) ^ 2)%coqR * phi n t).
Lemma ip1_step_ext U U' W n : U n = U' n -> ip1_step id U W n = ip1_step id U' W n.
Proof. by rewrite /ip1_step => ->. Qed.
Lemma ip1_step_gauge U A W d n : A \in unitmx -> (forall j, d 0 j != 0) ->
  ip1_step id (fun m => c (/ cabs (d 0%R m) ^ 2)%coqR *: (A *m U m *m A^H)) (seen A d W) n =
  omap (seen A d) (ip1_step id U W n).
Proof.
move=> uA d0; have a0 := cabs_gt0 (d0 n).
have b0 : (0 < / cabs (d 0%R n) ^ 2)%coqR by apply: Rinv_0_lt_compat; exact: pow_lt.
rewrite (@ip1_step_ext _ (fun m => c (/ cabs (d 0%R n) ^ 2)%coqR *: (A *m U m *m A^H))) // ip1_step_seen //.
congr omap; apply: functional_extensionality => V; congr (seen A _ V).
apply/matrixP => i j; rewrite mxE (ord1 i); case: eqP => // ->.
have -> : R_sqrt.sqrt (/ cabs (d 0%R n) ^ 2) = (/ cabs (d 0%R n))%coqR.
  by rewrite sqrt_inv sqrt_pow2 //; exact: Rlt_le.
rewrite -RmulE Rinv_r; last by lra.
by rewrite [c _]c1 divr1.
Qed.
Lemma ip1_gauge U A W d : A \in unitmx -> (forall j, d 0 j != 0) ->
  ip1 id (fun m => c (/ cabs (d 0%R m) ^ 2)%coqR *: (A *m U m *m A^H)) (seen A d W) =
  omap (seen A d) (ip1 id U W).
Proof.
move=> uA d0; rewrite /ip1; elim: (enum 'I_N) W => [|n s IH] W //.
by rewrite !ip1_loop_cons ip1_step_gauge //; case: (ip1_step id U W n) => //= V; rewrite IH.
Qed.
Lemma iss_den_lowered phi Y d n k :
  iss_den (lowered d phi) (scaled d Y) n k = ((/ cabs (d 0%R k) ^ 2 * cabs (d 0%R n) ^ 2) * iss_den phi Y n k)%coqR.
Proof.
rewrite /iss_den /meanR RmulE mulrCA; congr (_ * _); rewrite mulr_sumr; apply: eq_bigr => t _.
by rewrite !mxE cabsM !RmulE !RpowE exprMn mulrACA.
Qed.
Lemma iss_num_lowered phi Y d n k :
  iss_num (lowered d phi) (scaled d Y) n k = c (/ cabs (d 0%R k) ^ 2)%coqR * (d 0 k * (d 0 n)^*) * iss_num phi Y n k.
Proof.
rewrite /iss_num /meanC mulrCA; congr (_ * _); rewrite mulr_sumr; apply: eq_bigr => t _.
rewrite !mxE cM rmorphM; move: (d 0 n)^* (d 0 k) (c (/ _)%coqR) (c (phi k t)) (Y k t) (Y n t)^* => u v w x y z; ring.
Qed.
Lemma iss1_step_gauge phi Y d n : (forall j, d 0 j != 0) ->
  iss1_step id (lowered d phi) (scaled d Y) n = omap (scaled d) (iss1_step id phi Y n).
Proof.
move=> d0; have dn := d0 n; have a0 k := cabs_gt0 (d0 k).
have p0 k : (0 < / cabs (d 0%R k) ^ 2 * cabs (d 0%R n) ^ 2)%coqR.
  by apply: Rmult_lt_0_compat; [apply: Rinv_0_lt_compat|]; apply: pow_lt.
have denE : iss_den (lowered d phi) (scaled d Y) n n = iss_den phi Y n n.
  rewrite iss_den_lowered Rinv_l ?Rmult_1_l //.
  by apply: Rgt_not_eq; apply: pow_lt.
have ok : iss_ok id (lowered d phi) (scaled d Y) n = iss_ok id phi Y n.
  rewrite /iss_ok; congr [&& _, _ & _]; last by rewrite /= denE.
  apply: eq_forallb => k; rewrite /= iss_den_lowered RmulE mulf_eq0; case: eqP => // e.
  by exfalso; move: e (p0 k) => ->; toR; lra.
rewrite /iss1_step ok; case: ifP => // /and3P[_ /forallP den0 /RltbP den]; congr Some.
apply/matrixP=> k t; rewrite !mxE /iss_v /=; case: eqP => [->|ne].
  by rewrite denE; ring.
rewrite iss_num_lowered iss_den_lowered cRM (cRM (/ _)%coqR) cRV; last by apply: Rgt_not_eq; exact: pow_lt.
rewrite !RpowE !cabs_sqr.
have := den0 k => /= /eqP dk; have := c_neq0 dk; have := d0 k.
have : (d 0 n)^* != 0 by rewrite conjC_eq0.
have : (d 0 k)^* != 0 by rewrite conjC_eq0.
move: dn; move: (c (iss_den _ _ _ _)) (iss_num _ _ _ _) (d 0 n) (d 0 n)^* (d 0 k) (d 0 k)^* (Y k t) (Y n t) => x z u v w y p q u0 y0 v0 w0 x0.
by field; rewrite u0 v0 x0 y0 w0.
Qed.
Lemma scaledE d Y : scaled d Y = diag_mx d *m Y.
Proof. by apply/matrixP => i j; rewrite mul_diag_mx !mxE. Qed.
Lemma iss1_gauge phi Y d : (forall j, d 0 j != 0) ->
  iss1 id (lowered d phi) (diag_mx d *m Y) = omap (mulmx (diag_mx d)) (iss1 id phi Y).
Proof.
move=> d0; rewrite -scaledE.
have -> : omap (mulmx (diag_mx d)) (iss1 id phi Y) = omap (scaled d) (iss1 id phi Y).
  by case: iss1 => //= V; rewrite scaledE.
rewrite /iss1; elim: (enum 'I_N) Y => [|n s IH] Y //.
by rewrite !iss1_loop_cons iss1_step_gauge //; case: (iss1_step id phi Y n) => //= V; rewrite IH.
Qed.
Lemma wcov_lowered phi A (X : 'M[Cx]_(N, T)) d n :
  wcov (lowered d phi) (A *m X) n = c (/ cabs (d 0%R n) ^ 2)%coqR *: (A *m wcov phi X n *m A^H).
Proof.
rewrite -wcov_mixed; apply/matrixP => a b; rewrite !mxE /meanC; congr (_ * _).
by apply: eq_bigr => t _; rewrite !mxE.
Qed.
End Bin.

Lemma recordedS S (st : S -> option S) (l : S -> option R) k s : recorded st l k.+1 s =
  if l s is Some x then if st s is Some s1 then
    if recorded st l k s1 is Some (sf, ls) then Some (sf, x :: ls) else None else None else None.
Proof. by []. Qed.
Lemma recorded0 S (st : S -> option S) (l : S -> option R) s : recorded st l 0 s = omap (fun x => (s, [:: x])) (l s).
Proof. by []. Qed.
(** * Gains per bin and source *)
Section Gauge.
Variables (N F T K : nat) (m : model) (alg : source_alg).
Notation spec := ('I_F -> 'M[Cx]_(N, T)).
Notation filt := ('I_F -> 'M[Cx]_N).
Notation cells := ('I_N -> 'I_F -> 'I_T -> R).
Notation basis := ('I_N -> 'I_F -> 'I_K -> R).
Notation activ := ('I_N -> 'I_K -> 'I_T -> R).
Notation gains := ('I_F -> 'rV[Cx]_N).
Implicit Types (a : gains) (A W : filt) (X Y : spec) (B : basis) (V : activ) (q : cells).
Hypothesis hm : valid m alg.

Definition live a := forall i n, a i 0 n != 0.
(** every source of every bin multiplied by its gain, and its model value by the power of the
    modulus the domain asks for; [A] is a mixing that the filters undo *)
Definition gY a Y : spec := fun i => diag_mx (a i) *m Y i.
Definition gW A a W : filt := fun i => diag_mx (a i) *m W i *m invmx (A i).
Definition gq a q : cells := fun n i j => q n i j * pw (cabs (a i 0%R n)) (domain m).
Definition gB a B : basis := fun n i k => B n i k * pw (cabs (a i 0%R n)) (domain m).
Definition nonneg B V := (forall n i k, (0 <= B n i k)%coqR) /\ (forall n k j, (0 <= V n k j)%coqR).

Lemma pw_live a i n : live a -> (0 < pw (cabs (a i 0%R n)) (domain m))%coqR.
Proof. by move=> h; apply: pw_gt0; exact: cabs_gt0. Qed.
Lemma amp_gY a Y n i j : amp (gY a Y) n i j = (amp Y n i j * cabs (a i 0%R n))%coqR.
Proof. by rewrite /amp /gY mul_diag_mx mxE cabsM RmulE mulrC. Qed.
Lemma recon_gB a B V : recon (gB a B) V = gq a (recon B V).
Proof.
do 3 (apply: functional_extensionality => ?); rewrite /recon /gq mulr_suml.
by apply: eq_bigr => k _; rewrite /gB mulrAC.
Qed.
Lemma separate_gW A a X W : (forall i, A i \in unitmx) -> separate_all (mixed A X) (gW A a W) = gY a (separate_all X W).
Proof.
move=> uA; apply: functional_extensionality => i.
by rewrite /separate_all /separate /mixed /gW /gY -!mulmxA mulKmx.
Qed.
Lemma recon_ge0 B V n i j : nonneg B V -> (0 <= recon B V n i j)%coqR.
Proof. by case=> B0 V0; apply: sumR_ge0 => k _; apply: Rmult_le_pos. Qed.
Lemma nz_gt0 q : (forall n i j, (0 <= q n i j)%coqR) -> nz q -> forall n i j, (0 < q n i j)%coqR.
Proof.
move=> q0 h n i j; have [//|e] := q0 n i j.
by move/forallP/(_ n)/forallP/(_ i)/forallP/(_ j): h; rewrite -e eqxx.
Qed.
Lemma nz_gq a q : live a -> nz (gq a q) = nz q.
Proof.
move=> la; do 3 (apply: eq_forallb => ?); congr negb; rewrite /gq mulf_eq0.
match goal with |- _ || (?x == 0) = _ => have : (0 < x)%coqR by exact: pw_live end.
by case: (pw _ _ =P 0) => [->|]; rewrite ?orbF //; toR; lra.
Qed.
Lemma live_nz a q : (0 < T)%N -> nz (gq a q) -> live a.
Proof.
move=> T0 h i n; apply/eqP => e.
by move/forallP/(_ n)/forallP/(_ i)/forallP/(_ (Ordinal T0)): h; rewrite /gq e cabs0 [pw _ _]pw0 mulr0 eqxx.
Qed.

(** ** Source model *)
Notation fl := identity_fl.
Lemma update_basis_g a Y B V : live a -> nonneg B V ->
  update_basis m alg fl (gY a Y) (gB a B) V = omap (gB a) (update_basis m alg fl Y B V).
Proof.
move=> la h0; rewrite /update_basis.
have denE n i k : basis_den (gB a B) V n i k = (basis_den B V n i k / pw (cabs (a i 0%R n)) (domain m))%coqR.
  rewrite /basis_den recon_gB /Rdiv RmulE mulr_suml; apply: eq_bigr => j _.
  by rewrite /gq -!RmulE Rinv_mult Rmult_assoc.
rewrite recon_gB nz_gq //.
have -> : [forall n, [forall i, [forall k, basis_den (gB a B) V n i k != 0]]] =
    [forall n, [forall i, [forall k, basis_den B V n i k != 0]]].
  apply: eq_forallb => n; apply: eq_forallb => i; apply: eq_forallb => k; rewrite denE; congr negb.
  have p0 := pw_live i n la; apply/eqP/eqP => [/Rmult_integral[//|e]|->]; last by toR; rewrite /Rdiv Rmult_0_l.
  by have := Rinv_0_lt_compat _ p0; rewrite e; toR; lra.
case hc: (nz _ && _); last by [].
have /andP[nzq /forallP d0] := hc; have q0 := nz_gt0 (fun n i j => recon_ge0 n i j h0) nzq.
congr Some; apply: functional_extensionality => n; apply: functional_extensionality => i.
apply: functional_extensionality => k; rewrite /identity_fl.
have p0 := pw_live i n la.
have -> : basis_num m alg (gB a B) V (gY a Y) n i k = (basis_num m alg B V Y n i k / pw (cabs (a i 0%R n)) (domain m))%coqR.
  rewrite /basis_num recon_gB /Rdiv RmulE mulr_suml; apply: eq_bigr => j _.
  rewrite amp_gY /gq -!RmulE (num_cell_scale hm) //; [by rewrite /Rdiv Rmult_assoc|exact: amp_ge0|].
  by apply: cabs_gt0.
rewrite denE /gB !RmulE mulrA; congr (pw _ _ * _ * _).
have /forallP/(_ i)/forallP/(_ k)/eqP := d0 n.
by move: (basis_num _ _ _ _ _ _ _ _) (basis_den _ _ _ _ _) (pw _ _) p0 => x y z z0; rewrite -R0E => y0; Rfield; split; lra.
Qed.
Lemma update_activation_g a Y B V : live a -> nonneg B V ->
  update_activation m alg fl (gY a Y) (gB a B) V = update_activation m alg fl Y B V.
Proof.
move=> la h0; rewrite /update_activation.
have denE n k j : act_den (gB a B) V n k j = act_den B V n k j.
  rewrite /act_den recon_gB; apply: eq_bigr => i _; have := pw_live i n la.
  rewrite /gq /gB -!RmulE /Rdiv Rinv_mult; move: (pw _ _) (/ recon _ _ _ _ _)%coqR => x y x0.
  by Rfield; lra.
rewrite recon_gB nz_gq //.
have -> : [forall n, [forall k, [forall j, act_den (gB a B) V n k j != 0]]] =
    [forall n, [forall k, [forall j, act_den B V n k j != 0]]].
  by do 3 (apply: eq_forallb => ?); rewrite denE.
case hc: (nz _ && _); last by [].
have /andP[nzq _] := hc; have q0 := nz_gt0 (fun n i j => recon_ge0 n i j h0) nzq.
congr Some; apply: functional_extensionality => n; apply: functional_extensionality => k.
apply: functional_extensionality => j; rewrite denE.
congr (fl (pw (_ / _)%coqR _ * _)); rewrite /act_num recon_gB; apply: eq_bigr => i _.
rewrite amp_gY /gq /gB -!RmulE (num_cell_scale hm) //; [|exact: amp_ge0|exact: cabs_gt0].
have := pw_live i n la; move: (pw _ _) (num_cell _ _ _ _) => u v u0.
by Rfield; lra.
Qed.
Lemma update_basis_ge0 Y B V B1 : nonneg B V -> update_basis m alg fl Y B V = Some B1 -> nonneg B1 V.
Proof.
move=> [B0 V0]; rewrite /update_basis; case: ifP => // _ [<-]; split=> // n i k.
by apply: Rmult_le_pos => //; exact: pw_ge0.
Qed.
Lemma update_activation_ge0 Y B V V1 : nonneg B V -> update_activation m alg fl Y B V = Some V1 -> nonneg B V1.
Proof.
move=> [B0 V0]; rewrite /update_activation; case: ifP => // _ [<-]; split=> // n k j.
by apply: Rmult_le_pos => //; exact: pw_ge0.
Qed.
Lemma source_step_g a Y B V : live a -> nonneg B V ->
  source_step m alg fl (gY a Y) (gB a B) V = omap (fun p => (gB a p.1, p.2)) (source_step m alg fl Y B V).
Proof.
move=> la h0; rewrite /source_step update_basis_g //; case e: (update_basis m alg fl Y B V) => [B1|//].
change (omap (gB a) (Some B1)) with (Some (gB a B1)); cbv iota; rewrite update_activation_g //; last exact: update_basis_ge0 e.
by case: update_activation.
Qed.
Lemma source_step_ge0 Y B V B1 V1 : nonneg B V -> source_step m alg fl Y B V = Some (B1, V1) -> nonneg B1 V1.
Proof.
move=> h0; rewrite /source_step; case e: (update_basis m alg fl Y B V) => [B2|//].
case e1: (update_activation _ _ _ _ _ _) => [V2|//] [<- <-].
exact: update_activation_ge0 (update_basis_ge0 h0 e) e1.
Qed.
Lemma source_step_live a Y B V p : (0 < T)%N -> source_step m alg fl Y (gB a B) V = Some p -> live a.
Proof.
move=> T0; rewrite /source_step /update_basis recon_gB; case h: (nz _ && _) => // _.
by have /andP[h1 _] := h; exact: live_nz h1.
Qed.

(** ** Spatial model *)
Lemma varphi_g a Y q i : live a -> (forall n i j, (0 < q n i j)%coqR) ->
  varphi m fl (gY a Y) (gq a q) i = lowered (a i) (varphi m fl Y q i).
Proof.
move=> la q0; apply/matrixP => n j; rewrite !mxE amp_gY /gq -!RmulE (weight_scale hm) //; [exact: amp_ge0|].
by apply: cabs_gt0.
Qed.
Lemma varphi_ok_g a Y q : live a -> varphi_ok m fl (gY a Y) (gq a q) = varphi_ok m fl Y q.
Proof.
move=> la; rewrite /varphi_ok nz_gq //; congr (_ && _); do 3 (apply: eq_forallb => ?).
by rewrite amp_gY weight_ok_scale //; [exact: amp_ge0|exact: cabs_gt0].
Qed.
Lemma spatial_ip1_g A a X W q : (forall i, A i \in unitmx) -> live a -> (forall n i j, (0 <= q n i j)%coqR) ->
  spatial_ip1 m fl (mixed A X) (gW A a W) (gq a q) = omap (gW A a) (spatial_ip1 m fl X W q).
Proof.
move=> uA la q0; rewrite /spatial_ip1 separate_gW // varphi_ok_g //.
case hc: (_ && _); last by [].
have /andP[_ /andP[nzq _]] := hc; have {}q0 := nz_gt0 q0 nzq.
suff H i : ip1 fl (wcov (varphi m fl (gY a (separate_all X W)) (gq a q) i) (mixed A X i)) (seen (A i) (a i) (W i)) =
    omap (seen (A i) (a i)) (ip1 fl (wcov (varphi m fl (separate_all X W) q i) (X i)) (W i)).
  exact: (all_bins_map W (gW A a W) H).
rewrite varphi_g // -(ip1_gauge _ _ (uA i) (la i)).
have -> // : wcov (lowered (a i) (varphi m fl (separate_all X W) q i)) (mixed A X i) =
  (fun n => c (/ cabs (a i 0%R n) ^ 2)%coqR *: (A i *m wcov (varphi m fl (separate_all X W) q i) (X i) n *m (A i)^H)).
by apply: functional_extensionality => n; rewrite wcov_lowered.
Qed.
Lemma spatial_iss1_g a Y q : live a -> (forall n i j, (0 <= q n i j)%coqR) ->
  spatial_iss1 m fl (gY a Y) (gq a q) = omap (gY a) (spatial_iss1 m fl Y q).
Proof.
move=> la q0; rewrite /spatial_iss1 varphi_ok_g //.
case hc: (varphi_ok _ _ _ _); last by [].
have /andP[nzq _] := hc; have {}q0 := nz_gt0 q0 nzq.
suff H i : iss1 fl (varphi m fl (gY a Y) (gq a q) i) (gY a Y i) =
    omap (mulmx (diag_mx (a i))) (iss1 fl (varphi m fl Y q i) (Y i)).
  exact: (all_bins_map Y (gY a Y) H).
by rewrite varphi_g //; exact: (iss1_gauge _ _ (la i)).
Qed.

(** ** Normalisation *)
Definition prodg (b a : gains) : gains := fun i => \row_n (b i 0 n * a i 0 n).
Lemma diag_prodg b a i p (M : 'M[Cx]_(N, p)) : diag_mx (b i) *m (diag_mx (a i) *m M) = diag_mx (prodg b a i) *m M.
Proof. by apply/matrixP => x y; rewrite !mul_diag_mx !mxE mulrA. Qed.
Lemma gB_prodg b a B : live a -> gB b (gB a B) = gB (prodg b a) B.
Proof.
move=> la; apply: functional_extensionality => n; apply: functional_extensionality => i.
apply: functional_extensionality => k; rewrite /gB mxE cabsM -mulrA; congr (_ * _).
by rewrite -RmulE pw_mult; [rewrite RmulE mulrC|exact: cabs_ge0|exact: cabs_gt0].
Qed.
Lemma psi_gain_gt0 Y n : psi_ok fl Y -> (0 < psi fl Y n)%coqR.
Proof. by move=> ok; apply: psi_gt0. Qed.
Lemma power_gain Y B : psi_ok fl Y -> (fun n i k => (B n i k / pw (psi fl Y n) (domain m))%coqR) =
  gB (fun=> \row_n (c (psi fl Y n))^-1) B.
Proof.
move=> ok; apply: functional_extensionality => n; apply: functional_extensionality => i.
by apply: functional_extensionality => k; rewrite (@psi_scale _ _ _ m) //; exact: psi_gain_gt0.
Qed.
Lemma norm_f_g o X W B W2 B2 : norm_f m fl o X W B = Some (W2, B2) ->
  exists a, W2 = (fun i => diag_mx (a i) *m W i) /\ B2 = gB a B.
Proof.
case: o => [|/=|r /=].
- case=> <- <-; exists (fun=> const_mx 1); split.
    by apply: functional_extensionality => i; rewrite diag_const_mx mul1mx.
  apply: functional_extensionality => n; apply: functional_extensionality => i.
  apply: functional_extensionality => k; rewrite /gB mxE cabs1.
  have -> : pw 1 (domain m) = 1%coqR; last by rewrite mulr1.
  by rewrite pw_pos ?Rpower1 //; [rewrite /Rpower ln_1 Rmult_0_r exp_0|lra].
- rewrite /norm_power; case: ifP => // ok [<- <-].
  exists (fun=> \row_n (c (psi fl (separate_all X W) n))^-1); split; last exact: power_gain.
  by apply: functional_extensionality => i; rewrite div_rowsE.
- rewrite /norm_pb; case: all_bins => // s [<- <-].
  exists (fun i => row r (s i)); split.
    by apply: functional_extensionality => i; rewrite scale_rowsE.
  apply: functional_extensionality => n; apply: functional_extensionality => i.
  by apply: functional_extensionality => k; rewrite /gB mxE.
Qed.
Lemma norm_o_g o X Y B Y2 B2 : norm_o m fl o X Y B = Some (Y2, B2) ->
  exists a, Y2 = gY a Y /\ B2 = gB a B.
Proof.
case: o => [|/=|r /=].
- case=> <- <-; exists (fun=> const_mx 1); split.
    by apply: functional_extensionality => i; rewrite /gY diag_const_mx mul1mx.
  apply: functional_extensionality => n; apply: functional_extensionality => i.
  apply: functional_extensionality => k; rewrite /gB mxE cabs1.
  have -> : pw 1 (domain m) = 1%coqR; last by rewrite mulr1.
  by rewrite pw_pos ?Rpower1 //; [rewrite /Rpower ln_1 Rmult_0_r exp_0|lra].
- rewrite /norm_power_output; case: ifP => // ok [<- <-].
  exists (fun=> \row_n (c (psi fl Y n))^-1); split; last exact: power_gain.
  by apply: functional_extensionality => i; rewrite div_rowsE.
- rewrite /norm_pb_output; case: all_bins => // s [<- <-].
  exists (fun i => row r (s i)); split.
    by apply: functional_extensionality => i; rewrite scale_rowsE.
  apply: functional_extensionality => n; apply: functional_extensionality => i.
  by apply: functional_extensionality => k; rewrite /gB mxE.
Qed.

(** ** One iteration *)
Variables (eig : eigh_t) (chol : chol_t).
Notation onceF := (IlrmaRun.once_f m alg fl eig chol (FIP1 N)).
Notation onceO := (IlrmaRun.once_o m alg fl eig chol (OISS1 N)).
Implicit Types (s : state_w N F T K) (u : state_y N F T K).
Definition gstate A a s := StateW (gW A a (st_W s)) (gB a (st_B s)) (st_V s).
Definition gstate_y a u := StateY (gY a (st_Y u)) (gB a (st_yB u)) (st_yV u).
Definition nonneg_s s := nonneg (st_B s) (st_V s).
Definition nonneg_u u := nonneg (st_yB u) (st_yV u).
Lemma once_f_norm o X s : onceF o X s =
  if onceF NoNorm X s is Some s1 then
    omap (fun p => StateW p.1 p.2 (st_V s1)) (norm_f m fl o X (st_W s1) (st_B s1)) else None.
Proof.
case: s => W B V; rewrite /IlrmaRun.once_f; case: (source_step _ _ _ _ _ _) => [[B1 V1]|//].
by case: (spatial_f _ _ _ _ _ _ _ _).
Qed.
Lemma once_o_norm o X u : onceO o X u =
  if onceO NoNorm X u is Some u1 then
    omap (fun p => StateY p.1 p.2 (st_yV u1)) (norm_o m fl o X (st_Y u1) (st_yB u1)) else None.
Proof.
case: u => Y B V; rewrite /IlrmaRun.once_o; case: (source_step _ _ _ _ _ _) => [[B1 V1]|//].
by case: (spatial_o _ _ _ _ _ _ _).
Qed.
Lemma core_f A a X s : (forall i, A i \in unitmx) -> live a -> nonneg_s s ->
  onceF NoNorm (mixed A X) (gstate A a s) = omap (gstate A a) (onceF NoNorm X s).
Proof.
move=> uA la; case: s => W B V h0; rewrite /IlrmaRun.once_f /gstate [st_W _]/= [st_B _]/= [st_V _]/=.
rewrite separate_gW // source_step_g //; case e: (source_step _ _ _ _ _ _) => [[B1 V1]|//].
rewrite /omap /= recon_gB spatial_ip1_g //; last first.
  by move=> n i j; apply: recon_ge0; exact: source_step_ge0 e.
by case: spatial_ip1.
Qed.
Lemma core_o a X X' u : live a -> nonneg_u u ->
  onceO NoNorm X' (gstate_y a u) = omap (gstate_y a) (onceO NoNorm X u).
Proof.
move=> la; case: u => Y B V h0; rewrite /IlrmaRun.once_o /gstate_y [st_Y _]/= [st_yB _]/= [st_yV _]/=.
rewrite source_step_g //; case e: (source_step _ _ _ _ _ _) => [[B1 V1]|//].
rewrite /omap /= recon_gB spatial_iss1_g //; last first.
  by move=> n i j; apply: recon_ge0; exact: source_step_ge0 e.
by case: spatial_iss1.
Qed.
Lemma core_f_ge0 X s s1 : nonneg_s s -> onceF NoNorm X s = Some s1 -> nonneg_s s1.
Proof.
case: s => W B V h0; rewrite /IlrmaRun.once_f; case e: (source_step _ _ _ _ _ _) => [[B1 V1]|//].
case: (spatial_f _ _ _ _ _ _ _ _) => // W1 [<-]; exact: source_step_ge0 e.
Qed.
Lemma core_o_ge0 X u u1 : nonneg_u u -> onceO NoNorm X u = Some u1 -> nonneg_u u1.
Proof.
case: u => Y B V h0; rewrite /IlrmaRun.once_o; case e: (source_step _ _ _ _ _ _) => [[B1 V1]|//].
case: (spatial_o _ _ _ _ _ _ _) => // W1 [<-]; exact: source_step_ge0 e.
Qed.
Lemma live_f A a X s s2 : onceF NoNorm (mixed A X) (gstate A a s) = Some s2 -> live a.
Proof.
rewrite /IlrmaRun.once_f /gstate; case e: (source_step _ _ _ _ _ _) => [[B1 V1]|//].
rewrite /spatial_f /spatial_ip1; case: eqP => //= T0 _.
by apply: (source_step_live _ e); rewrite lt0n; apply/eqP.
Qed.
Lemma live_o a X u u2 : (0 < T)%N -> onceO NoNorm X (gstate_y a u) = Some u2 -> live a.
Proof.
move=> T0; rewrite /IlrmaRun.once_o /gstate_y; case e: (source_step _ _ _ _ _ _) => [[B1 V1]|//] _.
exact: (source_step_live T0 e).
Qed.
(** whatever the normalisation, an iteration ends in the same state up to gains *)
Lemma once_f_g A a o X s s2 : (forall i, A i \in unitmx) -> nonneg_s s ->
  onceF o (mixed A X) (gstate A a s) = Some s2 ->
  exists s1 a', [/\ onceF NoNorm X s = Some s1, nonneg_s s1 & s2 = gstate A a' s1].
Proof.
move=> uA h0; rewrite once_f_norm; case e: (onceF NoNorm _ _) => [s1'|//].
have la := live_f e; move: e; rewrite core_f //; case e: (onceF NoNorm X s) => [s1|//] [<-] h.
have n1 := core_f_ge0 h0 e; exists s1; move: h; rewrite /gstate [st_W _]/= [st_B _]/= [st_V _]/=.
case n: (norm_f _ _ _ _ _ _) => [[W2 B2]|//] [<-].
have [b [-> ->]] := norm_f_g n; exists (prodg b a); split=> //.
rewrite gB_prodg //; congr (StateW _ _ _); apply: functional_extensionality => i.
by rewrite /gW !mulmxA -(mulmxA (diag_mx (b i))) diag_prodg.
Qed.
Lemma once_o_g a o X X' u u2 : (0 < T)%N -> nonneg_u u ->
  onceO o X' (gstate_y a u) = Some u2 ->
  exists u1 a', [/\ onceO NoNorm X u = Some u1, nonneg_u u1 & u2 = gstate_y a' u1].
Proof.
move=> T0 h0; rewrite once_o_norm; case e: (onceO NoNorm _ _) => [u1'|//].
have la := live_o T0 e; move: e; rewrite (core_o X) //; case e: (onceO NoNorm X u) => [u1|//] [<-] h.
have n1 := core_o_ge0 h0 e; exists u1; move: h; rewrite /gstate_y [st_Y _]/= [st_yB _]/= [st_yV _]/=.
case n: (norm_o _ _ _ _ _ _) => [[Y2 B2]|//] [<-].
have [b [-> ->]] := norm_o_g n; exists (prodg b a); split=> //.
rewrite gB_prodg //; congr (StateY _ _ _); apply: functional_extensionality => i.
by rewrite /gY diag_prodg.
Qed.

(** ** Loss *)
Definition shift A : R := \sum_i (2 * ln (cabs (\det (A i))))%coqR.
Lemma loss_of_mixed A Y W q : (forall i, A i \in unitmx) -> (forall i, W i \in unitmx) ->
  loss_of m Y (fun i => W i *m invmx (A i)) q = loss_of m Y W q + shift A.
Proof.
move=> uA uW; rewrite /loss_of /shift -big_split; apply: eq_bigr => i _ /=.
have d0 (M : 'M[Cx]_N) : M \in unitmx -> (0 < cabs (\det M))%coqR.
  by move=> u; apply: cabs_gt0; rewrite -unitfE -unitmxE.
have := d0 _ (uA i); have := d0 _ (uW i); rewrite det_mulmx det_inv cabsM cabsV.
move: (cabs (\det (W i))) (cabs (\det (A i))) => w x w0 x0.
rewrite -RmulE -RinvE; last by lra.
by rewrite ln_mult ?ln_Rinv //; [toR; lra|exact: Rinv_0_lt_compat].
Qed.
Lemma gW_unit A a W i : (forall i, A i \in unitmx) -> live a -> (gW A a W i \in unitmx) = (W i \in unitmx).
Proof.
move=> uA la; rewrite /gW !unitmx_mul unitmx_inv uA andbT.
by rewrite (diag_unit (la i)).
Qed.
Lemma gq_gt0 a q : live a -> (forall n i j, (0 < gq a q n i j)%coqR) -> forall n i j, (0 < q n i j)%coqR.
Proof.
move=> la h n i j; have := h n i j; have := pw_live i n la; rewrite /gq.
by move: (pw _ _) (q n i j) => x y; toR; nra.
Qed.
Lemma live_pos a q : (0 < T)%N -> (forall n i j, (0 < gq a q n i j)%coqR) -> live a.
Proof. by move=> T0 h; apply: (live_nz T0 (q := q)); apply: nzP. Qed.
Lemma loss_f_g A a X W B V l2 : (forall i, A i \in unitmx) ->
  loss_filter m (mixed A X) (gW A a W) (recon (gB a B) V) = Some l2 ->
  live a /\ loss_filter m X W (recon B V) = Some (l2 - shift A).
Proof.
move=> uA /loss_filterP[T0 uW q0 ->]; rewrite recon_gB in q0 *.
have la := live_pos T0 q0; split=> //; have {}q0 := gq_gt0 la q0.
have uW' i : W i \in unitmx by rewrite -(@gW_unit A a).
rewrite loss_filterE // separate_gW //; congr Some.
rewrite (@loss_of_mixed A _ (fun i => diag_mx (a i) *m W i)) // ?addrK; last first.
  by move=> i; rewrite unitmx_mul uW' andbT; exact: (diag_unit (la i)).
by rewrite -(loss_of_scale (s := a) _ T0 hm la uW' q0).
Qed.
Lemma refit_mixed (M : 'M[Cx]_N) (Y X : 'M[Cx]_(N, T)) : M \in unitmx ->
  refit Y (M *m X) = omap (mulmx^~ (invmx M)) (refit Y X).
Proof.
move=> uM; rewrite /refit /np_inv gram_unit //; case: ifP => // uX /=; congr Some.
by rewrite gram_inv // ctrM !mulmxA mulmxK // ctr_unit.
Qed.
Lemma refit_g (M : 'M[Cx]_N) (d : 'rV[Cx]_N) (Y X : 'M[Cx]_(N, T)) : M \in unitmx ->
  refit (diag_mx d *m Y) (M *m X) = omap (fun D => diag_mx d *m D *m invmx M) (refit Y X).
Proof.
move=> uM; rewrite refit_mixed //; case e: (refit Y X) => [W|]; first by rewrite (refit_scale d e).
by move: e; rewrite /refit; case: np_inv.
Qed.
Lemma loss_o_g A a X Y B V l2 : (forall i, A i \in unitmx) ->
  loss_output m (mixed A X) (gY a Y) (recon (gB a B) V) = Some l2 ->
  live a /\ loss_output m X Y (recon B V) = Some (l2 - shift A).
Proof.
move=> uA; rewrite /loss_output.
have E i : refit (gY a Y i) (mixed A X i) = omap (fun M => diag_mx (a i) *m M *m invmx (A i)) (refit (Y i) (X i)).
  exact: refit_g.
rewrite (all_bins_map (fun=> 0) (fun=> 0) E); case: (all_bins (fun=> 0) (fun i => refit (Y i) (X i))) => [W|//].
rewrite -[omap _ (Some W)]/(Some (gW A a W)); cbv iota; rewrite recon_gB.
case: ifP => // /and3P[T0' /forallP uW /posE q0] [<-].
have T0 : (0 < T)%N by rewrite lt0n.
have la := live_pos T0 q0; split=> //; have {}q0 := gq_gt0 la q0.
have uW' i : W i \in unitmx by rewrite -(@gW_unit A a).
rewrite T0' posP // andbT ifT; last by apply/forallP.
congr Some.
rewrite (@loss_of_mixed A _ (fun i => diag_mx (a i) *m W i)) // ?addrK; last first.
  by move=> i; rewrite unitmx_mul uW' andbT; exact: (diag_unit (la i)).
by rewrite -(loss_of_scale (s := a) _ T0 hm la uW' q0).
Qed.

(** ** Runs *)
Lemma iterate_f_g A o X k : (forall i, A i \in unitmx) -> forall a s s2, nonneg_s s ->
  iterate (onceF o (mixed A X)) k (gstate A a s) = Some s2 ->
  exists s1 a', iterate (onceF NoNorm X) k s = Some s1 /\ s2 = gstate A a' s1.
Proof.
move=> uA; elim: k => [|k IH] a s s2 h0; first by case=> <-; exists s, a.
change (iterate (onceF o (mixed A X)) k.+1 (gstate A a s)) with
  (if onceF o (mixed A X) (gstate A a s) is Some s' then iterate (onceF o (mixed A X)) k s' else None).
case e: (onceF o _ _) => [s'|//]; have [s1 [a' [e1 n1 ->]]] := once_f_g uA h0 e.
move=> /(IH _ _ _ n1)[s3 [a3 [e3 ->]]]; exists s3, a3; split=> //.
by change (iterate (onceF NoNorm X) k.+1 s) with
  (if onceF NoNorm X s is Some s' then iterate (onceF NoNorm X) k s' else None); rewrite e1.
Qed.
Lemma iterate_o_g o X X' k : (0 < T)%N -> forall a u u2, nonneg_u u ->
  iterate (onceO o X') k (gstate_y a u) = Some u2 ->
  exists u1 a', iterate (onceO NoNorm X) k u = Some u1 /\ u2 = gstate_y a' u1.
Proof.
move=> T0; elim: k => [|k IH] a s s2 h0; first by case=> <-; exists s, a.
change (iterate (onceO o X') k.+1 (gstate_y a s)) with
  (if onceO o X' (gstate_y a s) is Some s' then iterate (onceO o X') k s' else None).
case e: (onceO o _ _) => [s'|//]; have [s1 [a' [e1 n1 ->]]] := once_o_g X T0 h0 e.
move=> /(IH _ _ _ n1)[s3 [a3 [e3 ->]]]; exists s3, a3; split=> //.
by change (iterate (onceO NoNorm X) k.+1 s) with
  (if onceO NoNorm X s is Some s' then iterate (onceO NoNorm X) k s' else None); rewrite e1.
Qed.
Notation runF := (ilrma_run_f m alg fl eig chol (FIP1 N)).
Notation runO := (ilrma_run_o m alg fl eig chol (OISS1 N)).
Lemma run_f_g A o X k : (forall i, A i \in unitmx) -> forall a s s2 l2, nonneg_s s ->
  runF o (mixed A X) k (gstate A a s) = Some (s2, l2) ->
  exists s1 a', [/\ runF NoNorm X k s = Some (s1, [seq l - shift A | l <- l2]), live a' & s2 = gstate A a' s1].
Proof.
move=> uA; rewrite /ilrma_run_f; elim: k => [|k IH] a s s2 l2 h0; rewrite ?recordedS ?recorded0.
  case e: (loss_filter _ _ _ _) => [l|//] [<- <-]; have [la E] := loss_f_g uA e.
  by exists s, a; rewrite ?recorded0 E.
case el: (loss_filter _ _ _ _) => [l|//]; have [la E] := loss_f_g uA el.
case e: (onceF o _ _) => [s'|//]; have [s1 [a' [e1 n1 ->]]] := once_f_g uA h0 e.
case er: (recorded (onceF o (mixed A X)) _ k _) => [[s3 l3]|//] [<- <-].
have [s4 [a4 [e4 la4 ->]]] := IH _ _ _ _ n1 er.
by exists s4, a4; rewrite ?recordedS E e1 e4.
Qed.
Lemma run_o_g A o X k : (0 < T)%N -> (forall i, A i \in unitmx) -> forall a u u2 l2, nonneg_u u ->
  runO o (mixed A X) k (gstate_y a u) = Some (u2, l2) ->
  exists u1 a', [/\ runO NoNorm X k u = Some (u1, [seq l - shift A | l <- l2]), live a' & u2 = gstate_y a' u1].
Proof.
move=> T0 uA; rewrite /ilrma_run_o; elim: k => [|k IH] a s s2 l2 h0; rewrite ?recordedS ?recorded0.
  case e: (loss_output _ _ _ _) => [l|//] [<- <-]; have [la E] := loss_o_g uA e.
  by exists s, a; rewrite ?recorded0 E.
case el: (loss_output _ _ _ _) => [l|//]; have [la E] := loss_o_g uA el.
case e: (onceO o _ _) => [s'|//]; have [s1 [a' [e1 n1 ->]]] := once_o_g X T0 h0 e.
case er: (recorded (onceO o (mixed A X)) _ k _) => [[s3 l3]|//] [<- <-].
have [s4 [a4 [e4 la4 ->]]] := IH _ _ _ _ n1 er.
by exists s4, a4; rewrite ?recordedS E e1 e4.
Qed.
End Gauge.

(** * C82 *)
Section Claims.
Variables (N F T K : nat) (m : model) (alg : source_alg) (eig : eigh_t) (chol : chol_t).
Notation spec := ('I_F -> 'M[Cx]_(N, T)).
Notation filt := ('I_F -> 'M[Cx]_N).
Notation basis := ('I_N -> 'I_F -> 'I_K -> R).
Notation activ := ('I_N -> 'I_K -> 'I_T -> R).
Notation gains := ('I_F -> 'rV[Cx]_N).
Notation fl := identity_fl.
Implicit Types (a : gains) (A W : filt) (X Y : spec) (B : basis) (V : activ) (o : norm_opt N).
Implicit Types (s : state_w N F T K) (u : state_y N F T K) (z : 'I_F -> Cx).
Notation runF := (ilrma_run_f m alg fl eig chol (FIP1 N)).
Notation runO := (ilrma_run_o m alg fl eig chol (OISS1 N)).
Notation callF := (ilrma_call_f m alg fl eig chol (FIP1 N)).
Notation callO := (ilrma_call_o m alg fl eig chol (OISS1 N)).

Let one_g : gains := fun=> const_mx 1.
Let one_m : filt := fun=> 1%:M.
Lemma mixed1 X : mixed one_m X = X.
Proof. by apply: functional_extensionality => i; rewrite /mixed mul1mx. Qed.
Lemma pw1 p : pw 1 p = 1%coqR.
Proof. by rewrite pw_pos; [rewrite /Rpower ln_1 Rmult_0_r exp_0|lra]. Qed.
Lemma gB1 B : gB m one_g B = B.
Proof.
apply: functional_extensionality => n; apply: functional_extensionality => i.
by apply: functional_extensionality => k; rewrite /gB mxE cabs1 pw1 mulr1.
Qed.
Lemma gY1 Y : gY one_g Y = Y.
Proof. by apply: functional_extensionality => i; rewrite /gY diag_const_mx mul1mx. Qed.
Lemma gstate1 s : gstate m one_m one_g s = s.
Proof.
case: s => W B V; rewrite /gstate gB1; congr (StateW _ _ _); apply: functional_extensionality => i.
by rewrite /gW diag_const_mx mul1mx invmx1 mulmx1.
Qed.
Lemma gstate_y1 u : gstate_y m one_g u = u.
Proof. by case: u => Y B V; rewrite /gstate_y gB1 gY1. Qed.
Lemma shift1 : shift one_m = 0.
Proof. by apply: big1 => i _; rewrite det1 cabs1 ln_1 Rmult_0_r. Qed.
Lemma unshift (l : seq R) : [seq x - shift one_m | x <- l] = l.
Proof. by rewrite shift1; elim: l => //= x l ->; rewrite subr0. Qed.
Lemma ratio_live (a b : gains) : live a -> live b -> live (fun i => \row_n (a i 0 n / b i 0 n)).
Proof. by move=> la lb i n; rewrite mxE mulf_neq0 // invr_eq0. Qed.
Lemma ratioK (a b : gains) : live b -> prodg (fun i => \row_n (a i 0 n / b i 0 n)) b = a.
Proof.
by move=> lb; apply: functional_extensionality => i; apply/rowP => n; rewrite !mxE divfK.
Qed.

(** the state of two runs, whatever their normalisations: [X] mixed by [A], the initial filters
    undoing it and scaled by [a], the initial bases following *)
Theorem C82_run A a o o' X k s s2 l2 s1 l1 : valid m alg -> (forall i, A i \in unitmx) -> nonneg_s s ->
  runF o (mixed A X) k (gstate m A a s) = Some (s2, l2) -> runF o' X k s = Some (s1, l1) ->
  l2 = [seq l + shift A | l <- l1] /\
  exists2 b, live b & [/\ separate_all (mixed A X) (st_W s2) = gY b (separate_all X (st_W s1)),
    st_B s2 = gB m b (st_B s1) & st_V s2 = st_V s1].
Proof.
move=> hm uA h0 /(run_f_g hm uA h0)[s0 [b [e lb ->]]].
rewrite -[X in runF o' X]mixed1 -[in X in X -> _](gstate1 s).
have u1 i : one_m i \in unitmx by rewrite unitmx1.
move=> /(run_f_g hm u1 h0)[s0' [b' [+ lb' ->]]]; rewrite e unshift => -[<- <-].
split; first by rewrite -map_comp; elim: l2 {e} => //= x l <-; rewrite subrK.
exists (fun i => \row_n (b i 0 n / b' i 0 n)); first exact: ratio_live.
split=> //; last by rewrite gB_prodg // ratioK.
rewrite separate_gW // -[X in separate_all X]mixed1 separate_gW //.
apply: functional_extensionality => i; rewrite mixed1 /gY.
by rewrite (diag_prodg (fun i => \row_n (b i 0 n / b' i 0 n))) ratioK.
Qed.
Theorem C82_run_output A a o o' X k u u2 l2 u1 l1 : valid m alg -> (0 < T)%N -> (forall i, A i \in unitmx) -> nonneg_u u ->
  runO o (mixed A X) k (gstate_y m a u) = Some (u2, l2) -> runO o' X k u = Some (u1, l1) ->
  l2 = [seq l + shift A | l <- l1] /\
  exists2 b, live b & [/\ st_Y u2 = gY b (st_Y u1), st_yB u2 = gB m b (st_yB u1) & st_yV u2 = st_yV u1].
Proof.
move=> hm T0 uA h0 /(run_o_g hm T0 uA h0)[u0 [b [e lb ->]]].
rewrite -[X in runO o' X]mixed1 -[in X in X -> _](gstate_y1 u).
have un i : one_m i \in unitmx by rewrite unitmx1.
move=> /(run_o_g hm T0 un h0)[u0' [b' [+ lb' ->]]]; rewrite e unshift => -[<- <-].
split; first by rewrite -map_comp; elim: l2 {e} => //= x l <-; rewrite subrK.
exists (fun i => \row_n (b i 0 n / b' i 0 n)); first exact: ratio_live.
split=> //; last by rewrite gB_prodg // ratioK.
apply: functional_extensionality => i; rewrite /gY.
by rewrite (diag_prodg (fun i => \row_n (b i 0 n / b' i 0 n))) ratioK.
Qed.
(** the normalisation does not change the recorded losses *)
Theorem C82_normalization o o' X k s s2 l2 s1 l1 : valid m alg -> nonneg_s s ->
  runF o X k s = Some (s2, l2) -> runF o' X k s = Some (s1, l1) -> l2 = l1.
Proof.
move=> hm h0 h h'; have u1 i : one_m i \in unitmx by rewrite unitmx1.
have [] := @C82_run one_m one_g o o' X k s s2 l2 s1 l1 hm u1 h0 _ h'; first by rewrite mixed1 gstate1.
by move=> -> _; rewrite shift1; elim: l1 {h'} => //= x l ->; rewrite addr0.
Qed.
Theorem C82_normalization_output o o' X k u u2 l2 u1 l1 : valid m alg -> (0 < T)%N -> nonneg_u u ->
  runO o X k u = Some (u2, l2) -> runO o' X k u = Some (u1, l1) -> l2 = l1.
Proof.
move=> hm T0 h0 h h'; have un i : one_m i \in unitmx by rewrite unitmx1.
have [] := @C82_run_output one_m one_g o o' X k u u2 l2 u1 l1 hm T0 un h0 _ h'; first by rewrite mixed1 gstate_y1.
by move=> -> _; rewrite shift1; elim: l1 {h'} => //= x l ->; rewrite addr0.
Qed.

(** ** Restoration of the scale *)
Lemma gW_diagonal z a W i : z i != 0 -> gW (diagonal N z) a W i = diag_mx (\row_n (a i 0 n / z i)) *m W i.
Proof.
move=> z0; rewrite /gW /diagonal invmx_scalar mul_mx_scalar.
by apply/matrixP => x y; rewrite mxE !mul_diag_mx ![in RHS]mxE ![in LHS]mxE mulrA [_ * a i 0 x]mulrC.
Qed.
Lemma unit_live (d : 'rV[Cx]_N) (M : 'M[Cx]_N) n : diag_mx d *m M \in unitmx -> d 0 n != 0.
Proof.
rewrite unitmx_mul => /andP[+ _]; rewrite unitmxE det_diag unitfE => /prodf_neq0; exact.
Qed.
Lemma restore_f_g z a X W r Y2 : (forall i, z i != 0) ->
  restore_f (gained z X) r (gW (diagonal N z) a W) = Some Y2 ->
  exists2 Y1, restore_f X r W = Some Y1 & Y2 = gained z Y1.
Proof.
move=> z0 E.
have la i n : (\row_n (a i 0 n / z i) : 'rV[Cx]_N) 0 n != 0.
  have := all_binsP E i; rewrite gW_diagonal // /apply_pb /pb_filter /np_inv.
  by case: ifP => // u _; exact: unit_live u.
move: E; rewrite /restore_f.
have H i : omap fst (apply_pb (gained z X i) (gW (diagonal N z) a W i) r) = omap ( *:%R (z i)) (omap fst (apply_pb (X i) (W i) r)).
  rewrite gW_diagonal // /apply_pb pb_filter_scale //; case: pb_filter => //= M.
  by rewrite /separate /gained -scalemxAr.
rewrite (all_bins_map X (gained z X) H); case: all_bins => //= Y [<-].
by exists Y.
Qed.
Lemma restore_o_g z a X Y r Y2 : (forall i, z i != 0) ->
  restore_o (gained z X) r (gY a Y) = Some Y2 ->
  exists2 Y1, restore_o X r Y = Some Y1 & Y2 = gained z Y1.
Proof.
move=> z0 E.
have la i n : a i 0 n != 0.
  have := all_binsP E i; rewrite /pb_data /np_inv; case: ifP => // u _.
  by move: u; rewrite /gY -mulmxA; exact: unit_live.
move: E; rewrite /restore_o.
have H i : pb_data (gY a Y i) (gained z X i) r = omap ( *:%R (z i)) (pb_data (Y i) (X i) r).
  have uD := diag_unit (la i).
  have -> : pb_data (gY a Y i) (gained z X i) r = pb_data (Y i) (gained z X i) r.
    case u : (Y i *m (Y i)^H \in unitmx); last first.
      by rewrite /pb_data /gY /np_inv gram_unit // u.
    rewrite !pb_dataE ?gram_unit //; congr Some; rewrite pb_data_lin // /gY diag_inv // mulmxA mulmx_diag.
    congr (diag_mx _ *m _); apply/rowP => j.
    by rewrite mxE [row _ _ _ _]mxE mul_mx_diag !mxE mulfVK.
  rewrite /pb_data /gained; case: np_inv => //= G; congr Some.
  rewrite !scale_rowsE -!scalemxAl; apply/matrixP => x y.
  by rewrite mul_diag_mx [RHS]mxE mul_diag_mx ![in LHS]mxE ![in RHS]mxE mulrA.
rewrite (all_bins_map X (gained z X) H); case: all_bins => //= V [<-].
by exists V.
Qed.

Definition scaled_basis z B : basis := fun n i k => B n i k * pw (cabs (z i)) (domain m).
Let const_g z : gains := fun i => const_mx (z i).
Lemma scaled_basisE z B : scaled_basis z B = gB m (const_g z) B.
Proof.
apply: functional_extensionality => n; apply: functional_extensionality => i.
by apply: functional_extensionality => k; rewrite /gB mxE.
Qed.
Lemma callO_start z X : gained z X = gY (const_g z) X.
Proof. by apply: functional_extensionality => i; rewrite /gY diag_const_mx mul_scalar_mx. Qed.
Lemma separate_eyes' X : separate_all X (@eyes F N) = X.
Proof. by apply: functional_extensionality => i; rewrite /separate_all /separate mul1mx. Qed.

(** a call follows the gain [z i] of every bin, if the initial bases do, and forgets its
    normalisation *)
Theorem C82_call_gain o r X z k W B V Y2 : valid m alg -> nonneg B V -> (forall i, z i != 0) ->
  callF o r (gained z X) k (StateW W (scaled_basis z B) V) = Some Y2 ->
  exists2 Y1, callF NoNorm r X k (StateW W B V) = Some Y1 & Y2 = gained z Y1.
Proof.
move=> hm h0 z0; rewrite /ilrma_call_f; case e: (iterate _ _ _) => [s2|//].
have uz i : diagonal N z i \in unitmx by exact: diagonal_unit.
have E : StateW W (scaled_basis z B) V = gstate m (diagonal N z) (const_g z) (StateW W B V).
  rewrite scaled_basisE /gstate; congr (StateW _ _ _); apply: functional_extensionality => i.
  rewrite gW_diagonal //.
  have -> : (\row_n (const_g z i 0 n / z i) : 'rV[Cx]_N) = const_mx 1 by apply/rowP => n; rewrite !mxE divff.
  by rewrite diag_const_mx mul1mx.
move: e; rewrite E -mixed_diagonal => /(iterate_f_g hm uz (s := StateW W B V) h0)[s1 [b [-> ->]]].
rewrite mixed_diagonal; exact: restore_f_g.
Qed.
Theorem C82_call_gain_output o r X z k B V Y2 : valid m alg -> (0 < T)%N -> nonneg B V -> (forall i, z i != 0) ->
  callO o r (gained z X) k (scaled_basis z B) V = Some Y2 ->
  exists2 Y1, callO NoNorm r X k B V = Some Y1 & Y2 = gained z Y1.
Proof.
move=> hm T0 h0 z0; rewrite /ilrma_call_o !separate_eyes'; case e: (iterate _ _ _) => [u2|//].
have E : StateY (gained z X) (scaled_basis z B) V = gstate_y m (const_g z) (StateY X B V).
  by rewrite scaled_basisE callO_start.
move: e; rewrite E => /(iterate_o_g hm X T0 (u := StateY X B V) h0)[u1 [b [-> ->]]].
exact: restore_o_g.
Qed.
Lemma scaled_basis1 B : scaled_basis (fun=> 1) B = B.
Proof. by rewrite scaled_basisE gB1. Qed.
Lemma gained1 X : gained (fun=> 1) X = X.
Proof. by apply: functional_extensionality => i; rewrite /gained scale1r. Qed.
(** two calls that differ in their normalisation return the same signals *)
Theorem C82_call_normalization o o' r X k s Y Y' : valid m alg -> nonneg_s s ->
  callF o r X k s = Some Y -> callF o' r X k s = Some Y' -> Y = Y'.
Proof.
move=> hm; case: s => W B V h0 e e'.
have o1 (i : 'I_F) : (1 : Cx) != 0 by exact: oner_neq0.
have [|Y1 e1 ->] := @C82_call_gain o r X (fun=> 1) k W B V Y hm h0 o1; first by rewrite gained1 scaled_basis1.
have [|Y2 e2 ->] := @C82_call_gain o' r X (fun=> 1) k W B V Y' hm h0 o1; first by rewrite gained1 scaled_basis1.
by move: e2; rewrite e1 => -[->].
Qed.
Theorem C82_call_normalization_output o o' r X k B V Y Y' : valid m alg -> (0 < T)%N -> nonneg B V ->
  callO o r X k B V = Some Y -> callO o' r X k B V = Some Y' -> Y = Y'.
Proof.
move=> hm T0 h0 e e'.
have o1 (i : 'I_F) : (1 : Cx) != 0 by exact: oner_neq0.
have [|Y1 e1 ->] := @C82_call_gain_output o r X (fun=> 1) k B V Y hm T0 h0 o1; first by rewrite gained1 scaled_basis1.
have [|Y2 e2 ->] := @C82_call_gain_output o' r X (fun=> 1) k B V Y' hm T0 h0 o1; first by rewrite gained1 scaled_basis1.
by move: e2; rewrite e1 => -[->].
Qed.
(** without normalisation the call on the amplified recording fails exactly when the other does *)
Lemma gainedK z X : (forall i, z i != 0) -> gained (fun i => (z i)^-1) (gained z X) = X.
Proof. by move=> z0; apply: functional_extensionality => i; rewrite /gained scalerA mulVf // scale1r. Qed.
Lemma scaled_basisK z B : (forall i, z i != 0) -> scaled_basis (fun i => (z i)^-1) (scaled_basis z B) = B.
Proof.
move=> z0; apply: functional_extensionality => n; apply: functional_extensionality => i.
apply: functional_extensionality => k; rewrite /scaled_basis cabsV -RinvE; last first.
  by have := cabs_gt0 (z0 i); lra.
have := pw_gt0 _ (domain m) (cabs_gt0 (z0 i)); rewrite pw_inv; last exact: cabs_gt0.
by move: (pw _ _) (B n i k) => x y x0; toR; Rfield; lra.
Qed.
Lemma nonneg_scaled z B V : nonneg B V -> nonneg (scaled_basis z B) V.
Proof. by case=> B0 V0; split=> // n i k; apply: Rmult_le_pos => //; exact: pw_ge0. Qed.
Theorem C82_call_gain_iff r X z k W B V : valid m alg -> nonneg B V -> (forall i, z i != 0) ->
  callF NoNorm r (gained z X) k (StateW W (scaled_basis z B) V) = omap (gained z) (callF NoNorm r X k (StateW W B V)).
Proof.
move=> hm h0 z0; case e: (callF NoNorm r (gained z X) _ _) => [Y2|].
  by have [Y1 -> ->] := C82_call_gain hm h0 z0 e.
case e1: (callF NoNorm r X _ _) => [Y1|//].
have z0' i : (z i)^-1 != 0 by rewrite invr_eq0.
have [|Y3 e3 _] := @C82_call_gain NoNorm r (gained z X) (fun i => (z i)^-1) k W (scaled_basis z B) V Y1 hm (nonneg_scaled z h0) z0'.
  by rewrite gainedK // scaled_basisK.
by move: e; rewrite e3.
Qed.
Theorem C82_call_gain_output_iff r X z k B V : valid m alg -> (0 < T)%N -> nonneg B V -> (forall i, z i != 0) ->
  callO NoNorm r (gained z X) k (scaled_basis z B) V = omap (gained z) (callO NoNorm r X k B V).
Proof.
move=> hm T0 h0 z0; case e: (callO NoNorm r (gained z X) _ _ _) => [Y2|].
  by have [Y1 -> ->] := C82_call_gain_output hm T0 h0 z0 e.
case e1: (callO NoNorm r X _ _ _) => [Y1|//].
have z0' i : (z i)^-1 != 0 by rewrite invr_eq0.
have [|Y3 e3 _] := @C82_call_gain_output NoNorm r (gained z X) (fun i => (z i)^-1) k (scaled_basis z B) V Y1 hm T0 (nonneg_scaled z h0) z0'.
  by rewrite gainedK // scaled_basisK.
by move: e; rewrite e3.
Qed.
End Claims.

(** two sources, bins and frames; filters twice the identity, variances four: without
    normalisation the run stays there, with power normalisation it moves to the identity *)
Section Instance.
Variables (eig : eigh_t) (chol : chol_t).
Notation G := (Gauss 2%coqR).
Notation fl := identity_fl.
Definition st (x : R) : state_w 2 2 2 1 := StateW (fun=> c x *: 1%:M) (fun _ _ _ => x ^+ 2) (fun _ _ _ => 1).
Lemma G_valid : valid G ME.
Proof. by split=> //; lra. Qed.
Lemma amp_hada n i j : amp (separate_all Xe (st_W (st 1))) n i j = 1.
Proof.
rewrite /amp /separate_all /separate /st /= [c 1%R]c1 scale1r mul1mx /Xe mxE.
by case: ifP; rewrite ?cabsN cabs1.
Qed.
Lemma recon_one n i j : recon (st_B (st 1)) (st_V (st 1)) n i j = 1.
Proof. by rewrite /recon big_ord_recl big_ord0 /= expr1n mulr1 addr0. Qed.
Lemma num_one : num_cell G ME 1%R 1%R = 1%coqR.
Proof. by rewrite /num_cell -R1E; Rfield. Qed.
Lemma st_one : StateW (fun=> 1%:M) (fun _ _ _ => 1%R) (fun _ _ _ => 1%R) = st 1.
Proof.
rewrite /st expr1n; congr (StateW _ _ _); apply: functional_extensionality => i.
by rewrite [c _]c1 scale1r.
Qed.
Lemma fixed_one : IlrmaRun.once_f G ME fl eig chol (FIP1 2) NoNorm Xe (st 1) = Some (st 1).
Proof.
rewrite -[LHS]/(if source_step G ME fl (separate_all Xe (st_W (st 1))) (st_B (st 1)) (st_V (st 1)) is Some (B1, V1) then
    if spatial_ip1 G fl Xe (st_W (st 1)) (recon B1 V1) is Some W1 then Some (StateW W1 B1 V1) else None else None).
have two : (2%:R : R) = 2%coqR by rewrite -RnatE /=; lra.
have S B : (forall n i k, B n i k = 1) -> forall n i j, recon B (st_V (st 1)) n i j = 1.
  by move=> e n i j; rewrite /recon big_ord_recl big_ord0 e mulr1 addr0.
have nz1 q : (forall (n i j : 'I_2), q n i j = 1 :> R) -> nz q.
  by move=> e; apply/forallP => n; apply/forallP => i; apply/forallP => j; rewrite e oner_neq0.
set Y := separate_all Xe _; have aY n i j : amp Y n i j = 1 by exact: amp_hada.
have B1 n i k : st_B (st 1) n i k = 1 by rewrite /= expr1n.
have V1 n k j : st_V (st 1) n k j = 1 by [].
have dB n i k : basis_den (st_B (st 1)) (st_V (st 1)) n i k = 2%coqR.
  rewrite /basis_den; under eq_bigr do rewrite recon_one V1; rewrite sum2; toR.
  by Rfield.
have dA n k j : act_den (st_B (st 1)) (st_V (st 1)) n k j = 2%coqR.
  rewrite /act_den; under eq_bigr do rewrite recon_one B1; rewrite sum2; toR.
  by Rfield.
have -> : source_step G ME fl Y (st_B (st 1)) (st_V (st 1)) = Some (st_B (st 1), st_V (st 1)).
  have uB : update_basis G ME fl Y (st_B (st 1)) (st_V (st 1)) = Some (st_B (st 1)).
    rewrite /update_basis nz1; last exact: recon_one.
    rewrite ifT; last first.
      by apply/forallP => n; apply/forallP => i; apply/forallP => k; rewrite dB; apply/eqP; toR; lra.
    congr Some; apply: functional_extensionality => n; apply: functional_extensionality => i.
    apply: functional_extensionality => k; rewrite dB B1 /basis_num.
    under eq_bigr do rewrite V1 aY recon_one num_one.
    rewrite sum2 /identity_fl /expo; toR.
    have -> : ((1 * 1 + 1 * 1) / 2 = 1)%coqR by Rfield.
    by rewrite pw_1; lra.
  rewrite /source_step uB /update_activation nz1; last exact: recon_one.
  rewrite ifT; last first.
    by apply/forallP => n; apply/forallP => i; apply/forallP => k; rewrite dA; apply/eqP; toR; lra.
  congr Some; congr pair; apply: functional_extensionality => n; apply: functional_extensionality => k.
  apply: functional_extensionality => j; rewrite dA /act_num.
  under eq_bigr do rewrite B1 aY recon_one num_one.
  rewrite sum2 /identity_fl /expo V1; toR.
  have -> : ((1 * 1 + 1 * 1) / 2 = 1)%coqR by Rfield.
  by rewrite pw_1; lra.
rewrite /spatial_ip1 -/Y.
have -> : varphi_ok G fl Y (recon (st_B (st 1)) (st_V (st 1))).
  by rewrite /varphi_ok nz1; [do 3! apply/forallP => ?|exact: recon_one].
have E i : ip1 fl (wcov (varphi G fl Y (recon (st_B (st 1)) (st_V (st 1))) i) (Xe i)) (st_W (st 1) i) = Some (st_W (st 1) i).
  have -> : st_W (st 1) i = 1%:M by rewrite -[st_W _ _]/(c 1%coqR *: 1%:M) [c _]c1 scale1r.
  have -> : varphi G fl Y (recon (st_B (st 1)) (st_V (st 1))) i = const_mx 1.
    apply/matrixP => a b; rewrite [LHS]mxE [RHS]mxE recon_one /spatial_weight.
    by rewrite -!R1E /pw; case: Req_EM_T => [|_]; [lra|rewrite /Rpower ln_1 Rmult_0_r exp_0; Rfield].
  have -> : wcov (const_mx 1) (Xe i) = (fun=> 1%:M) by apply: functional_extensionality => n; exact: wcov_hada.
  exact: ip1_one.
rewrite /all_bins; case: ifP => [_|/negP[]]; last by apply/forallP => i; rewrite E.
rewrite -[RHS]/(Some (StateW (st_W (st 1)) (st_B (st 1)) (st_V (st 1)))); congr Some; congr (StateW _ _ _).
by apply: functional_extensionality => i; rewrite E.
Qed.
Let um (i : 'I_2) : (1%:M : 'M[Cx]_2) \in unitmx := unitmx1 _ 2.
Let gx (x : R) : 'I_2 -> 'rV[Cx]_2 := fun=> const_mx (c x).
Lemma st_gauge (x : R) : (0 < x)%coqR -> gstate G (fun=> 1%:M) (gx x) (st 1) = st x.
Proof.
move=> x0; rewrite /gstate /st; congr (StateW _ _ _).
  apply: functional_extensionality => i; rewrite /gW /= diag_const_mx mul_scalar_mx invmx1 mulmx1.
  by rewrite [c 1%coqR]c1 scale1r.
apply: functional_extensionality => n; apply: functional_extensionality => i; apply: functional_extensionality => k.
rewrite /gB mxE /= expr1n mul1r cabs_c Rabs_pos_eq; last by exact: Rlt_le.
by rewrite pw_2 ?RpowE //; exact: Rlt_le.
Qed.
Lemma gx_live (x : R) : (0 < x)%coqR -> live (gx x).
Proof. by move=> x0 i n; rewrite mxE; apply: c_neq0; lra. Qed.
Lemma st_nonneg (x : R) : nonneg_s (st x).
Proof. by split=> * /=; [rewrite -RpowE; exact: pow2_ge_0|toR; lra]. Qed.
Lemma fixed (x : R) : (0 < x)%coqR -> IlrmaRun.once_f G ME fl eig chol (FIP1 2) NoNorm Xe (st x) = Some (st x).
Proof.
move=> x0; have E := @core_f 2 2 2 1 G ME G_valid eig chol (fun=> 1%:M) (gx x) Xe (st 1) um (gx_live x0) (st_nonneg 1).
have M : mixed (fun=> 1%:M) Xe = Xe by apply: functional_extensionality => i; rewrite /mixed mul1mx.
rewrite M st_gauge // fixed_one in E.
exact: (etrans E (congr1 Some (st_gauge x0))).
Qed.
Lemma power (x : R) : (0 < x)%coqR -> IlrmaRun.once_f G ME fl eig chol (FIP1 2) Power Xe (st x) = Some (st 1).
Proof.
move=> x0; rewrite once_f_norm fixed // /norm_f /norm_power.
have psiE n : psi fl (separate_all Xe (st_W (st x))) n = x.
  rewrite /psi /identity_fl.
  have -> : \sum_i \sum_j (amp (separate_all Xe (st_W (st x))) n i j ^ 2)%coqR = (4 * x ^ 2)%coqR.
    have E i j : amp (separate_all Xe (st_W (st x))) n i j = x.
      rewrite /amp /separate_all /separate /= -scalemxAl mul1mx mxE cabsM cabs_c Rabs_pos_eq; last exact: Rlt_le.
      by rewrite mxE; case: ifP; rewrite ?cabsN cabs1 mulr1.
    under eq_bigr do under eq_bigr do rewrite E.
    by rewrite !sum2; toR; lra.
  have -> : ((2 * 2)%:R : R) = 4%coqR by rewrite -RnatE /=; lra.
  rewrite -RinvE; last by lra.
  have -> : (/ 4 * (4 * x ^ 2) = x ^ 2)%coqR by Rfield.
  by rewrite sqrt_pow2 //; exact: Rlt_le.
rewrite ifT; last first.
  by apply/forallP => n; rewrite psiE; apply/eqP; toR; lra.
rewrite /omap /obind /oapp; congr Some; rewrite -[RHS]/(StateW (st_W (st 1)) (st_B (st 1)) (st_V (st 1))); congr (StateW _ _ _).
  apply: functional_extensionality => i; apply/matrixP => a b; rewrite mxE psiE !mxE [c 1%coqR]c1 mulrAC divff ?mul1r //.
  by apply: c_neq0; lra.
apply: functional_extensionality => n; apply: functional_extensionality => i; apply: functional_extensionality => k.
rewrite -[LHS]/(st_B (st x) n i k / pw (psi fl (separate_all Xe (st_W (st x))) n) 2)%coqR psiE pw_2; last exact: Rlt_le.
by rewrite -[st_B (st x) n i k]/(x ^+ 2) -[RHS]/(1%coqR ^+ 2) -!RpowE; Rfield; lra.
Qed.
Lemma iterate_fixed S (f : S -> option S) s k : f s = Some s -> iterate f k s = Some s.
Proof. by move=> e; elim: k => //= k IH; rewrite e. Qed.
Lemma iterateS S (f : S -> option S) s k : iterate f k.+1 s = if f s is Some s' then iterate f k s' else None.
Proof. by []. Qed.
Example C82_instance k : exists Y,
  [/\ iterate (IlrmaRun.once_f G ME fl eig chol (FIP1 2) NoNorm Xe) k.+1 (st 2) = Some (st 2),
      iterate (IlrmaRun.once_f G ME fl eig chol (FIP1 2) Power Xe) k.+1 (st 2) = Some (st 1),
      ilrma_call_f G ME fl eig chol (FIP1 2) NoNorm 0 Xe k.+1 (st 2) = Some Y &
      ilrma_call_f G ME fl eig chol (FIP1 2) Power 0 Xe k.+1 (st 2) = Some Y].
Proof.
have two : (0 < 2)%coqR by lra.
have one : (0 < 1)%coqR by lra.
have e1 := iterate_fixed k.+1 (fixed two).
have e2 : iterate (IlrmaRun.once_f G ME fl eig chol (FIP1 2) Power Xe) k.+1 (st 2) = Some (st 1).
  by rewrite iterateS (power two); exact: iterate_fixed (power one).
have C x : (0 < x)%coqR -> exists Y, restore_f Xe 0 (st_W (st x)) = Some Y.
  move=> x0; rewrite /restore_f /all_bins; case: ifP => [_|/negP[]]; first by eexists.
  apply/forallP => i; rewrite /apply_pb pb_filterE //= unitmxZ ?unitmx1 // unitfE.
  by apply: c_neq0; lra.
have [Y hY] := C 2%coqR two; have [Y' hY'] := C 1%coqR one.
have c1 : ilrma_call_f G ME fl eig chol (FIP1 2) NoNorm 0 Xe k.+1 (st 2) = Some Y by rewrite /ilrma_call_f e1.
have c2 : ilrma_call_f G ME fl eig chol (FIP1 2) Power 0 Xe k.+1 (st 2) = Some Y' by rewrite /ilrma_call_f e2.
exists Y; split=> //; rewrite c2; congr Some; symmetry.
exact: (C82_call_normalization G_valid (st_nonneg 2) c1 c2).
Qed.
End Instance.
