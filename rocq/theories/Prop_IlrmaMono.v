(** C83: the losses recorded by a run of GaussILRMA, TILRMA or GGDILRMA never increase. *)
From Coq Require Import Reals Lra FunctionalExtensionality.
From mathcomp Require Import all_ssreflect all_algebra.
From mathcomp Require Import ring.
From Verif Require Import RStruct MxC CxR NpLin RealLemmas NmfReal NmfMM Eigh EighProofs.
From Verif Require Import SpatialIP SpatialIPProofs SpatialISS SpatialISSProofs Prop_ISS1 SpatialIP2 SpatialISS2.
From Verif Require Import Scale ScaleProofs AuxIVA AuxIVAProofs AuxIVARun AuxIVACall Prop_AuxIVARun.
From Verif Require Import Ilrma IlrmaReal IlrmaProofs Prop_Ilrma Prop_IlrmaIter IlrmaRun Prop_AuxGain Prop_IlrmaGauge.
Import Order.TTheory GRing.Theory Num.Theory.
Set Implicit Arguments.
Unset Strict Implicit.
Unset Printing Implicit Defensive.
Arguments pow : simpl never.
Local Open Scope ring_scope.

Section Recorded.
Variables (S : Type) (step : S -> option S) (loss : S -> option R) (Inv : S -> Prop).
(** the loss of the new state may be used to re-establish the invariant *)
Lemma recorded_mono : (forall s s' l l', Inv s -> step s = Some s' -> loss s = Some l -> loss s' = Some l' ->
     Inv s' /\ (l' <= l)%coqR) ->
  forall k s s' ls, Inv s -> recorded step loss k s = Some (s', ls) ->
  [/\ Inv s', size ls = k.+1 & non_increasing ls].
Proof.
move=> hs k s s' ls Is e.
suff [Is' [sz hd w]] : Inv s' /\ [/\ size ls = k.+1, loss s = Some (nth 0%R ls 0) & within 0%coqR ls].
  by split=> //; exact: within0.
elim: k s ls Is e => [|k IH] s ls Is.
  by rewrite recorded0; case el: (loss s) => [l|//] [<- <-]; split=> //; split.
rewrite recordedS; case el: (loss s) => [l|//]; case es: (step s) => [s1|//].
case er: (recorded _ _ _ _) => [[sf ls']|//] [ef <-].
have [l1 el1] : exists l1, loss s1 = Some l1.
  by case: k {IH} er => [|k]; rewrite ?recorded0 ?recordedS; case: (loss s1) => [l1|//] _; exists l1.
have [Is1 le] := hs _ _ _ _ Is es el el1.
rewrite ef in er; have [Is' [sz hd w]] := IH _ _ Is1 er.
split=> //; split=> //=; first by rewrite sz.
case=> [|i] /= hi; last exact: (w i hi).
by move: hd; rewrite el1 => -[<-]; lra.
Qed.
End Recorded.

Section Mono.
Variables (N F T K : nat) (m : model) (alg : source_alg) (eig : eigh_t) (chol : chol_t).
Notation spec := ('I_F -> 'M[Cx]_(N, T)).
Notation filt := ('I_F -> 'M[Cx]_N).
Notation cells := ('I_N -> 'I_F -> 'I_T -> R).
Notation basis := ('I_N -> 'I_F -> 'I_K -> R).
Notation activ := ('I_N -> 'I_K -> 'I_T -> R).
Notation fl := identity_fl.
Implicit Types (W : filt) (X Y : spec) (B : basis) (V : activ) (q : cells).
Implicit Types (s : state_w N F T K) (u : state_y N F T K).
Hypotheses (hm : valid m alg) (K0 : (0 < K)%N) (F0 : (0 < F)%N) (T0 : (0 < T)%N).
Hypotheses (He : eigh_contract eig) (Hc : chol_contract chol).

Lemma num_cell0 (x : R) : num_cell m alg 0%coqR x = 0%coqR.
Proof.
have z : (0 ^ 2 = 0)%coqR by lra.
case: (m) (alg) => [p|nu p|be p] [] /=; rewrite ?z ?/Rdiv ?Rmult_0_l //.
all: by rewrite [pw _ _]pw0 Rmult_0_l Rmult_0_r.
Qed.
Lemma not_all0 (I : finType) (f : I -> Cx) : ~ (forall i, f i = 0) -> exists i, f i != 0.
Proof.
move=> h; apply/existsP; apply: contra_notT h; rewrite negb_exists => /forallP h i.
by apply/eqP; have := h i; rewrite negbK.
Qed.
Lemma expo0 : pw 0 (expo m alg) = 0%coqR. Proof. exact: pw0. Qed.

(** a source step that stays finite does not increase the loss and keeps the parameters positive *)
Lemma source_step_mono Y W B V B1 V1 : (forall n i k, (0 < B n i k)%coqR) -> (forall n k j, (0 < V n k j)%coqR) ->
  source_step m alg fl Y B V = Some (B1, V1) -> nz (recon B1 V1) ->
  [/\ forall n i k, (0 < B1 n i k)%coqR, forall n k j, (0 < V1 n k j)%coqR &
      (loss_of m Y W (recon B1 V1) <= loss_of m Y W (recon B V))%coqR].
Proof.
move=> B0 V0; rewrite /source_step; case eB: (update_basis m alg fl Y B V) => [B2|//].
case eV: (update_activation _ _ _ _ _ _) => [V2|//] [e1 e2]; rewrite {}e1 in eB eV; rewrite {}e2 in eV => nz1.
have nz2 : nz (recon B1 V) by move: eV; rewrite /update_activation; case: (nz _).
have lB n i : exists j, Y i n j != 0.
  apply: not_all0 => y0; move/forallP/(_ n)/forallP/(_ i)/forallP/(_ (Ordinal T0))/eqP: nz2; apply.
  apply: big1 => k _; move: eB; rewrite /update_basis; case: (_ && _); last by [].
  case=> <-; rewrite /basis_num big1 => [|j _]; last by rewrite /amp y0 cabs0 num_cell0 mulr0.
  by rewrite /Rdiv -R0E Rmult_0_l expo0 /identity_fl Rmult_0_l R0E mul0r.
have lV n j : exists i, Y i n j != 0.
  apply: not_all0 => y0; move/forallP/(_ n)/forallP/(_ (Ordinal F0))/forallP/(_ j)/eqP: nz1; apply.
  apply: big1 => k _; move: eV; rewrite /update_activation; case: (_ && _); last by [].
  case=> <-; rewrite /act_num big1 => [|i _]; last by rewrite /amp y0 cabs0 num_cell0 mulr0.
  by rewrite /Rdiv -R0E Rmult_0_l expo0 /identity_fl Rmult_0_l R0E mulr0.
have [||B' [e B'0 _ le]] := @basis_step N F T K m alg 0 _ hm id_fl Y B V W K0 T0 B0 V0.
- by move=> *; lra.
- by right; split=> // n i; have [j h] := lB n i; exists j; exact: cabs_gt0.
move: e; rewrite eB => -[e]; rewrite -{}e in B'0 le.
have [||V' [e V'0 _ le']] := @activation_step N F T K m alg 0 _ hm id_fl Y B1 V W K0 F0 B'0 V0.
- by move=> *; lra.
- by right; split=> // n j; have [i h] := lV n j; exists i; exact: cabs_gt0.
move: e; rewrite eV => -[e]; rewrite -{}e in V'0 le'.
by split=> //; apply: Rle_trans le' le.
Qed.

Lemma varphi_ok_live Y q : varphi_ok m fl Y q ->
  nz q /\ forall n i j, if m is GGD _ _ then Y i n j != 0 else true.
Proof.
case/andP=> hq /forallP h; split=> // n i j; have /forallP/(_ i)/forallP/(_ j) := h n.
rewrite /weight_ok; case: (m) => // be p; rewrite /amp /identity_fl; apply: contra_neq => ->.
by rewrite cabs0 [pw _ _]pw0.
Qed.
Lemma spatial_f_mono a X W q W1 : distinct_f a -> (forall i, row_free (X i)) -> unitf W ->
  (nz q -> forall n i j, (0 < q n i j)%coqR) -> spatial_f m fl eig chol a X W q = Some W1 ->
  [/\ nz q, unitf W1 & exists l l', [/\ loss_filter m X W q = Some l, loss_filter m X W1 q = Some l' & (l' <= l)%coqR]].
Proof.
move=> ds fX uW q0 e.
have ok : varphi_ok m fl (separate_all X W) q.
  by move: e; case: a {ds} => [|ps]; rewrite /spatial_f /spatial_ip1 /spatial_ip2 /=; case: (varphi_ok _ _ _ _) => //; rewrite andbF.
have [nzq hg] := varphi_ok_live ok; have {}q0 := q0 nzq.
case: a ds e => [|ps] ds /= e.
  have [W' [l [l' [e' u' ? ? ?]]]] := C48_spatial_ip1_no_flooring hm T0 uW fX q0 hg.
  by move: e; rewrite e' => -[<-]; split=> //; exists l, l'.
have [W' [l [l' [e' u' ? ? ?]]]] := C48_spatial_ip2 He Hc hm T0 ds uW fX q0 hg.
by move: e; rewrite e' => -[<-]; split=> //; exists l, l'.
Qed.
Lemma spatial_o_mono a X Y q Y1 : distinct_o a -> (forall i, row_free (X i)) -> separated X Y ->
  (nz q -> forall n i j, (0 < q n i j)%coqR) -> spatial_o m fl eig chol a Y q = Some Y1 ->
  [/\ nz q, separated X Y1 & exists l l', [/\ loss_output m X Y q = Some l, loss_output m X Y1 q = Some l' & (l' <= l)%coqR]].
Proof.
move=> ds fX [W uW eY] q0 e.
have ok : varphi_ok m fl Y q.
  by move: e; case: a {ds} => [|ps]; rewrite /spatial_o /spatial_iss1 /spatial_iss2; case: (varphi_ok _ _ _ _).
have [nzq hg] := varphi_ok_live ok; have {}q0 := q0 nzq.
suff [W' [l [l' [u ? h]]]] : exists W' l l', [/\ forall i, W' i \in unitmx /\ Y1 i = W' i *m X i,
    loss_output m X Y q = Some l & loss_output m X Y1 q = Some l' /\ (l' <= l)%coqR].
  by split=> //; [exists W' => i; have [] := u i|exists l, l'; have [] := h].
case: a ds e => [|ps] ds.
  rewrite /spatial_o /spatial_iss1 ok => e; have hY1 := all_binsP e.
  have fi n i j : floor_inactive_at m identity_fl (amp Y n i j).
    by have := hg n i j; case: (m) => //= be p h; split=> //; exact: cabs_gt0.
  have [_ w0] := weights_ok hm q0 fi.
  have [|Y' [W' [l [l' [e' u' ? ? ?]]]]] := @iss_generic N F T m alg fl X W Y q (fun i => iss1 fl (varphi m fl Y q i) (Y i)) hm T0 uW fX eY q0 fi.
    move=> i; exists (Y1 i) => //; have := hY1 i; rewrite {1}eY => h.
    have [k t|V [? ? ?]] := C43_sweep_identity _ (uW i) h; first exact: Rlt_le.
    by exists V; rewrite [Y i]eY.
  by move: e; rewrite e' => -[<-]; exists W', l, l'.
rewrite /spatial_o => e.
have [Y' [W' [l [l' [e' u' ? ? ?]]]]] := C48_spatial_iss2 He Hc hm T0 ds uW fX eY q0 hg.
by move: e; rewrite e' => -[<-]; exists W', l, l'.
Qed.

(** ** Normalisation *)
Let one_m : filt := fun=> 1%:M.
Let u1 i : one_m i \in unitmx := unitmx1 _ N.
Lemma gW_one a W : gW one_m a W = fun i => diag_mx (a i) *m W i.
Proof. by apply: functional_extensionality => i; rewrite /gW invmx1 mulmx1. Qed.
Lemma gB_gt0 a B : live a -> (forall n i k, (0 < B n i k)%coqR) -> forall n i k, (0 < gB m a B n i k)%coqR.
Proof. by move=> la B0 n i k; apply: Rmult_lt_0_compat => //; exact: pw_live. Qed.
Lemma norm_f_mono o X W B V W2 B2 l : unitf W -> (forall n i k, (0 < B n i k)%coqR) ->
  norm_f m fl o X W B = Some (W2, B2) -> loss_filter m X W2 (recon B2 V) = Some l ->
  [/\ unitf W2, forall n i k, (0 < B2 n i k)%coqR & loss_filter m X W (recon B V) = Some l].
Proof.
move=> uW B0 /norm_f_g[a [-> ->]] e; rewrite -gW_one -{1}(mixed1 X) in e.
have [la] := loss_f_g hm u1 e; rewrite [shift _]shift1 subr0 => e'.
split=> //; last exact: gB_gt0.
by move=> i; rewrite unitmx_mul uW andbT; exact: (diag_unit (la i)).
Qed.
Lemma norm_o_mono o X Y B V Y2 B2 l : separated X Y -> (forall n i k, (0 < B n i k)%coqR) ->
  norm_o m fl o X Y B = Some (Y2, B2) -> loss_output m X Y2 (recon B2 V) = Some l ->
  [/\ separated X Y2, forall n i k, (0 < B2 n i k)%coqR & loss_output m X Y (recon B V) = Some l].
Proof.
move=> [W uW eY] B0 /norm_o_g[a [-> ->]] e; rewrite -{1}(mixed1 X) in e.
have [la] := loss_o_g hm u1 e; rewrite [shift _]shift1 subr0 => e'.
split=> //; last exact: gB_gt0.
exists (fun i => diag_mx (a i) *m W i) => i; last by rewrite /gY eY mulmxA.
by rewrite unitmx_mul uW andbT; exact: (diag_unit (la i)).
Qed.

(** ** C83: without flooring, for every class, source algorithm, spatial algorithm and
    normalisation, the losses recorded by a run of any length that stays finite never increase,
    and filters and NMF parameters stay invertible and positive *)
Theorem C83_filter_run a o X k W B V s' ls : distinct_f a -> (forall i, row_free (X i)) ->
  (forall i, W i \in unitmx) -> (forall n i k, (0 < B n i k)%coqR) -> (forall n k j, (0 < V n k j)%coqR) ->
  ilrma_run_f m alg fl eig chol a o X k (StateW W B V) = Some (s', ls) ->
  [/\ [/\ forall i, st_W s' i \in unitmx, forall n i k, (0 < st_B s' n i k)%coqR & forall n k j, (0 < st_V s' n k j)%coqR],
      size ls = k.+1 & non_increasing ls].
Proof.
move=> ds fX uW B0 V0.
pose Inv s := [/\ unitf (st_W s), forall n i k, (0 < st_B s n i k)%coqR & forall n k j, (0 < st_V s n k j)%coqR].
apply: (@recorded_mono _ _ _ Inv) => // {}W0 s1 l l'; case: W0 => {}W {}B {}V [{}uW {}B0 {}V0].
rewrite /IlrmaRun.once_f; case es: (source_step _ _ _ _ _ _) => [[B1 V1]|//].
case ep: (spatial_f _ _ _ _ _ _ _ _) => [W1|//]; case en: (norm_f _ _ _ _ _ _) => [[W2 B2]|//] [<-].
rewrite -[st_W _]/W -[st_B _]/B -[st_V _]/V => el; rewrite -[st_W _]/W2 -[st_B _]/B2 -[st_V _]/V1 => el'.
have g0 : nz (recon B1 V1) -> [/\ forall n i k, (0 < B1 n i k)%coqR, forall n k j, (0 < V1 n k j)%coqR &
    (loss_of m (separate_all X W) W (recon B1 V1) <= loss_of m (separate_all X W) W (recon B V))%coqR].
  exact: source_step_mono es.
have q0 : nz (recon B1 V1) -> forall n i j, (0 < recon B1 V1 n i j)%coqR.
  by move=> /g0[? ? _] n i j; exact: recon_gt0.
have [nzq uW1 [l1 [l2 [e1 e2 le2]]]] := spatial_f_mono ds fX uW q0 ep.
have [B10 V10 le1] := g0 nzq; have {}q0 := q0 nzq.
have [uW2 B20 e2'] := norm_f_mono uW1 B10 en el'.
split; first by split.
move: e2'; rewrite e2 => -[<-]; apply: Rle_trans le2 _.
move: e1; rewrite loss_filterE // => -[<-].
move: el; rewrite loss_filterE // => [[<-] //|n i j]; exact: recon_gt0.
Qed.
Theorem C83_output_run a o X k Y B V u' ls : distinct_o a -> (forall i, row_free (X i)) ->
  separated X Y -> (forall n i k, (0 < B n i k)%coqR) -> (forall n k j, (0 < V n k j)%coqR) ->
  ilrma_run_o m alg fl eig chol a o X k (StateY Y B V) = Some (u', ls) ->
  [/\ [/\ separated X (st_Y u'), forall n i k, (0 < st_yB u' n i k)%coqR & forall n k j, (0 < st_yV u' n k j)%coqR],
      size ls = k.+1 & non_increasing ls].
Proof.
move=> ds fX sY B0 V0.
pose Inv u := [/\ separated X (st_Y u), forall n i k, (0 < st_yB u n i k)%coqR & forall n k j, (0 < st_yV u n k j)%coqR].
apply: (@recorded_mono _ _ _ Inv) => // {}Y0 s1 l l'; case: Y0 => {}Y {}B {}V [{}sY {}B0 {}V0].
rewrite /IlrmaRun.once_o; case es: (source_step _ _ _ _ _ _) => [[B1 V1]|//].
case ep: (spatial_o _ _ _ _ _ _ _) => [Y1|//]; case en: (norm_o _ _ _ _ _ _) => [[Y2 B2]|//] [<-].
rewrite -[st_Y _]/Y -[st_yB _]/B -[st_yV _]/V => el; rewrite -[st_Y _]/Y2 -[st_yB _]/B2 -[st_yV _]/V1 => el'.
have [W uW eY] : separated X Y by [].
have g0 : nz (recon B1 V1) -> [/\ forall n i k, (0 < B1 n i k)%coqR, forall n k j, (0 < V1 n k j)%coqR &
    (loss_of m Y W (recon B1 V1) <= loss_of m Y W (recon B V))%coqR].
  exact: source_step_mono es.
have q0 : nz (recon B1 V1) -> forall n i j, (0 < recon B1 V1 n i j)%coqR.
  by move=> /g0[? ? _] n i j; exact: recon_gt0.
have [nzq sY1 [l1 [l2 [e1 e2 le2]]]] := spatial_o_mono ds fX sY q0 ep.
have [B10 V10 le1] := g0 nzq; have {}q0 := q0 nzq.
have [sY2 B20 e2'] := norm_o_mono sY1 B10 en el'.
split; first by split.
move: e2'; rewrite e2 => -[<-]; apply: Rle_trans le2 _.
move: e1; rewrite (loss_outputE m T0 uW fX eY q0) => -[<-].
move: el; rewrite (loss_outputE m T0 uW fX eY) => [[<-] //|n i j]; exact: recon_gt0.
Qed.
End Mono.

(** identity filters on two orthogonal sources, all variances four instead of one: the first
    iteration lowers the loss, the next ones keep it *)
Section Instance.
Variables (eig : eigh_t) (chol : chol_t).
Notation G := (Gauss 2%coqR).
Notation fl := identity_fl.
Let s4 : state_w 2 2 2 1 := StateW (fun=> 1%:M) (fun _ _ _ => 4%coqR) (fun _ _ _ => 1%coqR).
Lemma first_step : IlrmaRun.once_f G ME fl eig chol (FIP1 2) NoNorm Xe s4 = Some (st 1).
Proof.
have fx := fixed_one eig chol; move: (fx).
change (IlrmaRun.once_f G ME fl eig chol (FIP1 2) NoNorm Xe (st 1)) with
  (if source_step G ME fl (separate_all Xe (st_W (st 1))) (st_B (st 1)) (st_V (st 1)) is Some (B1, V1) then
    if spatial_ip1 G fl Xe (st_W (st 1)) (recon B1 V1) is Some W1 then Some (StateW W1 B1 V1) else None else None) in fx |- *.
change (IlrmaRun.once_f G ME fl eig chol (FIP1 2) NoNorm Xe s4) with
  (if source_step G ME fl (separate_all Xe (st_W s4)) (st_B s4) (st_V s4) is Some (B1, V1) then
    if spatial_ip1 G fl Xe (st_W s4) (recon B1 V1) is Some W1 then Some (StateW W1 B1 V1) else None else None).
have eW : st_W s4 = st_W (st 1).
  by apply: functional_extensionality => i; rewrite /= [c _]c1 scale1r.
rewrite eW; set Y := separate_all _ _; have aY n i j : amp Y n i j = 1 by exact: amp_hada.
suff -> : source_step G ME fl Y (st_B s4) (st_V s4) = source_step G ME fl Y (st_B (st 1)) (st_V (st 1)) by [].
have qE n i j : recon (st_B s4) (st_V s4) n i j = 4%coqR.
  by rewrite /recon big_ord_recl big_ord0 /= addr0; toR; lra.
have nzq q : (forall (n i j : 'I_2), q n i j <> 0%coqR :> R) -> nz q.
  by move=> h; apply/forallP => n; apply/forallP => i; apply/forallP => j; apply/eqP/h.
have den n i k : basis_den (st_B s4) (st_V s4) n i k = (/ 2)%coqR.
  rewrite /basis_den; under eq_bigr do rewrite qE; rewrite sum2 /=; toR; lra.
have e1 : update_basis G ME fl Y (st_B s4) (st_V s4) = Some (st_B (st 1)).
  rewrite /update_basis nzq => [|n i j]; last by rewrite qE; lra.
  rewrite ifT; last by do 3! apply/forallP => ?; rewrite den; apply/eqP; rewrite -R0E; lra.
  congr Some; do 3 (apply: functional_extensionality => ?).
  rewrite den /basis_num; under eq_bigr do rewrite qE aY; rewrite sum2 /= expr1n /identity_fl -!R1E; toR.
  have -> : ((1 * (1 ^ 2 / 4 ^ 2) + 1 * (1 ^ 2 / 4 ^ 2)) / / 2 = / 4)%coqR by Rfield.
  by rewrite pw_1; lra.
have e2 : update_basis G ME fl Y (st_B (st 1)) (st_V (st 1)) = Some (st_B (st 1)).
  move: fx; rewrite /source_step; case: update_basis => [B1|//]; case: update_activation => [V1|//].
  by rewrite /omap /obind /oapp; case: spatial_ip1 => [W1|//] [_ -> _].
by rewrite /source_step e1 e2.
Qed.
Lemma hada_free i : row_free (Xe i).
Proof. by rewrite row_free_unit; exact: hada_unit. Qed.
Lemma loss_const (b : R) W : (0 < b)%coqR -> (forall i, W i = 1%:M) ->
  loss_filter G Xe W (recon (K := 1) (fun _ _ _ => b) (fun _ _ _ => 1%coqR)) = Some (4 * (/ b + ln b))%coqR.
Proof.
move=> b0 eW.
have qE n i j : recon (K := 1) (fun _ _ _ => b) (fun _ _ _ => 1%coqR) n i j = b :> R.
  by rewrite /recon big_ord_recl big_ord0 /= addr0; toR; lra.
rewrite loss_filterE //; last by move=> *; rewrite qE.
  congr Some; rewrite /loss_of.
  have E i n j : cell_loss G (amp (separate_all Xe W) n i j) b = (/ b + ln b)%coqR.
    rewrite /amp /separate_all /separate eW mul1mx /Xe mxE /cell_loss.
    have -> : cabs (if (n == 1%R) && (j == 1%R) then (-1)%R else 1%R) = 1%coqR by case: ifP; rewrite ?cabsN cabs1.
    by have -> : (2 / 2 = 1)%coqR; [Rfield|rewrite pw_1; [lra|lra]].
  have M i n : meanR (fun j => cell_loss G (amp (separate_all Xe W) n i j) (recon (K := 1) (fun _ _ _ => b) (fun _ _ _ => 1%coqR) n i j)) = (/ b + ln b)%coqR.
    rewrite /meanR; under eq_bigr do rewrite qE E.
    have -> : (2%:R : R) = 2%coqR by rewrite -RnatE /=; lra.
    by rewrite sum2 -RinvE; [toR; lra|lra].
  rewrite sum2 !sum2 !M !eW det1 cabs1 ln_1; toR; lra.
by move=> i; rewrite eW unitmx1.
Qed.
Example C83_instance k : exists l0 l1,
  [/\ ilrma_run_f G ME fl eig chol (FIP1 2) NoNorm Xe k.+1 s4 = Some (st 1, l0 :: nseq k.+1 l1),
      (l1 < l0)%coqR, forall i, row_free (Xe i) & forall i, st_W s4 i \in unitmx].
Proof.
exists (4 * (/ 4 + ln 4))%coqR, (4 * (/ 1 + ln 1))%coqR.
split; [| |exact: hada_free|by move=> i; rewrite unitmx1].
- have L1 : loss_filter G Xe (st_W (st 1)) (recon (st_B (st 1)) (st_V (st 1))) = Some (4 * (/ 1 + ln 1))%coqR.
    rewrite -(@loss_const 1 (st_W (st 1))); [|lra|by move=> i; rewrite /= [c _]c1 scale1r].
    by rewrite /st /= expr1n.
  have L4 : loss_filter G Xe (st_W s4) (recon (st_B s4) (st_V s4)) = Some (4 * (/ 4 + ln 4))%coqR.
    by apply: loss_const => //; lra.
  rewrite /ilrma_run_f recordedS L4 first_step.
  suff -> : forall k, recorded (IlrmaRun.once_f G ME fl eig chol (FIP1 2) NoNorm Xe)
      (fun s => loss_filter G Xe (st_W s) (recon (st_B s) (st_V s))) k (st 1) =
      Some (st 1, nseq k.+1 (4 * (/ 1 + ln 1))%coqR) by [].
  by elim=> [|j IH]; [rewrite recorded0 L1|rewrite recordedS L1 fixed_one IH].
- rewrite ln_1.
  have : (ln (exp (3 / 4)) < ln 4)%coqR.
    apply: ln_increasing; first exact: exp_pos.
    by have := exp_increasing (3 / 4) 1; have := exp_le_3; lra.
  by rewrite ln_exp; lra.
Qed.
End Instance.
