(** C85: FastGaussMNMF without flooring, IP1: the power normalisation changes neither the
    recorded losses nor the returned signals, and a call follows the gain of every bin. *)
From Coq Require Import Reals Lra FunctionalExtensionality.
From mathcomp Require Import all_ssreflect all_fingroup all_algebra.
From mathcomp Require Import ring.
From Verif Require Import RStruct MxC CxR NpLin RealLemmas NmfReal NmfMM Eigh EighProofs.
From Verif Require Import SpatialIP SpatialISS SpatialIP2 Scale ScaleProofs AuxIVA AuxIVAProofs AuxIVARun AuxIVACall Prop_AuxIVA Prop_AuxIVAFloor Prop_AuxIVARun.
From Verif Require Import Ilrma IlrmaProofs Mnmf MnmfMM MnmfGauss MnmfFast Prop_Mnmf MnmfRun Prop_MnmfFast Prop_MnmfRun Prop_AuxGain Prop_IlrmaGauge.
Import Order.TTheory GRing.Theory Num.Theory.
Set Implicit Arguments.
Unset Strict Implicit.
Unset Printing Implicit Defensive.
Arguments pow : simpl never.
Local Open Scope ring_scope.

Section Gauge.
Variables (N M F T K : nat) (eig : eigh_t) (chol : chol_t).
Notation spec := ('I_F -> 'M[Cx]_(M, T)).
Notation diagz := ('I_F -> 'M[Cx]_M).
Notation cells := ('I_N -> 'I_F -> 'I_T -> R).
Notation basis := ('I_N -> 'I_F -> 'I_K -> R).
Notation activ := ('I_N -> 'I_K -> 'I_T -> R).
Notation dspat := ('I_F -> 'I_N -> 'I_M -> R).
Notation gains := ('I_F -> 'rV[Cx]_M).
Notation levels := ('I_N -> 'I_F -> R).
Notation state := (fast_state N M F T K).
Notation fl := identity_fl.
Implicit Types (a : gains) (A Q : diagz) (X : spec) (B : basis) (V : activ) (L : cells) (D : dspat) (v : levels) (s : state).

(** recording mixed by [A], rows of the diagonalisers multiplied by [a]; spatial parameters
    multiplied by the squared modulus; [v] moves level between basis and spatial parameters *)
Definition gD a v D : dspat := fun i n m => (D i n m * cabs (a i 0%R m) ^ 2 / v n i)%coqR.
Definition gBv v B : basis := fun n i k => B n i k * v n i.
Definition gL v L : cells := fun n i j => L n i j * v n i.
Definition gs A a v s : state := FastState (gW A a (fs_Q s)) (gD a v (fs_D s)) (gBv v (fs_B s)) (fs_V s).
Definition pos_levels v := forall n i, (0 < v n i)%coqR.

Section One.
Variables (A : diagz) (a : gains) (v : levels).
Hypotheses (uA : forall i, A i \in unitmx) (la : live a) (v0 : pos_levels v).
Let a2 i m : (0 < cabs (a i 0%R m) ^ 2)%coqR.
Proof. by apply: pow_lt; exact: cabs_gt0. Qed.

Lemma recon_gBv B V : recon (gBv v B) V = gL v (recon B V).
Proof.
do 3 (apply: functional_extensionality => ?); rewrite /recon /gL mulr_suml.
by apply: eq_bigr => k _; rewrite /gBv mulrAC.
Qed.
Lemma qx_g X Q i m j : qx (mixed A X) (gW A a Q) i m j = (qx X Q i m j * cabs (a i 0%R m))%coqR.
Proof.
rewrite /qx /mixed /gW -!mulmxA mulKmx // mul_diag_mx mxE cabsM RmulE mulrC //.
Qed.
Lemma lambd_g D L i m j : lambd (gL v L) (gD a v D) i m j = (lambd L D i m j * cabs (a i 0%R m) ^ 2)%coqR.
Proof.
rewrite /lambd RmulE mulr_suml; apply: eq_bigr => n _; rewrite /gL /gD; have := v0 n i.
move: (L n i j) (D i n m) (cabs _ ^ 2)%coqR (v n i) => x y z w w0; toR; Rf; lra.
Qed.
Lemma lambd_nz_g D L : all_imj (fun i m j => lambd (gL v L) (gD a v D) i m j != 0) =
  all_imj (fun i m j => lambd L D i m j != 0).
Proof.
do 3 (apply: eq_forallb => ?); congr negb; rewrite lambd_g RmulE mulf_eq0.
match goal with |- _ || (?x == 0) = _ => have : (0 < x)%coqR by exact: a2 end.
by case: ((cabs _ ^ 2)%coqR =P 0) => [->|]; rewrite ?orbF //; toR; lra.
Qed.
Lemma ratio_ok_scale (x y k : R) : (0 < k)%coqR -> ratio_ok (x * k)%coqR (y * k)%coqR = ratio_ok x y.
Proof.
move=> k0; rewrite /ratio_ok.
have -> : (x * k / (y * k) = x / y)%coqR.
  by rewrite /Rdiv Rinv_mult; move: (/ y)%coqR => z; Rf; lra.
congr (~~ _ && _); rewrite RmulE mulf_eq0; case: (k =P 0) => [e|_]; last by rewrite orbF.
by move: k0; rewrite e; toR; lra.
Qed.
Lemma ratio_scale (x y k : R) : (0 < k)%coqR -> (x * k / (y * k) = x / y)%coqR.
Proof. by move=> k0; rewrite /Rdiv Rinv_mult; move: (/ y)%coqR => z; Rf; lra. Qed.
Let iv n i : (0 < / v n i)%coqR. Proof. exact: Rinv_0_lt_compat. Qed.

Lemma fb_num_g X Q D B V n i k : fb_num (mixed A X) (gW A a Q) (gD a v D) (gBv v B) V n i k =
  (fb_num X Q D B V n i k * / v n i)%coqR.
Proof.
rewrite /fb_num RmulE mulr_suml; apply: eq_bigr => j _; rewrite -mulrA; congr (_ * _); rewrite mulr_suml.
apply: eq_bigr => m _; rewrite recon_gBv lambd_g qx_g /gD -!RpowE -!RmulE /Rdiv Rinv_mult.
have := cabs_gt0 (la i m); move: (cabs _) (/ v n i)%coqR (/ lambd _ _ _ _ _)%coqR => x y z x0.
by Rf; lra.
Qed.
Lemma fb_den_g D B V n i k : fb_den (gD a v D) (gBv v B) V n i k = (fb_den D B V n i k * / v n i)%coqR.
Proof.
rewrite /fb_den RmulE mulr_suml; apply: eq_bigr => j _; rewrite -mulrA; congr (_ * _); rewrite mulr_suml.
apply: eq_bigr => m _; rewrite recon_gBv lambd_g /gD -!RmulE /Rdiv Rinv_mult.
have := cabs_gt0 (la i m); move: (cabs _) (/ v n i)%coqR (/ lambd _ _ _ _ _)%coqR => x y z x0.
by Rf; lra.
Qed.
Lemma fast_basis_g X Q D B V : fast_basis fl (mixed A X) (gW A a Q) (gD a v D) (gBv v B) V =
  omap (gBv v) (fast_basis fl X Q D B V).
Proof.
rewrite /fast_basis recon_gBv lambd_nz_g.
have -> : [forall n, [forall i, [forall k, ratio_ok (fb_num (mixed A X) (gW A a Q) (gD a v D) (gBv v B) V n i k)
      (fb_den (gD a v D) (gBv v B) V n i k)]]] =
    [forall n, [forall i, [forall k, ratio_ok (fb_num X Q D B V n i k) (fb_den D B V n i k)]]].
  by do 3 (apply: eq_forallb => ?); rewrite fb_num_g fb_den_g ratio_ok_scale.
case: (_ && _); last by [].
congr Some; do 3 (apply: functional_extensionality => ?); rewrite fb_num_g fb_den_g ratio_scale //.
by rewrite /identity_fl /gBv mulrAC.
Qed.
Lemma fa_num_g X Q D B V n k j : fa_num (mixed A X) (gW A a Q) (gD a v D) (gBv v B) V n k j = fa_num X Q D B V n k j.
Proof.
rewrite /fa_num; apply: eq_bigr => i _; rewrite /gBv -mulrA; congr (_ * _); rewrite mulr_sumr.
apply: eq_bigr => m _; rewrite recon_gBv lambd_g qx_g /gD -!RpowE -!RmulE /Rdiv Rinv_mult.
have := cabs_gt0 (la i m); have := v0 n i; move: (cabs _) (v n i) (/ lambd _ _ _ _ _)%coqR => x y z y0 x0.
by Rf; lra.
Qed.
Lemma fa_den_g D B V n k j : fa_den (gD a v D) (gBv v B) V n k j = fa_den D B V n k j.
Proof.
rewrite /fa_den; apply: eq_bigr => i _; rewrite /gBv -mulrA; congr (_ * _); rewrite mulr_sumr.
apply: eq_bigr => m _; rewrite recon_gBv lambd_g /gD -!RmulE /Rdiv Rinv_mult.
have := cabs_gt0 (la i m); have := v0 n i; move: (cabs _) (v n i) (/ lambd _ _ _ _ _)%coqR => x y z y0 x0.
by Rf; lra.
Qed.
Lemma fast_activation_g X Q D B V : fast_activation fl (mixed A X) (gW A a Q) (gD a v D) (gBv v B) V =
  fast_activation fl X Q D B V.
Proof.
rewrite /fast_activation recon_gBv lambd_nz_g.
have -> : [forall n, [forall k, [forall j, ratio_ok (fa_num (mixed A X) (gW A a Q) (gD a v D) (gBv v B) V n k j)
      (fa_den (gD a v D) (gBv v B) V n k j)]]] =
    [forall n, [forall k, [forall j, ratio_ok (fa_num X Q D B V n k j) (fa_den D B V n k j)]]].
  by do 3 (apply: eq_forallb => ?); rewrite fa_num_g fa_den_g.
case: (_ && _); last by [].
by congr Some; do 3 (apply: functional_extensionality => ?); rewrite fa_num_g fa_den_g.
Qed.
Lemma fs_num_g X Q D L i n m : fs_num (mixed A X) (gW A a Q) (gD a v D) (gL v L) i n m =
  (fs_num X Q D L i n m * (v n i / cabs (a i 0%R m) ^ 2))%coqR.
Proof.
rewrite /fs_num RmulE mulr_suml; apply: eq_bigr => j _; rewrite lambd_g qx_g /gL -!RmulE /Rdiv !Rpow_mult_distr Rinv_mult.
have := cabs_gt0 (la i m); move: (cabs _) (v n i) (/ _ ^ 2)%coqR => x y z x0.
by Rf; lra.
Qed.
Lemma fs_den_g D L i n m : fs_den (gD a v D) (gL v L) i n m =
  (fs_den D L i n m * (v n i / cabs (a i 0%R m) ^ 2))%coqR.
Proof.
rewrite /fs_den RmulE mulr_suml; apply: eq_bigr => j _; rewrite lambd_g /gL -!RmulE /Rdiv Rinv_mult.
have := cabs_gt0 (la i m); move: (cabs _) (v n i) (/ lambd _ _ _ _ _)%coqR => x y z x0.
by Rf; lra.
Qed.
Lemma fast_spatial_g X Q D L : fast_spatial (mixed A X) (gW A a Q) (gD a v D) (gL v L) =
  omap (gD a v) (fast_spatial X Q D L).
Proof.
have va i n m : (0 < v n i / cabs (a i 0%R m) ^ 2)%coqR by apply: Rdiv_lt_0_compat.
rewrite /fast_spatial lambd_nz_g.
have -> : [forall i, [forall n, [forall m, ratio_ok (fs_num (mixed A X) (gW A a Q) (gD a v D) (gL v L) i n m)
      (fs_den (gD a v D) (gL v L) i n m)]]] =
    [forall i, [forall n, [forall m, ratio_ok (fs_num X Q D L i n m) (fs_den D L i n m)]]].
  by do 3 (apply: eq_forallb => ?); rewrite fs_num_g fs_den_g ratio_ok_scale.
case: (_ && _); last by [].
congr Some; do 3 (apply: functional_extensionality => ?); rewrite fs_num_g fs_den_g ratio_scale //.
by rewrite /gD -!RmulE /Rdiv; Rr.
Qed.
Lemma fast_phi_g D L i : fast_phi (gD a v D) (gL v L) i = lowered (a i) (fast_phi D L i).
Proof.
apply/matrixP => m j; rewrite !mxE lambd_g -RmulE /Rdiv Rinv_mult.
by move: (/ lambd _ _ _ _ _)%coqR (/ cabs _ ^ 2)%coqR => x y; Rr.
Qed.
Lemma fast_diag_g X D L Q : fast_diag_ip1 fl (mixed A X) (gD a v D) (gL v L) (gW A a Q) =
  omap (gW A a) (fast_diag_ip1 fl X D L Q).
Proof.
rewrite /fast_diag_ip1 lambd_nz_g; case: (_ && _); last by [].
suff H i : ip1 fl (wcov (fast_phi (gD a v D) (gL v L) i) (mixed A X i)) (seen (A i) (a i) (Q i)) =
    omap (seen (A i) (a i)) (ip1 fl (wcov (fast_phi D L i) (X i)) (Q i)).
  exact: (all_bins_map Q (gW A a Q) H).
rewrite fast_phi_g -(ip1_gauge _ _ (uA i) (la i)).
have -> // : wcov (lowered (a i) (fast_phi D L i)) (mixed A X i) =
  (fun n => c (/ cabs (a i 0%R n) ^ 2)%coqR *: (A i *m wcov (fast_phi D L i) (X i) n *m (A i)^H)).
by apply: functional_extensionality => n; rewrite wcov_lowered.
Qed.
Lemma core_g X s : fast_step fl eig chol (FIP1 M) false (mixed A X) (gs A a v s) =
  omap (gs A a v) (fast_step fl eig chol (FIP1 M) false X s).
Proof.
case: s => Q D B V; rewrite /fast_step /gs [fs_Q _]/= [fs_D _]/= [fs_B _]/= [fs_V _]/=.
rewrite fast_basis_g; case: (fast_basis fl X Q D B V) => [B1|//].
change (omap (gBv v) (Some B1)) with (Some (gBv v B1)); cbv iota; rewrite fast_activation_g.
case: (fast_activation fl X Q D B1 V) => [V1|//]; rewrite /fast_diag recon_gBv fast_diag_g.
case: (fast_diag_ip1 fl X D (recon B1 V1) Q) => [Q1|//].
change (omap (gW A a) (Some Q1)) with (Some (gW A a Q1)); cbv iota; rewrite fast_spatial_g.
by case: (fast_spatial X Q1 D (recon B1 V1)).
Qed.

(** ** Loss *)
Lemma lambd_pos_g D L : all_imj (fun i m j => Rltb 0 (lambd (gL v L) (gD a v D) i m j)) =
  all_imj (fun i m j => Rltb 0 (lambd L D i m j)).
Proof.
apply: eq_forallb => i; apply: eq_forallb => m; apply: eq_forallb => j; rewrite lambd_g.
apply/RltbP/RltbP => h; last exact: Rmult_lt_0_compat.
by have := a2 i m; move: h; move: (lambd _ _ _ _ _) (cabs _ ^ 2)%coqR => x y; nra.
Qed.
Lemma fast_loss_g X s : fast_state_loss (mixed A X) (gs A a v s) = omap (fun l => l + shift A) (fast_state_loss X s).
Proof.
case: s => Q D B V; rewrite /fast_state_loss /gs /fast_loss [fs_Q _]/= [fs_D _]/= [fs_B _]/= [fs_V _]/=.
move: (recon_gBv B V) => E; rewrite E; move: (recon B V) => L {E}.
rewrite lambd_pos_g; have -> : [forall i, gW A a Q i \in unitmx] = [forall i, Q i \in unitmx].
  by apply: eq_forallb => i; exact: gW_unit.
case hc: [&& _, _ & _]; last by [].
have /and3P[T0 /forallP uQ /forallP l0] := hc; congr Some; rewrite /shift -big_split /=.
apply: eq_bigr => i _.
have {}l0 m j : (0 < lambd L D i m j)%coqR by have /forallP/(_ m)/forallP/(_ j)/RltbP := l0 i.
have d0 (U : 'M[Cx]_M) : U \in unitmx -> (0 < cabs (\det U))%coqR.
  by move=> u; apply: cabs_gt0; rewrite -unitfE -unitmxE.
have -> : ln (cabs (\det (gW A a Q i))) = ((\sum_m ln (cabs (a i 0%R m)))%R + ln (cabs (\det (Q i))) - ln (cabs (\det (A i))))%coqR.
  have da : (0 < cabs (\det (diag_mx (a i))))%coqR by apply: d0; exact: (diag_unit (la i)).
  have -> : (\sum_m ln (cabs (a i 0%R m)))%R = ln (cabs (\det (diag_mx (a i)))).
    have q0 m : (0 < cabs (a i 0%R m))%coqR by exact: cabs_gt0.
    have [_ <-] := ln_prod (index_enum (ordinal_finType M)) q0; rewrite det_diag; congr ln.
    apply: (big_ind2 (fun (y : R) (x : Cx) => y = cabs x)); [by rewrite cabs1| |by []].
    by move=> x1 x2 y1 y2 -> ->; rewrite cabsM.
  rewrite /gW !det_mulmx det_inv !cabsM cabsV -!RmulE.
  have hA := d0 _ (uA i); have hQ := d0 _ (uQ i); rewrite -RinvE; last exact: Rgt_not_eq.
  rewrite ln_mult; [|exact: Rmult_lt_0_compat|exact: Rinv_0_lt_compat].
  by rewrite ln_mult // ln_Rinv //; toR; lra.
have cE j : \sum_m ((qx (mixed A X) (gW A a Q) i m j ^ 2 / lambd (gL v L) (gD a v D) i m j + ln (lambd (gL v L) (gD a v D) i m j))%coqR) =
   \sum_m ((qx X Q i m j ^ 2 / lambd L D i m j + ln (lambd L D i m j))%coqR) + (2 * (\sum_m ln (cabs (a i 0%R m)))%R)%coqR.
  rewrite RmulE mulr_sumr -big_split /=; apply: eq_bigr => m _.
  rewrite lambd_g qx_g ln_mult // ln_sqr; last exact: cabs_gt0.
  have := l0 m j; have := cabs_gt0 (la i m); move: (cabs _) (lambd _ _ _ _ _) (qx _ _ _ _ _) => x y q x0 y0.
  by toR; Rf; split; lra.
rewrite (eq_meanR cE) meanRD meanR_const ?lt0n //.
by move: (meanR _) (\sum_m ln _) (ln _) (ln _) => w x y z; toR; Rr.
Qed.

(** ** Separation: the images are mixed like the recording *)
Lemma fast_rn_g Q D L n i j : Q i \in unitmx ->
  fast_rn (gW A a Q) (gD a v D) (gL v L) n i j = A i *m fast_rn Q D L n i j *m (A i)^H.
Proof.
move=> uQ; rewrite !fast_rnE.
have ud := diag_unit (la i); have uW := gW_unit Q i uA la; rewrite uQ in uW.
have -> : invmx (gW A a Q i) = A i *m invmx (Q i) *m diag_mx (\row_m (a i 0 m)^-1).
  apply: (can_inj (mulKmx uW)); rewrite mulmxV // /gW -!mulmxA mulKmx // mulKVmx //.
  rewrite mulmx_diag; apply/matrixP => x y; rewrite !mxE.
  by case: eqP => // _; rewrite mulfV //; exact: la.
rewrite !ctrM -!mulmxA; congr (_ *m (_ *m _)); rewrite !mulmxA; congr (_ *m _ *m _).
rewrite ctr_diag !mulmx_diag; congr diag_mx; apply/rowP => m; rewrite !mxE.
rewrite -mulrA mulrCA -cabs_sqr -cM; congr c; rewrite /gL /gD cabsV -RpowE.
have := cabs_gt0 (la i m); have := v0 n i; move: (cabs _) (v n i) => x y y0 x0.
rewrite -RinvE; last by lra.
by toR; Rf; split; lra.
Qed.
Lemma wiener_mixed (P P' : 'I_N -> 'I_F -> 'I_T -> 'M[Cx]_M) X : eigh_contract eig ->
  (forall i j, (\sum_n P n i j)^H = \sum_n P n i j) -> (forall i j, (\sum_n P' n i j)^H = \sum_n P' n i j) ->
  (forall n i j, P' n i j = A i *m P n i j *m (A i)^H) ->
  forall r Y, (forall b, wiener fl eig P X b = Some (Y b)) ->
  wiener fl eig P' (mixed A X) r = Some (fun n i j => \sum_b A i r b * Y b n i j).
Proof.
move=> He hP hP' EP r Y; rewrite /wiener.
have E i j : to_psd eig fl (\sum_n P' n i j) = A i *m (\sum_n P n i j) *m (A i)^H.
  rewrite to_psd_id //; under eq_bigr do rewrite EP.
  by rewrite mulmx_sumr mulmx_suml.
have E0 i j : to_psd eig fl (\sum_n P n i j) = \sum_n P n i j by apply: to_psd_id.
have uE i j : (to_psd eig fl (\sum_n P' n i j) \in unitmx) = (to_psd eig fl (\sum_n P n i j) \in unitmx).
  by rewrite E E0 !unitmx_mul ctr_unit uA andbT.
have -> : [forall i, [forall j, to_psd eig fl (\sum_n P' n i j) \in unitmx]] =
    [forall i, [forall j, to_psd eig fl (\sum_n P n i j) \in unitmx]].
  by apply: eq_forallb => i; apply: eq_forallb => j; rewrite uE.
case hu: [forall i, _] => h; last by have := h r.
have /forallP u := hu; congr Some.
apply: functional_extensionality => n; apply: functional_extensionality => i; apply: functional_extensionality => j.
have {u} u : \sum_n P n i j \in unitmx by have /forallP/(_ j) := u i; rewrite E0.
have hY b : Y b n i j = ((invmx (\sum_n P n i j) *m P n i j)^H *m X i) b j.
  by have [<-] := h b; rewrite E0 [RHS]mxE.
transitivity (((invmx (to_psd eig fl (\sum_n P' n i j)) *m P' n i j)^H *m (mixed A X i)) r j); first by rewrite [RHS]mxE.
transitivity ((A i *m ((invmx (\sum_n P n i j) *m P n i j)^H *m X i)) r j); last first.
  by rewrite mxE; apply: eq_bigr => b _; rewrite hY.
congr (_ r j); rewrite E EP /mixed !mulmxA; congr (_ *m _).
have uAH : (A i)^H \in unitmx by rewrite ctr_unit.
rewrite !invmx_mul ?unitmx_mul ?uA // -?mulmxA mulKmx //.
rewrite !ctrM !ctrK -!mulmxA; congr (_ *m _).
rewrite [(invmx (A i)^H)^H]ctr_inv ctrK.
by rewrite mulVmx // mulmx1.
Qed.
Lemma separate_g X s r (Y : 'I_M -> 'I_N -> 'I_F -> 'I_T -> Cx) : eigh_contract eig ->
  (forall b, state_separate fl eig X b s = Some (Y b)) ->
  state_separate fl eig (mixed A X) r (gs A a v s) = Some (fun n i j => \sum_b A i r b * Y b n i j).
Proof.
case: s => Q D B V He; rewrite /state_separate /gs /fast_separate [fs_Q _]/= [fs_D _]/= [fs_B _]/= [fs_V _]/=.
have -> : [forall i, gW A a Q i \in unitmx] = [forall i, Q i \in unitmx].
  by apply: eq_forallb => i; exact: gW_unit.
rewrite recon_gBv; case hu: [forall i, _] => h; last by have := h r.
have /forallP uQ := hu; apply: (@wiener_mixed _ _ X He _ _ _ r Y h) => [i j|i j|n i j]; [exact: fast_rn_herm|exact: fast_rn_herm|].
exact: fast_rn_g.
Qed.
End One.

(** ** Normalisation and runs *)
Lemma step_norm nrm X s : fast_step fl eig chol (FIP1 M) nrm X s =
  if fast_step fl eig chol (FIP1 M) false X s is Some s1 then
    if nrm then omap (fun p => FastState p.1 p.2 (fs_B s1) (fs_V s1)) (fast_norm fl X (fs_Q s1) (fs_D s1)) else Some s1
  else None.
Proof.
case: s => Q D B V; rewrite /fast_step; case: (fast_basis _ _ _ _ _ _) => [B1|//].
case: (fast_activation _ _ _ _ _ _) => [V1|//]; case: (fast_diag _ _ _ _ _ _ _ _) => [Q1|//].
by case: (fast_spatial _ _ _ _) => [D1|//]; case: nrm.
Qed.
Lemma fast_norm_g X Q D Q2 D2 : fast_norm fl X Q D = Some (Q2, D2) -> exists b : gains,
  [/\ live b, Q2 = (fun i => diag_mx (b i) *m Q i) & D2 = (fun i n m => (D i n m * cabs (b i 0%R m) ^ 2)%coqR)].
Proof.
rewrite /fast_norm; case h: (_ && _); last by [].
have /andP[_ /forallP ok] := h; case=> <- <-.
have p0 m : (0 < fast_psi fl X Q m)%coqR.
  have [//|e] : (0 <= fast_psi fl X Q m)%coqR by exact: sqrt_pos.
  by have := ok m; rewrite -e eqxx.
have pn m : c (fast_psi fl X Q m) != 0 by apply: c_neq0; have := p0 m; lra.
exists (fun=> \row_m (c (fast_psi fl X Q m))^-1); split.
- by move=> i m; rewrite mxE invr_eq0.
- by apply: functional_extensionality => i; rewrite fast_normE.
- do 3 (apply: functional_extensionality => ?); rewrite mxE cabsV cabs_c Rabs_pos_eq; last exact: Rlt_le.
  rewrite -RinvE; last by apply: Rgt_not_eq; exact: p0.
  by rewrite /Rdiv; Rf; apply: Rgt_not_eq; exact: p0.
Qed.
Lemma step_g A a v nrm X s s2 : (forall i, A i \in unitmx) -> live a -> pos_levels v ->
  fast_step fl eig chol (FIP1 M) nrm (mixed A X) (gs A a v s) = Some s2 ->
  exists s1 a', [/\ fast_step fl eig chol (FIP1 M) false X s = Some s1, live a' & s2 = gs A a' v s1].
Proof.
move=> uA la v0; rewrite step_norm core_g //; case: (fast_step _ _ _ _ false X s) => [s1|//].
change (omap (gs A a v) (Some s1)) with (Some (gs A a v s1)); cbv iota.
case: nrm; last by case=> <-; exists s1, a.
rewrite /gs [fs_Q _]/= [fs_D _]/= [fs_B _]/= [fs_V _]/=.
case n: (fast_norm _ _ _ _) => [[Q2 D2]|//] [<-].
have [b [lb -> ->]] := fast_norm_g n; exists s1, (prodg b a); split=> //.
  by move=> i m; rewrite mxE mulf_neq0.
congr (FastState _ _ _ _).
  by apply: functional_extensionality => i; rewrite /gW !mulmxA -(mulmxA (diag_mx (b i))) diag_prodg.
do 3 (apply: functional_extensionality => ?); rewrite [fs_D _ _ _ _]/= /gD mxE cabsM -RmulE /Rdiv Rpow_mult_distr.
by move: (cabs _ ^ 2)%coqR (cabs _ ^ 2)%coqR (/ _)%coqR => x y z; Rr.
Qed.
Lemma run_g A v nrm X k : (forall i, A i \in unitmx) -> pos_levels v -> forall a s s2 l2, live a ->
  fast_run fl eig chol (FIP1 M) nrm (mixed A X) k (gs A a v s) = Some (s2, l2) ->
  exists s1 l1 a', [/\ fast_run fl eig chol (FIP1 M) false X k s = Some (s1, l1), live a',
    s2 = gs A a' v s1 & l2 = [seq l + shift A | l <- l1]].
Proof.
move=> uA v0; rewrite /fast_run; elim: k => [|k IH] a s s2 l2 la; rewrite ?recordedS ?recorded0 fast_loss_g //.
  case e: (fast_state_loss X s) => [l|//] [<- <-].
  by exists s, [:: l], a; split; rewrite ?recorded0 ?e.
case el: (fast_state_loss X s) => [l|//].
change (omap (fun l => l + shift A) (Some l)) with (Some (l + shift A)); cbv iota.
case e: (fast_step _ _ _ _ nrm _ _) => [s'|//]; have [s1 [a' [e1 la' ->]]] := step_g uA la v0 e.
case er: (recorded _ _ k _) => [[s3 l3]|//] [<- <-].
have [s4 [l4 [a4 [e4 la4 -> ->]]]] := IH _ _ _ _ la' er.
by exists s4, (l :: l4), a4; split; rewrite ?recordedS ?el ?e1 ?e4.
Qed.
End Gauge.

(** * C85 *)
Section Claims.
Variables (N M F T K : nat) (eig : eigh_t) (chol : chol_t).
Notation spec := ('I_F -> 'M[Cx]_(M, T)).
Notation diagz := ('I_F -> 'M[Cx]_M).
Notation basis := ('I_N -> 'I_F -> 'I_K -> R).
Notation dspat := ('I_F -> 'I_N -> 'I_M -> R).
Notation gains := ('I_F -> 'rV[Cx]_M).
Notation levels := ('I_N -> 'I_F -> R).
Notation state := (fast_state N M F T K).
Notation images := ('I_N -> 'I_F -> 'I_T -> Cx).
Notation fl := identity_fl.
Notation run := (fast_run fl eig chol (FIP1 M)).
Notation call := (fast_call fl eig chol (FIP1 M)).
Implicit Types (a : gains) (A Q : diagz) (X : spec) (D : dspat) (v : levels) (s : state) (z : 'I_F -> Cx).

Let one_g : gains := fun=> const_mx 1.
Let one_v : levels := fun _ _ => 1%coqR.
Lemma gs1 s : gs (fun=> 1%:M) one_g one_v s = s.
Proof.
case: s => Q D B V; rewrite /gs; congr (FastState _ _ _ _).
- by apply: functional_extensionality => i; rewrite /gW diag_const_mx mul1mx invmx1 mulmx1.
- by do 3 (apply: functional_extensionality => ?); rewrite /gD mxE cabs1 pow1 /Rdiv Rinv_1 !Rmult_1_r.
- by do 3 (apply: functional_extensionality => ?); rewrite /gBv mulr1.
Qed.
Lemma one_live : live one_g. Proof. by move=> i m; rewrite mxE oner_neq0. Qed.
Lemma one_pos : pos_levels one_v. Proof. by move=> n i; exact: Rlt_0_1. Qed.
Lemma sep_all X s r Y : state_separate fl eig X r s = Some Y ->
  exists Z : 'I_M -> images, forall b, state_separate fl eig X b s = Some (Z b).
Proof.
rewrite /state_separate /fast_separate; case: [forall i, _] => //; rewrite /wiener; case: [forall i, _] => // _.
by eexists => b.
Qed.
Lemma inv_live (b : gains) : live b -> live (fun i => \row_m (b i 0 m)^-1).
Proof. by move=> lb i m; rewrite mxE invr_eq0. Qed.
Lemma gsV (b : gains) s : live b -> gs (fun=> 1%:M) (fun i => \row_m (b i 0 m)^-1) one_v (gs (fun=> 1%:M) b one_v s) = s.
Proof.
move=> lb; case: s => Q D B V; rewrite /gs; congr (FastState _ _ _ _).
- apply: functional_extensionality => i; rewrite [fs_Q _]/= /gW !invmx1 !mulmx1 mulmxA mulmx_diag.
  rewrite -[RHS]mul1mx -diag_const_mx; congr (diag_mx _ *m _); apply/rowP => m.
  by rewrite !mxE mulVf.
- apply: functional_extensionality => i; apply: functional_extensionality => n; apply: functional_extensionality => m.
  rewrite /gD /= mxE cabsV /one_v; have := cabs_gt0 (lb i m); move: (cabs _) => x x0; rewrite -RinvE; last by lra.
  by Rf; lra.
- by do 3 (apply: functional_extensionality => ?); rewrite /gBv /= !mulr1.
Qed.
(** A call on [X] and a call on the recording mixed by [A], the diagonalisers undoing [A], rows
    multiplied by the gains [a], level moved by [v]: whatever the normalisations, the signals are
    the images of the first call mixed by [A] and the losses differ by a constant *)
Theorem C85_mixing A a v nrm nrm' X k s (r : 'I_M) Y2 l2 (Y : 'I_M -> images) l :
  eigh_contract eig -> (forall i, A i \in unitmx) -> live a -> pos_levels v ->
  call nrm (mixed A X) r k (gs A a v s) = Some (Y2, l2) -> (forall b, call nrm' X b k s = Some (Y b, l)) ->
  Y2 = (fun n i j => \sum_b A i r b * Y b n i j) /\ l2 = [seq x + (\sum_i (2 * ln (cabs (\det (A i))))%coqR) | x <- l].
Proof.
move=> He uA la v0; rewrite {1}/fast_call; case: (state_separate _ _ (mixed A X) r _) => [_|//].
case e2: (run nrm _ _ _) => [[s2 l2']|//]; have [s0 [l0 [a' [e0 la' -> ->]]]] := run_g uA v0 la e2.
case E2: (state_separate _ _ _ _ _) => [Y2'|//] [<- <-] h.
have u1 (i : 'I_F) : (1%:M : 'M[Cx]_M) \in unitmx by rewrite unitmx1.
have m1 : mixed (fun=> 1%:M) X = X by exact: mixed1.
have [s3 [l3 [e3 h3]]] : exists s3 l3, run nrm' X k s = Some (s3, l3) /\ (forall b, state_separate fl eig X b s3 = Some (Y b) /\ l3 = l).
  have := h r; rewrite /fast_call; case: (state_separate _ _ _ _ _) => [_|//].
  case e3: (run nrm' _ _ _) => [[s3 l3]|//] _; exists s3, l3; split=> // b.
  have := h b; rewrite /fast_call; case: (state_separate _ _ X b s) => [_|//]; rewrite e3.
  by case: (state_separate _ _ X b s3) => [Yb|//] [<- <-].
have := e3; rewrite -{1}m1 -{1}(gs1 s) => e3'.
have [s0' [l0' [b [e0' lb E3 El]]]] := run_g u1 one_pos one_live e3'.
have := e0'; rewrite e0 => -[es el]; rewrite -es -el {es el} in E3 El.
have {El} El : l = l0.
  have [_ <-] := h3 r; rewrite El (shift1 M F) {El e0'}; elim: (l0) => //= x t ->.
  by rewrite addr0.
rewrite El; split=> //.
have s0Y c0 : state_separate fl eig X c0 s0 = Some (Y c0).
  have hs : forall c0, state_separate fl eig X c0 s3 = Some (Y c0) by move=> c1; have [] := h3 c1.
  have := separate_g u1 (inv_live lb) one_pos c0 He hs; rewrite m1 E3 gsV // => ->; congr Some.
  do 3 (apply: functional_extensionality => ?); rewrite (bigD1 c0) //= mxE eqxx mul1r big1 ?addr0 // => c1 ne.
  by rewrite mxE eq_sym (negbTE ne) mul0r.
by have := separate_g uA la' v0 r He s0Y; rewrite E2 => -[].
Qed.
(** Conversely, when recording and start admit it (C84) both calls complete *)
Lemma sum_mixed A X i (Y : 'I_M -> images) r j : (forall b, \sum_n Y b n i j = X i b j) ->
  \sum_n (\sum_b A i r b * Y b n i j) = mixed A X i r j.
Proof.
move=> h; rewrite exchange_big /= [RHS]mxE; apply: eq_bigr => b _.
by rewrite -mulr_sumr h.
Qed.
Lemma proper_g A a v s : (forall i, A i \in unitmx) -> live a -> pos_levels v -> proper s -> proper (gs A a v s).
Proof.
move=> uA la v0 [uQ D0 B0 V0]; split=> //=.
- by move=> i; rewrite gW_unit.
- move=> i n m; rewrite /gD; apply: Rdiv_lt_0_compat => //; apply: Rmult_lt_0_compat => //.
  by apply: pow_lt; exact: cabs_gt0.
- by move=> n i k; apply: Rmult_lt_0_compat.
Qed.
Lemma free_g A X : (forall i, A i \in unitmx) -> (forall i, row_free (X i)) -> forall i, row_free (mixed A X i).
Proof. by move=> uA fX i; rewrite /row_free /mixed (mxrankMfree _ (fX i)) mxrank_unit. Qed.
Lemma col_g A X : (forall i, A i \in unitmx) -> (forall j, exists i, col j (X i) != 0) ->
  forall j, exists i, col j (mixed A X i) != 0.
Proof.
move=> uA cX j; have [i h] := cX j; exists i; apply/eqP => e; case/eqP: h.
have : invmx (A i) *m col j (mixed A X i) = 0 by rewrite e mulmx0.
by rewrite colE /mixed -!mulmxA mulKmx // -colE.
Qed.
Hypotheses (N0 : (0 < N)%N) (M0 : (0 < M)%N) (F0 : (0 < F)%N) (T0 : (0 < T)%N) (K0 : (0 < K)%N).
Hypotheses (He : eigh_contract eig) (Hc : chol_contract chol).
Definition recording X := (forall i, row_free (X i)) /\ (forall j, exists i, col j (X i) != 0).
Lemma call_all nrm X k s : recording X -> proper s ->
  exists (Y : 'I_M -> images) l, forall b, call nrm X b k s = Some (Y b, l).
Proof.
move=> [fX cX] ps; have [s' [l [e _ _ _]]] := @C84_run N M F T K eig chol N0 M0 F0 T0 K0 He Hc (FIP1 M) nrm X s k isT fX cX ps.
have h b : isSome (call nrm X b k s).
  by have [Y [l' [-> _ _ _]]] := @C84_call N M F T K eig chol N0 M0 F0 T0 K0 He Hc (FIP1 M) nrm X b s k isT fX cX ps.
exists (fun b => (odflt (fun _ _ _ => 0, l) (call nrm X b k s)).1), l => b.
have := h b; rewrite /fast_call e; case: (state_separate _ _ _ _ _) => // _.
by case: (state_separate _ _ _ _ _).
Qed.
Theorem C85_mixing_call A a v nrm nrm' X k s (r : 'I_M) : recording X -> proper s ->
  (forall i, A i \in unitmx) -> live a -> pos_levels v ->
  exists (Y : 'I_M -> images) l, (forall b, call nrm' X b k s = Some (Y b, l)) /\
    call nrm (mixed A X) r k (gs A a v s) =
      Some (fun n i j => \sum_b A i r b * Y b n i j, [seq x + (\sum_i (2 * ln (cabs (\det (A i))))%coqR) | x <- l]).
Proof.
move=> hX ps uA la v0; have [Y [l h]] := call_all nrm' k hX ps; exists Y, l; split=> //.
have hX' : recording (mixed A X) by split; [exact: free_g hX.1|exact: col_g hX.2].
have [Y2 [l2 h2]] := call_all nrm k hX' (proper_g uA la v0 ps).
by have [<- <-] := C85_mixing He uA la v0 (h2 r) h; exact: h2.
Qed.
(** the normalisation changes neither signals nor losses *)
Theorem C85_normalization nrm X k s (r : 'I_M) : recording X -> proper s ->
  call nrm X r k s = call false X r k s.
Proof.
move=> hX ps; have u1 (i : 'I_F) : (1%:M : 'M[Cx]_M) \in unitmx by rewrite unitmx1.
have [Y [l [h]]] := C85_mixing_call nrm false k r hX ps u1 one_live one_pos.
rewrite (mixed1 X) gs1 (h r) => ->; congr (Some (_, _)).
  do 3 (apply: functional_extensionality => ?); rewrite (bigD1 r) //= mxE eqxx mul1r big1 ?addr0 // => c1 ne.
  by rewrite mxE eq_sym (negbTE ne) mul0r.
rewrite -[\sum_i _]/(shift (fun=> 1%:M)) (shift1 M F); elim: (l) => //= x t ->.
by rewrite addr0.
Qed.
Lemma ln_cabsX (x : Cx) p : x != 0 -> ln (cabs (x ^+ p)) = p%:R * ln (cabs x).
Proof.
move=> x0; elim: p => [|p IH]; first by rewrite expr0 cabs1 ln_1 mul0r.
have h : (0 < cabs (x ^+ p))%coqR by apply: cabs_gt0; rewrite expf_neq0.
rewrite exprS cabsM -RmulE ln_mult //; last exact: cabs_gt0.
by rewrite IH mulrSr mulrDl mul1r RaddE addrC.
Qed.
(** every bin of the recording multiplied by its own gain [z i], from the same diagonalisers and
    spatial parameters, the bases multiplied by the power of the gain *)
Definition louder z s : state :=
  FastState (fs_Q s) (fs_D s) (fun n i k => (fs_B s n i k * cabs (z i) ^ 2)%coqR) (fs_V s).
Theorem C85_gain z nrm X k s (r : 'I_M) : recording X -> proper s -> (forall i, z i != 0) ->
  exists Y l, call nrm X r k s = Some (Y, l) /\
    call nrm (fun i => z i *: X i) r k (louder z s) =
      Some (fun n i j => z i * Y n i j, [seq x + (\sum_i (2 * M%:R * ln (cabs (z i)))%coqR) | x <- l]).
Proof.
move=> hX ps z0; pose A : diagz := fun i => (z i)%:M; pose a : gains := fun i => const_mx (z i).
pose v : levels := fun _ i => (cabs (z i) ^ 2)%coqR.
have uA i : A i \in unitmx by rewrite unitmxE det_scalar unitfE expf_neq0.
have la : live a by move=> i m; rewrite mxE.
have v0 : pos_levels v by move=> n i; apply: pow_lt; exact: cabs_gt0.
have [Y [l [h]]] := C85_mixing_call nrm nrm k r hX ps uA la v0.
have -> : mixed A X = (fun i => z i *: X i).
  by apply: functional_extensionality => i; rewrite /mixed mul_scalar_mx.
have -> : gs A a v s = louder z s.
  rewrite /gs /louder; congr (FastState _ _ _ _).
  - apply: functional_extensionality => i; rewrite /gW /A /a diag_const_mx invmx_scalar mul_scalar_mx mul_mx_scalar.
    by rewrite scalerA mulVf // scale1r.
  - apply: functional_extensionality => i; do 2 (apply: functional_extensionality => ?); rewrite /gD mxE /v.
    by have := cabs_gt0 (z0 i); move: (cabs _) => x x0; Rf; lra.
move=> ->; exists (Y r), l; split; first exact: h.
congr (Some (_, _)).
  apply: functional_extensionality => n; apply: functional_extensionality => i; apply: functional_extensionality => j.
  rewrite (bigD1 r) //= mxE eqxx mulr1n big1 ?addr0 // => c1 ne.
  by rewrite mxE eq_sym (negbTE ne) mul0r.
apply: eq_map => x; congr (_ + _); apply: eq_bigr => i _; rewrite det_scalar ln_cabsX // -RmulE.
by rewrite Rmult_assoc.
Qed.
End Claims.

(** the state of C52's example; the second bin multiplied by 3, a mixing that exchanges the
    microphones of the first bin *)
Definition iz (i : 'I_2) : Cx := if i == 0 then 1 else 3%:R.
Definition iA (i : 'I_2) : 'M[Cx]_2 := if i == 0 then perm_mx (tperm 0 1) else 1%:M.
Example C85_instance nrm k r : exists eig chol (Y : 'I_2 -> _) l, [/\ eigh_contract eig /\ chol_contract chol,
    forall b, fast_call identity_fl eig chol (FIP1 2) nrm iXs b k i_fast = Some (Y b, l),
    fast_call identity_fl eig chol (FIP1 2) true iXs r k i_fast = fast_call identity_fl eig chol (FIP1 2) false iXs r k i_fast,
    exists l', fast_call identity_fl eig chol (FIP1 2) nrm (fun i => iz i *: iXs i) r k (louder iz i_fast) =
      Some (fun n i j => iz i * Y r n i j, l') &
    exists2 Y' : 'I_2 -> 'I_2 -> 'I_2 -> Cx, Y' = (fun n i j => \sum_b iA i 0 b * Y b n i j) &
      omap fst (fast_call identity_fl eig chol (FIP1 2) true (mixed iA iXs) 0 k (gs iA (fun=> const_mx 1) (fun _ _ => 1%coqR) i_fast)) = Some Y'].
Proof.
have [eig He] := eigh_contract_sat; have [chol Hc] := chol_contract_sat.
have hX : recording iXs.
  split=> [|j]; first exact: iXs_free.
  by exists 0; apply/eqP => /matrixP/(_ j 0)/eqP; rewrite !mxE eqxx pnatr_eq0.
have ps : proper i_fast by have [uQ D0 B0 V0] := i_fast_ok; split=> // n i l; have := B0 n i l; lra.
have uA i : iA i \in unitmx by rewrite /iA; case: ifP => _; [exact: unitmx_perm|exact: unitmx1].
have z0 i : iz i != 0 by rewrite /iz; case: ifP => _; [exact: oner_neq0|rewrite pnatr_eq0].
have l1 : live (fun _ : 'I_2 => const_mx 1 : 'rV[Cx]_2) by move=> i m; rewrite mxE oner_neq0.
have p1 : pos_levels (fun (_ _ : 'I_2) => 1%coqR) by move=> n i; exact: Rlt_0_1.
have [Y [l [h hA]]] := @C85_mixing_call 2 2 2 2 2 eig chol isT isT isT isT isT He Hc iA _ _ true nrm iXs k i_fast 0 hX ps uA l1 p1.
have [Yr [l' [h1 h2]]] := @C85_gain 2 2 2 2 2 eig chol isT isT isT isT isT He Hc iz nrm iXs k i_fast r hX ps z0.
exists eig, chol, Y, l; split=> //.
- exact: C85_normalization.
- by eexists; rewrite h2; congr (Some (_, _)); have := h r; rewrite h1 => -[<-].
- by eexists; [reflexivity|rewrite hA].
Qed.
