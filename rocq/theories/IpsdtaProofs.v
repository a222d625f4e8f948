(** Facts about the PSDTF source model of IPSDTA. *)
From Coq Require Import Reals Lra Psatz FunctionalExtensionality.
From mathcomp Require Import all_ssreflect all_algebra.
From mathcomp.algebra_tactics Require Import ring.
From Verif Require Import RStruct MxC CxR NpLin RealLemmas NmfReal NmfMM Eigh EighProofs Prop_Linalg TraceMM MnmfMM.
From Verif Require Import SpatialIP SpatialIPProofs SpatialISS AuxIVA AuxIVAProofs Mnmf MnmfGauss Vcd VcdProofs Ipsdta.
Import Order.TTheory GRing.Theory Num.Theory.
Set Implicit Arguments.
Unset Strict Implicit.
Unset Printing Implicit Defensive.
Local Open Scope ring_scope.

Lemma meanR_le_sum T (f g : 'I_T -> R) : ((\sum_t f t)%R <= (\sum_t g t)%R)%coqR -> (meanR f <= meanR g)%coqR.
Proof.
move=> h; apply: Rmult_le_compat_l => //.
by apply/RleP; rewrite invr_ge0 ler0n.
Qed.

Lemma psd_unit_pd n (A : 'M[Cx]_n) : psd A -> A \in unitmx -> pd A.
Proof.
move=> /psd_factor[L ->]; rewrite unitmx_mul => /andP[_ u].
by have := pd_congr_unit (@pd1 Cx n) u; rewrite ctrK mulmx1.
Qed.

Section Core.
Variables (N T K B : nat) (d : 'I_B -> nat).
Notation spec := (forall b, 'I_(d b) -> 'M[Cx]_(N, T)).
Notation filt := (forall b, 'I_(d b) -> 'M[Cx]_N).
Notation basis := ('I_N -> 'I_K -> forall b, 'M[Cx]_(d b)).
Notation activ := ('I_N -> 'I_K -> 'I_T -> R).
Notation covs := ('I_N -> 'I_T -> forall b, 'M[Cx]_(d b)).
Implicit Types (X : spec) (W : filt) (Tb : basis) (V : activ) (Rs : covs) (w : 'I_N -> 'I_T -> R).

Definition wyy w X W : covs := fun n t b => c (w n t) *: (ysep X W n t b *m (ysep X W n t b)^H).
Definition wmul w Rs : covs := fun n t b => c (w n t) *: Rs n t b.

Lemma yy_psd m (y : 'cV[Cx]_m) : psd (y *m y^H).
Proof. exact: psd_outer. Qed.
Lemma wyy_psd w X W n t b : (forall n t, (0 <= w n t)%coqR) -> psd (wyy w X W n t b).
Proof. by move=> w0; apply: psdZ; [exact: c_ge0|exact: yy_psd]. Qed.

Lemma wyy_cost w X W Rs n t b : cost_at (Rs n t b) (wyy w X W n t b) =
  w n t * re (quad_yry X W Rs n t b) + ln (cabs (\det (Rs n t b))).
Proof.
rewrite /cost_at /wyy -scalemxAr -[re (\tr _)]/(rtr _) rtrZ; congr (_ * _ + _).
rewrite /quad_yry /= mulmxA rtrC mulmxA /rtr; congr re.
by rewrite /mxtrace big_ord1.
Qed.

(** source part of the weighted cost, over frames *)
Definition scost w X W Rs (t : 'I_T) : R := \sum_n \sum_b cost_at (Rs n t b) (wyy w X W n t b).

Lemma rsum_pd Tb V n t b : (0 < K)%N -> (forall n k b, pd (Tb n k b)) -> (forall n k t, (0 < V n k t)%coqR) ->
  pd (rsum Tb V n t b).
Proof.
move=> K0 pT V0; rewrite /rsum (bigD1 (Ordinal K0)) //=.
have p k : pd (c (V n k t) *: Tb n k b) by apply: pdZ => //; exact: c_gt0.
by apply: pdD => //; apply: psd_sum => k _; exact: pd_psd.
Qed.

Lemma meanM_inj m1 m2 (F G : 'I_T -> 'M[Cx]_(m1, m2)) : (0 < T)%N -> meanM F = meanM G -> \sum_t F t = \sum_t G t.
Proof.
move=> T0 /(congr1 (fun M => c T%:R *: M)); rewrite /meanM !scalerA -cM mulfV ?c1 ?scale1r //.
by rewrite pnatr_eq0 -lt0n.
Qed.

Lemma basis_descent w X W Tb V (T' : basis) : (0 < T)%N -> (0 < K)%N ->
  (forall n k b, pd (Tb n k b)) -> (forall n k b, pd (T' n k b)) ->
  (forall n k t, (0 < V n k t)%coqR) -> (forall n t, (0 <= w n t)%coqR) ->
  (forall n k b, T' n k b *m bas_P V (rsum Tb V) n k b *m T' n k b =
     Tb n k b *m bas_Q V (wmul w (ryyr X W (rsum Tb V))) n k b *m Tb n k b) ->
  (meanR (scost w X W (rsum T' V)) <= meanR (scost w X W (rsum Tb V)))%coqR.
Proof.
move=> T0 K0 pT pT' V0 w0 ric; apply: meanR_le_sum.
have sw Rs : \sum_t scost w X W Rs t = \sum_n \sum_b \sum_t cost_at (Rs n t b) (wyy w X W n t b).
  by rewrite /scost exchange_big; apply: eq_bigr => n _; rewrite exchange_big.
rewrite !sw; apply: sumR_le => n _; apply: sumR_le => b _.
apply: (@riccati_descent _ _ (d b) (fun t k => V n k t) (fun t => wyy w X W n t b)
  (fun k => Tb n k b) (fun k => T' n k b)) => //.
- by move=> t k; apply: Rlt_le.
- by move=> t; apply: wyy_psd.
- by move=> t; apply: rsum_pd.
- by move=> t; apply: rsum_pd.
- move=> k; have := ric n k b.
  rewrite /bas_P /bas_Q /meanM -!(scalemxAr, scalemxAl) => /(congr1 (fun M => c T%:R *: M)).
  rewrite !scalerA -cM mulfV ?c1 ?scale1r; last by rewrite pnatr_eq0 -lt0n.
  move=> e.
  have -> : ricP (fun t k => V n k t) (fun k => Tb n k b) k = \sum_t c (V n k t) *: invmx (rsum Tb V n t b) by [].
  rewrite e; congr (_ *m _ *m _); apply: eq_bigr => t _.
  by rewrite /wmul /ryyr /wyy -!(scalemxAr, scalemxAl).
Qed.

(** the activations *)
Definition loud X W : Prop := forall n t, exists b, ysep X W n t b != 0.
Lemma activation_descent w X W Tb V : (0 < K)%N -> (forall n k b, pd (Tb n k b)) ->
  (forall n k t, (0 < V n k t)%coqR) -> (forall n t, (0 < w n t)%coqR) -> loud X W ->
  exists V', [/\ act_new Tb V (wmul w (ryyr X W (rsum Tb V))) (rsum Tb V) = Some V',
    forall n k t, (0 < V' n k t)%coqR &
    (meanR (scost w X W (rsum Tb V')) <= meanR (scost w X W (rsum Tb V)))%coqR].
Proof.
move=> K0 pT V0 w0 ld.
have pR n t b : pd (rsum Tb V n t b) by exact: rsum_pd.
pose G n (b : 'I_B) (k : 'I_K) : 'M[Cx]_(d b) := Tb n k b.
pose v n t (k : 'I_K) := V n k t.
pose Y n t (b : 'I_B) : 'M[Cx]_(d b) := wyy w X W n t b.
have mE n t b : mixof (G n) (v n t) b = rsum Tb V n t b by [].
have yn n t b : ysep X W n t b != 0 -> Y n t b != 0.
  move=> y0; rewrite /Y /wyy scaler_eq0 negb_or c_neq0 /=; last by have := w0 n t; lra.
  apply: contraNneq y0 => z; apply/eqP; move: z; set y := ysep _ _ _ _ _ => z.
  have h : form 1%:M y y = 0.
    have : (y^H *m (y *m y^H) *m y) 0 0 = 0 by rewrite z mulmx0 mul0mx mxE.
    rewrite mulmxA -mulmxA mxE big_ord1 => /eqP; rewrite mulf_eq0 orbb => /eqP.
    by rewrite /form mulmx1.
  apply/eqP; case: (eqVneq y 0) => // /((proj2 (@pd1 Cx _)) _).
  by rewrite h ltxx.
have nE n k t : mm_num (G n) (Y n t) (v n t) k = act_num Tb (wmul w (ryyr X W (rsum Tb V))) n k t.
  apply: eq_bigr => b _; rewrite mE; congr (re (\tr _)).
  by rewrite /Y /wyy /wmul /ryyr -!(scalemxAr, scalemxAl) !mulmxA.
have dE n k t : mm_den (G n) (v n t) k = act_den Tb (rsum Tb V) n k t by [].
have G0 n (t : 'I_T) k : exists b, G n b k != 0.
  have [b yb] := ld n t; exists b; apply: pd_neq0; last exact: pT.
  rewrite lt0n; apply: contraNneq yb => e; apply/eqP/matrixP => i; by have := ltn_ord i; rewrite {2}e.
have Y0 : forall n t b, psd (Y n t b).
  by move=> n t b; apply: wyy_psd => n' t'; apply: Rlt_le.
have lv n t : (0 < 0)%coqR \/ (0%coqR = 0%coqR /\ forall k, (0 < mm_num (G n) (Y n t) (v n t) k)%coqR).
  right; split=> // k; have [b hb] := ld n t.
  apply: (@sumR_gt0 _ _ b) => [b'|].
    rewrite mE; apply: mm_term_num; first exact: Y0.
      by have [] := pd_inv (pR n t b').
    exact: (pd_psd (pT n k b')).
  by rewrite mE; apply: num_gt0; [exact: pd_inv|exact: Y0|exact: yn|exact: pT].
have D n t := @mm_descent_mx _ _ d (G n) (Y n t) (v n t) 0%coqR (fun b k => pd_psd (pT n k b)) (Y0 n t) (fun k => V0 n k t)
   (fun k h => False_ind _ (Rlt_irrefl _ h)) (pR n t) (G0 n t) (lv n t).
pose V' n k t := mm_new (G n) (Y n t) (v n t) 0%coqR k.
have V'E n k t : V' n k t = V n k t * R_sqrt.sqrt (act_num Tb (wmul w (ryyr X W (rsum Tb V))) n k t / act_den Tb (rsum Tb V) n k t).
  rewrite /V' /mm_new nE dE Rmax_left //; apply: Rmult_le_pos; [exact: (Rlt_le _ _ (V0 n k t))|exact: sqrt_pos].
exists V'; split.
- rewrite /act_new ifT; last first.
    apply/forallP => n; apply/forallP => k; apply/forallP => t; rewrite -nE -dE.
    have pg b k' : psd (G n b k') by exact: (pd_psd (pT n k' b)).
    apply: ratio_okP; first exact: (mm_num_ge0 pg (Y0 n t) (pR n t)).
    exact: (mm_den_gt0 pg (pR n t) (G0 n t)).
  by congr Some; do 3 (apply: functional_extensionality => ?); rewrite V'E.
- by move=> n k t; have [h _ _ _] := D n t; exact: h.
- apply: meanR_le => t; apply: sumR_le => n _; have [_ _ _ h] := D n t; exact: h.
Qed.

(** the filters of one block *)
Definition herm_covs (Pi : covs) : Prop := forall n t b, (Pi n t b)^H = Pi n t b.
Lemma vcd_covE (Pi : covs) X W b n :
  \sum_i \sum_j re ((row n (W b i) *m vcd_cov Pi X b i j n *m (row n (W b j))^H) 0 0) =
  meanR (fun t => re (((ysep X W n t b)^H *m Pi n t b *m ysep X W n t b) 0 0)).
Proof.
have e1 i j : (row n (W b i) *m vcd_cov Pi X b i j n *m (row n (W b j))^H) 0 0 =
   c (T%:R)^-1 * \sum_t ((ysep X W n t b j 0)^* * Pi n t b j i * ysep X W n t b i 0).
  rewrite /vcd_cov /meanM -scalemxAr -scalemxAl mxE; congr (_ * _).
  rewrite mulmx_sumr mulmx_suml summxE; apply: eq_bigr => t _.
  rewrite -scalemxAr -scalemxAl mxE.
  have -> : row n (W b i) *m (col t (X b i) *m (col t (X b j))^H) *m (row n (W b j))^H =
     (row n (W b i) *m col t (X b i)) *m (row n (W b j) *m col t (X b j))^H by rewrite ctrM !mulmxA.
  rewrite mxE big_ord1.
  have ye i' : (row n (W b i') *m col t (X b i')) 0 0 = ysep X W n t b i' 0.
    by rewrite mxE mxE mxE; apply: eq_bigr => k _; rewrite !mxE.
  by rewrite ye ctrE ye; ring.
have e2 t : ((ysep X W n t b)^H *m Pi n t b *m ysep X W n t b) 0 0 =
   \sum_i \sum_j ((ysep X W n t b j 0)^* * Pi n t b j i * ysep X W n t b i 0).
  rewrite mxE; apply: eq_bigr => i _; rewrite mxE mulr_suml; apply: eq_bigr => j _.
  by rewrite ctrE.
rewrite /meanR.
have -> : \sum_t re (((ysep X W n t b)^H *m Pi n t b *m ysep X W n t b) 0 0) =
   re (\sum_i \sum_j \sum_t ((ysep X W n t b j 0)^* * Pi n t b j i * ysep X W n t b i 0)).
  rewrite -re_sum; congr re; rewrite (eq_bigr _ (fun t _ => e2 t)) exchange_big.
  by apply: eq_bigr => i _; rewrite exchange_big.
rewrite -reMc mulr_sumr re_sum; apply: eq_bigr => i _; rewrite mulr_sumr re_sum; apply: eq_bigr => j _.
by rewrite e1.
Qed.

Lemma vcd_cov_herm (Pi : covs) X b : herm_covs Pi -> herm_cov (vcd_cov Pi X b).
Proof.
move=> h i j n; rewrite /vcd_cov /meanM ctrZ c_conj; congr (_ *: _).
rewrite ctr_sum; apply: eq_bigr => t _; rewrite ctrZ ctrM ctrK; congr (_ *: _).
by rewrite -[in RHS](h n t b) ctrE.
Qed.
Lemma vcd_cov_pd (Pi : covs) X b : (forall n t b, pd (Pi n t b)) -> (forall i, row_free (X b i)) ->
  pd_cov (vcd_cov Pi X b).
Proof.
move=> pP fX i n.
pose phi := \matrix_(m < N, t < T) re (Pi m t b i i).
have dg t : c (re (Pi n t b i i)) = Pi n t b i i /\ (0 < re (Pi n t b i i))%coqR.
  have dn : delta_mx i 0 != 0 :> 'cV[Cx]_(d b).
    by apply/eqP => /matrixP/(_ i 0)/eqP; rewrite !mxE !eqxx oner_eq0.
  have := (proj2 (pP n t b)) _ dn.
  have -> : form (Pi n t b) (delta_mx i 0) (delta_mx i 0) = Pi n t b i i.
    by rewrite /form -mulmxA -colE ctr_delta -rowE !mxE.
  by move=> /gt0_cre[<-].
have -> : vcd_cov Pi X b i i n = wcov phi (X b i) n.
  apply/matrixP => p q; rewrite /vcd_cov /meanM mxE summxE [in RHS]mxE /meanC; congr (_ * _); apply: eq_bigr => t _.
  by rewrite [phi n t]mxE -(dg t).1 [in LHS]mxE; congr (_ * _); rewrite mxE big_ord1 ctrE !mxE.
by apply: wcov_pd => // t; rewrite mxE; exact: (dg t).2.
Qed.

(** ** The weighted cost *)
Definition logdetW W : R := \sum_b \sum_i ln (cabs (\det (W b i))).
Definition wcost w X W Rs : R := (meanR (scost w X W Rs) - 2 * logdetW W)%R.
Definition winv w Rs : covs := fun n t b => c (w n t) *: invmx (Rs n t b).

Lemma wcost_vcd w X W Rs : wcost w X W Rs =
  \sum_b vcd_cost (vcd_cov (winv w Rs) X b) (W b) +
  meanR (fun t => \sum_n \sum_b ln (cabs (\det (Rs n t b)))).
Proof.
rewrite /wcost.
have -> : meanR (scost w X W Rs) = meanR (fun t => \sum_n \sum_b w n t * re (quad_yry X W Rs n t b)) +
   meanR (fun t => \sum_n \sum_b ln (cabs (\det (Rs n t b)))).
  rewrite -meanRD; apply: eq_meanR => t; rewrite -big_split; apply: eq_bigr => n _.
  by rewrite -big_split; apply: eq_bigr => b _; rewrite wyy_cost.
rewrite addrAC; congr (_ + _).
rewrite /vcd_cost sumrB; congr (_ - _); last first.
  by rewrite /logdetW mulr_sumr; apply: eq_bigr => b _; rewrite mulr_sumr; apply: eq_bigr.
rewrite exchange_big /=.
transitivity (\sum_n \sum_b meanR (fun t => w n t * re (quad_yry X W Rs n t b))).
  rewrite /meanR exchange_big /= mulr_sumr; apply: eq_bigr => n _.
  by rewrite exchange_big /= mulr_sumr.
apply: eq_bigr => n _; apply: eq_bigr => b _; rewrite vcd_covE; apply: eq_meanR => t.
by rewrite /winv -scalemxAr -scalemxAl [in RHS]mxE reMc.
Qed.

Lemma vcd_descent w X W Rs fl : (forall n t b, pd (Rs n t b)) -> (forall n t, (0 < w n t)%coqR) ->
  (forall b i, row_free (X b i)) -> (forall b i, W b i \in unitmx) ->
  (forall b, vcd_regular (sing_floor fl) (vcd_cov (winv w Rs) X b) (vpairs N (d b)) (W b)) ->
  exists W', [/\ all_blocks W (fun b => vcd (sing_floor fl) (vcd_cov (winv w Rs) X b) (W b)) = Some W',
    forall b i, W' b i \in unitmx & (wcost w X W' Rs <= wcost w X W Rs)%coqR].
Proof.
move=> pR w0 fX uW reg.
have pP n t b : pd (winv w Rs n t b) by apply: pdZ; [exact: c_gt0|exact: pd_inv].
have hP : herm_covs (winv w Rs) by move=> n t b; exact: (proj1 (pP n t b)).
have S b : exists V : vfilter N (d b), [/\ vcd (sing_floor fl) (vcd_cov (winv w Rs) X b) (W b) = Some V, forall i, V i \in unitmx &
   (vcd_cost (vcd_cov (winv w Rs) X b) V <= vcd_cost (vcd_cov (winv w Rs) X b) (W b))%coqR].
  rewrite vcd_seqE; apply: vcd_seq_mono => //; [exact: vcd_cov_herm|exact: vcd_cov_pd].
exists (fun b => odflt (W b) (vcd (sing_floor fl) (vcd_cov (winv w Rs) X b) (W b))); split.
- by rewrite /all_blocks ifT //; apply/forallP => b; have [V [-> _ _]] := S b.
- by move=> b i; have [V [-> u _]] := S b; exact: u.
- rewrite !wcost_vcd; apply: Rplus_le_compat_r; apply: sumR_le => b _.
  by have [V [-> _ le]] := S b.
Qed.

(** ** Normalisation *)
Lemma rsum_norm Tb V T' V' : psdtf_norm Tb V = Some (T', V') -> rsum T' V' = rsum Tb V.
Proof.
rewrite /psdtf_norm; case: ifP => // /forallP h [<- <-].
apply: functional_extensionality => n; apply: functional_extensionality => t.
apply: functional_extensionality_dep => b; apply: eq_bigr => k _.
have /forallP/(_ k) t0 := h n.
by rewrite scalerA cM mulfK // c_eq0.
Qed.
Lemma trace_gt0 Tb n k : (0 < B)%N -> (forall b, 0 < d b)%N -> (forall n k b, pd (Tb n k b)) -> (0 < bas_trace Tb n k)%coqR.
Proof.
move=> B0 d0 pT; apply: (@sumR_gt0 _ _ (Ordinal B0)) => [b|]; first by apply: rtr_psd; exact: pd_psd.
exact: rtr_pd.
Qed.
Lemma psdtf_norm_ok Tb V : (0 < B)%N -> (forall b, 0 < d b)%N ->
  (forall n k b, pd (Tb n k b)) -> (forall n k t, (0 < V n k t)%coqR) ->
  exists T' V', [/\ psdtf_norm Tb V = Some (T', V'), forall n k b, pd (T' n k b),
    forall n k t, (0 < V' n k t)%coqR & forall n k, bas_trace T' n k = 1].
Proof.
move=> B0 d0 pT V0.
have t0 n k := trace_gt0 n k B0 d0 pT.
have tn n k : bas_trace Tb n k != 0 by apply/eqP; apply: Rgt_not_eq; exact: t0.
do 2 eexists; split.
- by rewrite /psdtf_norm ifT //; apply/forallP => n; apply/forallP => k.
- by move=> n k b; apply: pdZ => //; rewrite invr_gt0; exact: c_gt0.
- by move=> n k t; exact: Rmult_lt_0_compat.
- move=> n k; rewrite /bas_trace.
  transitivity ((bas_trace Tb n k)^-1 * bas_trace Tb n k); last by rewrite mulVf.
  by rewrite [X in _ = _ * X]/bas_trace mulr_sumr; apply: eq_bigr => b _; rewrite -cV -[re _]/(rtr _) rtrZ.
Qed.
End Core.

Section Steps.
Variables (N T K B : nat) (d : 'I_B -> nat) (hi : 'I_B -> bool).
Variables (eig : eigh_t) (chol : chol_t) (fl0 fl : R -> R).
Notation spec := (forall b, 'I_(d b) -> 'M[Cx]_(N, T)).
Notation filt := (forall b, 'I_(d b) -> 'M[Cx]_N).
Notation basis := ('I_N -> 'I_K -> forall b, 'M[Cx]_(d b)).
Notation activ := ('I_N -> 'I_K -> 'I_T -> R).
Notation covs := ('I_N -> 'I_T -> forall b, 'M[Cx]_(d b)).
Implicit Types (X : spec) (W : filt) (Tb : basis) (V : activ) (Rs : covs) (w : 'I_N -> 'I_T -> R).
Hypotheses (T0 : (0 < T)%N) (K0 : (0 < K)%N).

Definition inertR Tb V : Prop := forall n t b, to_psd eig fl0 (rsum Tb V n t b) = rsum Tb V n t b.
Lemma reconE Tb V : inertR Tb V -> recon_psdtf eig fl0 Tb V = rsum Tb V.
Proof.
move=> h; apply: functional_extensionality => n; apply: functional_extensionality => t.
apply: functional_extensionality_dep => b; exact: h.
Qed.
Lemma covs_unitP Rs : (forall n t b, pd (Rs n t b)) -> covs_unit Rs.
Proof. by move=> p; apply/forallP => n; apply/forallP => t; apply/forallP => b; exact: pd_unit. Qed.

Definition ones : 'I_N -> 'I_T -> R := fun _ _ => 1.
Lemma wmul1 Rs : wmul ones Rs = Rs.
Proof.
apply: functional_extensionality => n; apply: functional_extensionality => t.
by apply: functional_extensionality_dep => b; rewrite /wmul c1 scale1r.
Qed.
Lemma winv1 Rs : winv ones Rs = fun n t b => invmx (Rs n t b).
Proof.
apply: functional_extensionality => n; apply: functional_extensionality => t.
by apply: functional_extensionality_dep => b; rewrite /winv c1 scale1r.
Qed.
Lemma quad_ge0 X W Rs n t b : pd (Rs n t b) -> (0 <= re (quad_yry X W Rs n t b))%coqR.
Proof. by move=> /pd_inv/pd_psd[_ /(_ (ysep X W n t b)) /ge0_cre[]]. Qed.

Lemma gauss_lossE X W Tb V : (forall n k b, pd (Tb n k b)) -> (forall n k t, (0 < V n k t)%coqR) ->
  (forall b i, W b i \in unitmx) -> inertR Tb V ->
  gauss_loss hi eig fl0 X (State W Tb V) = Some (wcost ones X W (rsum Tb V)).
Proof.
move=> pT V0 uW ina; rewrite /gauss_loss /= reconE //.
have pR n t b : pd (rsum Tb V n t b) by exact: rsum_pd.
rewrite -lt0n T0 covs_unitP //= ifT; last by apply/forallP => b; apply/forallP => i.
congr Some; rewrite /gauss_loss_part /wcost.
have mx h t : Rmax (re (\sum_n \sum_(b | hi b == h) quad_yry X W (rsum Tb V) n t b)) 0 =
   \sum_n \sum_(b | hi b == h) re (quad_yry X W (rsum Tb V) n t b).
  rewrite Rmax_left; first by rewrite re_sum; apply: eq_bigr => n _; rewrite re_sum.
  by rewrite re_sum; apply: sumR_ge0 => n _; rewrite re_sum; apply: sumR_ge0 => b _; exact: quad_ge0.
rewrite addrACA -opprD -meanRD; congr (_ - _); last first.
  rewrite -mulrDr /logdetW; congr (_ * _); rewrite [RHS](bigID (fun b => hi b == true)) /= addrC; congr (_ + _).
  by apply: eq_bigl => b; case: (hi b).
apply: eq_meanR => t; rewrite !mx addrACA /scost.
have -> : \sum_n \sum_b cost_at (rsum Tb V n t b) (wyy ones X W n t b) =
   \sum_n \sum_b re (quad_yry X W (rsum Tb V) n t b) + \sum_n \sum_b ln (cabs (\det (rsum Tb V n t b))).
  rewrite -big_split; apply: eq_bigr => n _; rewrite -big_split; apply: eq_bigr => b _.
  by rewrite wyy_cost mul1r.
congr (_ + _); rewrite -big_split; apply: eq_bigr => n _.
  rewrite [RHS](bigID (fun b => hi b == true)) /= addrC; congr (_ + _).
  by apply: eq_bigl => b; case: (hi b).
rewrite [RHS](bigID (fun b => hi b == true)) /= addrC; congr (_ + _).
by apply: eq_bigl => b; case: (hi b).
Qed.

Lemma bas_P_pd V Rs n k b : (forall n k t, (0 < V n k t)%coqR) -> (forall n t b, pd (Rs n t b)) -> pd (bas_P V Rs n k b).
Proof.
move=> V0 pR; apply: pdZ; first by apply: c_gt0; apply/RltP; rewrite invr_gt0 ltr0n.
rewrite (bigD1 (Ordinal T0)) //=.
have p t : pd (c (V n k t) *: invmx (Rs n t b)) by apply: pdZ; [exact: c_gt0|exact: pd_inv].
by apply: pdD => //; apply: psd_sum => t _; exact: pd_psd.
Qed.

Lemma all_basis_ex f (P : 'I_N -> 'I_K -> forall b, 'M[Cx]_(d b) -> Prop) :
  (forall n k b, exists2 G, f n k b = Some G & P n k b G) ->
  exists2 T' : basis, all_basis f = Some T' & forall n k b, P n k b (T' n k b).
Proof.
move=> h; exists (fun n k b => odflt 0 (f n k b)).
  by rewrite /all_basis ifT //; apply/forallP => n; apply/forallP => k; apply/forallP => b; have [G ->] := h n k b.
by move=> n k b; have [G ->] := h n k b.
Qed.

(** no floor acts in the update of the bases *)
Definition inert_gauss X W Tb V : Prop := forall n k b,
  let P := bas_P V (rsum Tb V) n k b in
  let TQT := Tb n k b *m bas_Q V (ryyr X W (rsum Tb V)) n k b *m Tb n k b in
  [/\ to_psd eig fl P = P, to_psd eig fl TQT = TQT, pd TQT &
      forall G : 'M[Cx]_(d b), pd G -> G *m P *m G = TQT -> to_psd eig fl G = G].

Lemma gauss_basis_step X W Tb V : eigh_contract eig -> chol_contract chol ->
  (forall n k b, pd (Tb n k b)) -> (forall n k t, (0 < V n k t)%coqR) -> inertR Tb V -> inert_gauss X W Tb V ->
  exists T', [/\ gauss_basis eig chol fl0 fl X W Tb V = Some T', forall n k b, pd (T' n k b),
    forall n k b, T' n k b *m bas_P V (rsum Tb V) n k b *m T' n k b =
      Tb n k b *m bas_Q V (ryyr X W (rsum Tb V)) n k b *m Tb n k b &
    (wcost ones X W (rsum T' V) <= wcost ones X W (rsum Tb V))%coqR].
Proof.
move=> He Hc pT V0 ina ing; rewrite /gauss_basis.
have pR n t b : pd (rsum Tb V n t b) by exact: rsum_pd.
rewrite -lt0n T0 reconE // covs_unitP //=.
have S n k b : exists2 G, gauss_basis_at eig chol fl0 fl X W Tb V n k b = Some G &
   pd G /\ G *m bas_P V (rsum Tb V) n k b *m G = Tb n k b *m bas_Q V (ryyr X W (rsum Tb V)) n k b *m Tb n k b.
  have [eP eQ pQ hG] := ing n k b.
  have [G [e pG eG _]] := C24_type2 He Hc (bas_P_pd n k b V0 pR) pQ.
  by exists G => //; rewrite /gauss_basis_at reconE // eP eQ e hG.
have [T' eT hT] := all_basis_ex S.
have pT' n k b := (hT n k b).1; have ric n k b := (hT n k b).2.
exists T'; split=> //.
apply: Rplus_le_compat_r; apply: basis_descent => //; first by move=> *; exact: Rle_0_1.
by rewrite wmul1.
Qed.

Lemma gauss_activation_step X W Tb V : (forall n k b, pd (Tb n k b)) -> (forall n k t, (0 < V n k t)%coqR) ->
  inertR Tb V -> loud X W ->
  exists V', [/\ gauss_activation eig fl0 X W Tb V = Some V', forall n k t, (0 < V' n k t)%coqR &
    (wcost ones X W (rsum Tb V') <= wcost ones X W (rsum Tb V))%coqR].
Proof.
move=> pT V0 ina ld; rewrite /gauss_activation reconE // covs_unitP //; last by move=> *; exact: rsum_pd.
have w0 n t : (0 < ones n t)%coqR by exact: Rlt_0_1.
have [V' [e v0 le]] := activation_descent K0 pT V0 w0 ld.
by exists V'; split=> //; [rewrite wmul1 in e|apply: Rplus_le_compat_r].
Qed.

Lemma gauss_vcd_step X W Tb V : (forall n k b, pd (Tb n k b)) -> (forall n k t, (0 < V n k t)%coqR) ->
  inertR Tb V -> (forall b i, row_free (X b i)) -> (forall b i, W b i \in unitmx) ->
  (forall b, vcd_regular (sing_floor fl) (vcd_cov (fun n t b => invmx (rsum Tb V n t b)) X b) (vpairs N (d b)) (W b)) ->
  exists W', [/\ gauss_vcd eig fl0 fl X W Tb V = Some W', forall b i, W' b i \in unitmx &
    (wcost ones X W' (rsum Tb V) <= wcost ones X W (rsum Tb V))%coqR].
Proof.
move=> pT V0 ina fX uW reg; have pR n t b : pd (rsum Tb V n t b) by exact: rsum_pd.
rewrite /gauss_vcd reconE // -lt0n T0 covs_unitP //=.
have w0 n t : (0 < ones n t)%coqR by exact: Rlt_0_1.
by rewrite -winv1 in reg *; exact: vcd_descent.
Qed.

(** ** TIPSDTA *)
Variable nu : R.
Hypothesis nu0 : (0 < nu)%coqR.
Notation pi_ := (t_pi nu).
Lemma t_yryE X W Rs n t : (forall n t b, pd (Rs n t b)) -> t_yry X W Rs n t = \sum_b re (quad_yry X W Rs n t b).
Proof. by move=> pR; apply: eq_bigr => b _; rewrite Rmax_left //; exact: quad_ge0. Qed.
Lemma t_yry_ge0 X W Rs n t : (0 <= t_yry X W Rs n t)%coqR.
Proof. by apply: sumR_ge0 => b _; exact: Rmax_r. Qed.
Lemma bins_ge0 : (0 <= (n_bins d)%:R)%coqR. Proof. by apply/RleP; rewrite ler0n. Qed.
Lemma t_pi_gt0 X W Rs n t : (0 < pi_ X W Rs n t)%coqR.
Proof. by have h1 := t_yry_ge0 X W Rs n t; have h2 := bins_ge0; apply: Rdiv_lt_0_compat; lra. Qed.
Lemma t_pi_okP X W Rs : t_pi_ok nu X W Rs.
Proof.
apply/forallP => n; apply/forallP => t; apply/eqP; rewrite -R0E.
by have h1 := t_yry_ge0 X W Rs n t; lra.
Qed.

Definition tcost X W Rs : R :=
  (meanR (fun t => \sum_n ((nu + 2 * (n_bins d)%:R) / 2 * ln (1 + 2 / nu * t_yry X W Rs n t))%coqR
                  + \sum_n \sum_b ln (cabs (\det (Rs n t b)))) - 2 * logdetW W)%R.
Lemma t_lossE X W Tb V : (forall n k b, pd (Tb n k b)) -> (forall n k t, (0 < V n k t)%coqR) ->
  (forall b i, W b i \in unitmx) -> inertR Tb V ->
  t_loss eig fl0 nu X (State W Tb V) = Some (tcost X W (rsum Tb V)).
Proof.
move=> pT V0 uW ina; rewrite /t_loss /= reconE //.
rewrite -lt0n T0 covs_unitP //=; last by move=> *; exact: rsum_pd.
rewrite ifT //; apply/and3P; split; first by apply/forallP => b; apply/forallP => i.
  by apply/eqP; apply: Rgt_not_eq; exact: nu0.
apply/forallP => n; apply/forallP => t; apply/RltbP.
have h := t_yry_ge0 X W (rsum Tb V) n t.
have := Rmult_le_pos _ _ (Rlt_le _ _ (Rdiv_lt_0_compat 2 _ ltac:(lra) nu0)) h; lra.
Qed.

(** tangent majorisation of the logarithm *)
Lemma t_tangent F q q' : (0 <= F)%coqR -> (0 <= q)%coqR -> (0 <= q')%coqR ->
  ((nu + 2 * F) / 2 * ln (1 + 2 / nu * q') <=
   (nu + 2 * F) / 2 * ln (1 + 2 / nu * q) + (nu + 2 * F) / (nu + 2 * q) * (q' - q))%coqR.
Proof.
move=> F0 q0 q0'.
have p : (0 < nu + 2 * q)%coqR by lra.
have p' : (0 < nu + 2 * q')%coqR by lra.
have e x : (1 + 2 / nu * x = (nu + 2 * x) / nu)%coqR by Rfield; lra.
have ni := Rinv_0_lt_compat _ nu0.
rewrite !e /Rdiv !(ln_mult _ (/ nu)) //.
have := ln_le_sub1 _ (Rdiv_lt_0_compat _ _ p' p); rewrite /Rdiv ln_mult //; last exact: Rinv_0_lt_compat.
rewrite ln_Rinv // => h.
have e2 : ((nu + 2 * F) * / (nu + 2 * q) * (q' - q) = (nu + 2 * F) * / 2 * ((nu + 2 * q') * / (nu + 2 * q) - 1))%coqR.
  by Rfield; lra.
have k : (0 <= (nu + 2 * F) * / 2)%coqR by lra.
rewrite e2 -Rmult_plus_distr_l; apply: Rmult_le_compat_l => //; lra.
Qed.

Lemma t_majorise X W W' Rs Rs' : (forall n t b, pd (Rs n t b)) -> (forall n t b, pd (Rs' n t b)) ->
  (wcost (pi_ X W Rs) X W' Rs' <= wcost (pi_ X W Rs) X W Rs)%coqR -> (tcost X W' Rs' <= tcost X W Rs)%coqR.
Proof.
move=> pR pR'.
pose q n t := t_yry X W Rs n t; pose q' n t := t_yry X W' Rs' n t.
pose L Rs t : R := \sum_n \sum_b ln (cabs (\det (Rs n t b))).
have sE W1 R1 : (forall n t b, pd (R1 n t b)) ->
   wcost (pi_ X W Rs) X W1 R1 = meanR (fun t => \sum_n pi_ X W Rs n t * t_yry X W1 R1 n t + L R1 t) - 2 * logdetW W1.
  move=> p1; congr (_ - _); apply: eq_meanR => t; rewrite /scost /L -big_split; apply: eq_bigr => n _.
  rewrite t_yryE // mulr_sumr -big_split; apply: eq_bigr => b _; exact: wyy_cost.
rewrite !sE //.
pose f1 t : R := \sum_n ((nu + 2 * (n_bins d)%:R) / 2 * ln (1 + 2 / nu * q n t))%coqR + L Rs t.
pose f1' t : R := \sum_n ((nu + 2 * (n_bins d)%:R) / 2 * ln (1 + 2 / nu * q' n t))%coqR + L Rs' t.
pose f2 t : R := \sum_n pi_ X W Rs n t * q n t + L Rs t.
pose f2' t : R := \sum_n pi_ X W Rs n t * q' n t + L Rs' t.
have h : (meanR f1' <= meanR (fun t => f1 t + (f2' t - f2 t)))%coqR.
  apply: meanR_le => t.
  have : ((\sum_n ((nu + 2 * (n_bins d)%:R) / 2 * ln (1 + 2 / nu * q' n t))%coqR)%R <=
     (\sum_n ((nu + 2 * (n_bins d)%:R) / 2 * ln (1 + 2 / nu * q n t) + pi_ X W Rs n t * (q' n t - q n t))%coqR)%R)%coqR.
    apply: sumR_le => n _; apply: t_tangent; [exact: bins_ge0|exact: t_yry_ge0|exact: t_yry_ge0].
  have -> : \sum_n ((nu + 2 * (n_bins d)%:R) / 2 * ln (1 + 2 / nu * q n t) + pi_ X W Rs n t * (q' n t - q n t))%coqR =
     \sum_n ((nu + 2 * (n_bins d)%:R) / 2 * ln (1 + 2 / nu * q n t))%coqR +
     (\sum_n pi_ X W Rs n t * q' n t - \sum_n pi_ X W Rs n t * q n t).
    by rewrite -sumrB -big_split; apply: eq_bigr => n _; rewrite -mulrBr.
  rewrite /f1 /f1' /f2 /f2'.
  by move: (\sum_n _) (\sum_n _) (\sum_n _) (\sum_n _) (L _ _) (L _ _) => a1 a2 a3 a4 a5 a6; toR; lra.
move: h; rewrite (meanRD f1) (meanRB f2') /tcost -/f1 -/f1' -/f2 -/f2'.
move: (meanR f1) (meanR f1') (meanR f2) (meanR f2') (logdetW _) (logdetW _) => a1 a2 a3 a4 a5 a6.
by toR; lra.
Qed.

(** no floor acts in the update of the bases *)
Definition inert_t X W Tb V : Prop := forall n k b,
  let Rs := rsum Tb V in
  let P := bas_P V Rs n k b in
  let Q := bas_Q V (t_ryyr nu X W Rs) n k b in
  [/\ to_psd eig fl Q = Q, pd Q,
      forall Qs : 'M[Cx]_(d b), pd Qs -> Qs *m Qs = Q ->
        let M := Qs *m Tb n k b *m P *m Tb n k b *m Qs in
        to_psd eig fl M = M /\ invsqrtmh eig fl M = invsqrtmh eig identity_fl M &
      forall G : 'M[Cx]_(d b), pd G -> G *m P *m G = Tb n k b *m Q *m Tb n k b -> to_psd eig fl G = G].

Lemma t_basis_step X W Tb V : eigh_contract eig ->
  (forall n k b, pd (Tb n k b)) -> (forall n k t, (0 < V n k t)%coqR) -> inertR Tb V -> inert_t X W Tb V ->
  exists T', [/\ t_basis eig fl0 fl nu X W Tb V = Some T', forall n k b, pd (T' n k b),
    forall n k b, T' n k b *m bas_P V (rsum Tb V) n k b *m T' n k b =
      Tb n k b *m bas_Q V (t_ryyr nu X W (rsum Tb V)) n k b *m Tb n k b &
    (tcost X W (rsum T' V) <= tcost X W (rsum Tb V))%coqR].
Proof.
move=> He pT V0 ina ing; rewrite /t_basis.
have pR n t b : pd (rsum Tb V n t b) by exact: rsum_pd.
rewrite -lt0n T0 reconE // covs_unitP // t_pi_okP /=.
have S n k b : exists2 G, t_basis_at eig fl0 fl nu X W Tb V n k b = Some G &
   pd G /\ G *m bas_P V (rsum Tb V) n k b *m G = Tb n k b *m bas_Q V (t_ryyr nu X W (rsum Tb V)) n k b *m Tb n k b.
  have [eQ pQ hM hG] := ing n k b.
  have pP := bas_P_pd n k b V0 pR.
  rewrite /t_basis_at reconE // eQ.
  move: (bas_P V _ n k b) (bas_Q V _ n k b) pP pQ hM hG => P Q pP pQ hM hG {eQ}.
  have [Qs [eS pS SS]] := C23_sqrtmh He (pd_psd pQ).
  have uS : Qs \in unitmx by have := pd_unit pQ; rewrite -SS unitmx_mul => /andP[].
  have pS' : pd Qs by exact: psd_unit_pd.
  have [hS _] := pS'; have [hT _] := pT n k b; have uT := pd_unit (pT n k b).
  have [eM eI] := hM Qs pS' SS.
  have pM : pd (Qs *m Tb n k b *m P *m Tb n k b *m Qs).
    have -> : Qs *m Tb n k b *m P *m Tb n k b *m Qs = (Tb n k b *m Qs)^H *m P *m (Tb n k b *m Qs).
      by rewrite ctrM hS hT !mulmxA.
    by apply: pd_congr_unit => //; rewrite unitmx_mul uT.
  have [Qi [eQi pQi IMI II]] := C23_invsqrtmh He pM.
  rewrite eS /= eM eI eQi.
  pose G := Tb n k b *m Qs *m Qi *m Qs *m Tb n k b.
  have pG : pd G.
    have -> : G = (Qs *m Tb n k b)^H *m Qi *m (Qs *m Tb n k b) by rewrite ctrM hS hT /G !mulmxA.
    by apply: pd_congr_unit => //; rewrite unitmx_mul uT uS.
  have eG : G *m P *m G = Tb n k b *m Q *m Tb n k b.
    have -> : G *m P *m G = Tb n k b *m Qs *m (Qi *m (Qs *m Tb n k b *m P *m Tb n k b *m Qs) *m Qi) *m Qs *m Tb n k b.
      by rewrite /G !mulmxA.
    by rewrite IMI mulmx1 -SS !mulmxA.
  by exists G => //; rewrite hG.
have [T' eT hT] := all_basis_ex S.
have pT' n k b := (hT n k b).1; have ric n k b := (hT n k b).2.
exists T'; split=> //.
apply: t_majorise => //; first by move=> *; exact: rsum_pd.
apply: Rplus_le_compat_r; apply: basis_descent => //; by move=> *; apply: Rlt_le; exact: t_pi_gt0.
Qed.

Lemma t_activation_step X W Tb V : (forall n k b, pd (Tb n k b)) -> (forall n k t, (0 < V n k t)%coqR) ->
  inertR Tb V -> loud X W ->
  exists V', [/\ t_activation eig fl0 nu X W Tb V = Some V', forall n k t, (0 < V' n k t)%coqR &
    (tcost X W (rsum Tb V') <= tcost X W (rsum Tb V))%coqR].
Proof.
move=> pT V0 ina ld; rewrite /t_activation reconE // t_pi_okP covs_unitP //; last by move=> *; exact: rsum_pd.
have [V' [e v0 le]] := activation_descent K0 pT V0 (t_pi_gt0 X W (rsum Tb V)) ld.
exists V'; split=> //; apply: t_majorise; [by move=> *; exact: rsum_pd|by move=> *; exact: rsum_pd|].
exact: Rplus_le_compat_r.
Qed.

Lemma t_vcd_step X W Tb V : (forall n k b, pd (Tb n k b)) -> (forall n k t, (0 < V n k t)%coqR) ->
  inertR Tb V -> (forall b i, row_free (X b i)) -> (forall b i, W b i \in unitmx) ->
  (forall b, vcd_regular (sing_floor fl) (vcd_cov (winv (pi_ X W (rsum Tb V)) (rsum Tb V)) X b) (vpairs N (d b)) (W b)) ->
  exists W', [/\ t_vcd eig fl0 fl nu X W Tb V = Some W', forall b i, W' b i \in unitmx &
    (tcost X W' (rsum Tb V) <= tcost X W (rsum Tb V))%coqR].
Proof.
move=> pT V0 ina fX uW reg; have pR n t b : pd (rsum Tb V n t b) by exact: rsum_pd.
rewrite /t_vcd reconE // -lt0n T0 covs_unitP // t_pi_okP /=.
have [W' [e u le]] := vcd_descent pR (t_pi_gt0 X W (rsum Tb V)) fX uW reg.
by exists W'; split=> //; apply: t_majorise.
Qed.
End Steps.
