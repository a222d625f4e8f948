(** C61: the vector-wise coordinate descent of IPSDTA. *)
From Coq Require Import Reals Lra.
From mathcomp Require Import all_ssreflect all_algebra.
From mathcomp.algebra_tactics Require Import ring.
From Verif Require Import RStruct MxC CxR NpLin RealLemmas EighProofs NmfMM SpatialIP SpatialIPProofs Vcd VcdProofs.
Import Order.TTheory GRing.Theory Num.Theory.
Set Implicit Arguments.
Unset Strict Implicit.
Unset Printing Implicit Defensive.
Local Open Scope ring_scope.

(** ** Optimality of one coordinate *)
(** With the default [singular_fn] the step replaces row [n] of neighbour [i] by a global minimiser
    of the cost over all rows that keep the filter invertible. *)
Theorem C61_optimal N D (RXX : vcov N D) (W : vfilter N D) i n :
  herm_cov RXX -> pd_cov RXX -> W i \in unitmx ->
  exists W', [/\ vcd_step sing_default RXX W i n = Some W', W' i \in unitmx,
    exists r, W' = set_filter W i n r &
    forall r, set_filter W i n r i \in unitmx -> (vcd_cost RXX W' <= vcd_cost RXX (set_filter W i n r))%coqR].
Proof.
move=> hR pR uW; have hs : sing_default (vxih RXX W i n) <-> vxih RXX W i n = 0 by split=> /eqP.
have [W' [e u opt]] := vcd_step_opt hR (pR i n) uW hs; exists W'; split=> //.
  move: e; rewrite vcd_stepE //; case: (vcd_coeff _ _ _) => //= k [<-]; by eexists.
move=> r; rewrite /set_filter eqxx unitmxE det_setrow // unitrM unitfE => /andP[hr _].
by have := opt r hr; rewrite /set_filter.
Qed.

(** ** The sweep *)
(** With the default [singular_fn] a sweep over all neighbours and sources is defined, keeps the
    filters invertible and does not increase the cost. *)
Theorem C61_monotone N D (RXX : vcov N D) (W : vfilter N D) :
  herm_cov RXX -> pd_cov RXX -> (forall i, W i \in unitmx) ->
  exists W', [/\ vcd sing_default RXX W = Some W', forall i, W' i \in unitmx &
    (vcd_cost RXX W' <= vcd_cost RXX W)%coqR].
Proof.
move=> hR pR uW; rewrite vcd_seqE; apply: vcd_seq_mono => //; exact: vcd_regular_default.
Qed.

(** As called by GaussIPSDTA and TIPSDTA ([|xi_hat| < flooring_fn(0)]) the same holds as long as
    no [xi_hat] met in the sweep falls into the open interval between 0 and the floor.  Missing
    for the full claim: runs with [0 < |xi_hat| < flooring_fn(0)], for which it is false
    ([C61_floor_refuted]). *)
Theorem C61_floor_partial N D (RXX : vcov N D) (W : vfilter N D) fl :
  herm_cov RXX -> pd_cov RXX -> (forall i, W i \in unitmx) ->
  vcd_regular (sing_floor fl) RXX (vpairs N D) W ->
  exists W', [/\ vcd (sing_floor fl) RXX W = Some W', forall i, W' i \in unitmx &
    (vcd_cost RXX W' <= vcd_cost RXX W)%coqR].
Proof. by move=> hR pR uW reg; rewrite vcd_seqE; apply: vcd_seq_mono. Qed.

(** Whatever the data, when the neighbours are not coupled (blocks of one bin in particular). *)
Theorem C61_uncoupled N D (RXX : vcov N D) (W : vfilter N D) fl : (0 < fl 0%coqR)%coqR ->
  herm_cov RXX -> pd_cov RXX -> (forall i, W i \in unitmx) ->
  (forall i j n, j != i -> RXX i j n = 0) ->
  exists W', [/\ vcd (sing_floor fl) RXX W = Some W', forall i, W' i \in unitmx &
    (vcd_cost RXX W' <= vcd_cost RXX W)%coqR].
Proof. by move=> f0 hR pR uW h; apply: C61_floor_partial => //; exact: vcd_regular_diag. Qed.

(** Then the sweep is iterative projection in every bin: the filters returned are those of IP1. *)
Theorem C61_ip1 N (RXX : vcov N 1) (W : vfilter N 1) fl : (0 < fl 0%coqR)%coqR -> pd_cov RXX -> W 0 \in unitmx ->
  omap (fun V => V 0) (vcd (sing_floor fl) RXX W) = ip1 identity_fl (fun n => RXX 0 0 n) (W 0).
Proof.
move=> f0 pR; rewrite /vcd /ip1 /ip1_loop enum_ordSl enum_ord0 /=.
elim: (enum 'I_N) W => [|n s IH] W uW //=.
have z : vxih RXX W 0 n = 0 by apply: vxih_diag => j; rewrite ord1.
have x0 : (0 < vxi RXX W 0%R n)%coqR by exact: vxi_gt0.
have s0 := sqrt_lt_R0 _ x0.
rewrite vcd_stepE // z /vcd_coeff.
have -> : (vxi RXX W 0 n == 0) = false by apply/eqP; rewrite -R0E; lra.
have -> : sing_floor fl 0 by apply/RltbP; rewrite cabs0.
rewrite ip1_stepE //; last by apply/eqP; apply: Rgt_not_eq; exact: s0.
rewrite /identity_fl -/(vxi RXX W 0 n).
have e : invmx (RXX 0 0 n) *m vgamma RXX W 0 n = 0.
  rewrite /vgamma big1 ?mulmx0 // => j; by rewrite ord1.
rewrite /= e subr0 ctrZ c_conj cRdiv; last exact: (Rgt_not_eq _ _ s0).
rewrite cR1 mul1r IH; first by rewrite /set_filter eqxx.
by rewrite /set_filter eqxx; apply: new_unit.
Qed.

(** ** The floor of IPSDTA *)
(** The property expected of the call made by IPSDTA: never increases the cost. *)
Lemma ln_one_sub x : (0 < x < 1)%coqR -> (2 * x + x ^ 2 < - 2 * ln (1 - x))%coqR.
Proof.
move=> [x0 x1].
have d t : (0 <= t <= x)%coqR -> derivable_pt_lim (fun t => (- 2 * ln (1 - t) - 2 * t - t ^ 2)%coqR) t (2 / (1 - t) - 2 - 2 * t)%coqR.
  move=> ht.
  have -> : (2 / (1 - t) - 2 - 2 * t = - 2 * (/ (1 - t) * (0 - 1)) - 2 * 1 - INR 2 * t ^ 1)%coqR.
    by rewrite /=; Rfield; lra.
  apply: derivable_pt_lim_minus; last exact: derivable_pt_lim_pow.
  apply: derivable_pt_lim_minus; last by apply: derivable_pt_lim_scal; exact: derivable_pt_lim_id.
  apply: derivable_pt_lim_scal.
  apply: (derivable_pt_lim_comp (fun t => (1 - t)%coqR) ln).
    apply: derivable_pt_lim_minus; [exact: derivable_pt_lim_const|exact: derivable_pt_lim_id].
  by apply: derivable_pt_lim_ln; lra.
have [t [e ht]] := MVT_cor2 _ _ _ _ x0 d.
move: e; rewrite Rminus_0_r ln_1.
have p : (0 < 2 / (1 - t) - 2 - 2 * t)%coqR.
  have -> : (2 / (1 - t) - 2 - 2 * t = 2 * t ^ 2 / (1 - t))%coqR by Rfield; lra.
  apply: Rdiv_lt_0_compat; last lra.
  by have := pow_lt t 2 ltac:(lra); lra.
have := Rmult_lt_0_compat _ _ p x0.
set y := (_ * (x - 0))%coqR => hp; rewrite /y in hp *; lra.
Qed.

Section Witness.
Variable g : R.
Hypothesis g01 : (0 < g <= 1 / 2)%coqR.

(** two coupled bins, one source *)
Definition wRXX : vcov 1 2 := fun i j _ => if i == j then 1%:M else (c g)%:M.
Definition wW (w : 'I_2 -> R) : vfilter 1 2 := fun j => (c (w j))%:M.
Definition oth (i : 'I_2) : 'I_2 := if i == 0 then 1 else 0.

Lemma wherm : herm_cov wRXX.
Proof. by move=> i j n; rewrite /wRXX [j == i]eq_sym; case: ifP => _; rewrite ctr_scalar ?conjC1 ?c_conj. Qed.
Lemma wpd : pd_cov wRXX.
Proof. by move=> i n; rewrite /wRXX eqxx; exact: pd1. Qed.

Lemma row_scalar1 (a : Cx) (n : 'I_1) : row n (a%:M : 'M[Cx]_1) = a%:M.
Proof. by apply/matrixP => i j; rewrite !mxE !ord1. Qed.
Lemma delta1 (n : 'I_1) : (delta_mx n 0 : 'cV[Cx]_1) = 1%:M.
Proof. by apply/matrixP => i j; rewrite !mxE !ord1. Qed.
Lemma wgamma w i n : vgamma wRXX (wW w) i n = (c (g * w (oth i))%coqR)%:M.
Proof.
rewrite /vgamma (bigD1 (oth i)) /=; last by case: (ord2P i) => ->.
rewrite big1; last by move=> j; case: (ord2P j) => ->; case: (ord2P i) => ->.
rewrite addr0 /wRXX /wW row_scalar1 ctr_scalar c_conj.
have -> : (i == oth i) = false by case: (ord2P i) => ->.
by rewrite -scalar_mxM cRM.
Qed.

Lemma wunit w i : w i <> 0%coqR -> wW w i \in unitmx.
Proof. by move=> h; rewrite /wW unitmxE det_scalar1 unitfE c_neq0. Qed.
Lemma winv w i : w i <> 0%coqR -> invmx (wW w i) = (c (/ w i)%coqR)%:M.
Proof. by move=> h; rewrite /wW invmx_scalar cRV. Qed.
Lemma form1s (x y : Cx) : form 1%:M (x%:M : 'cV[Cx]_1) (y%:M) = x^* * y.
Proof. by rewrite /form mulmx1 ctr_scalar -scalar_mxM mxE eqxx mulr1n. Qed.

Lemma wxi w i n : w i <> 0%coqR -> vxi wRXX (wW w) i n = (/ (w i) ^ 2)%coqR.
Proof.
move=> h; rewrite /vxi /ipq /wRXX eqxx invmx1 winv // delta1 mulmx1 form1s c_conj -cRM rec.
by Rfield.
Qed.
Lemma wxih w i n : w i <> 0%coqR -> vxih wRXX (wW w) i n = c (g * w (oth i) / w i)%coqR.
Proof.
move=> h; rewrite /vxih wgamma /wRXX eqxx invmx1 winv // delta1 !mul1mx mulmx1 form1s c_conj -cRM.
by congr c; rewrite /Rdiv Rmult_comm.
Qed.

(** the singular branch *)
Lemma wstep w i n fl : (0 < w i)%coqR -> (0 < w (oth i))%coqR -> (g * w (oth i) / w i < fl 0)%coqR ->
  vcd_step (sing_floor fl) wRXX (wW w) i n =
  Some (wW (fun j => if j == i then (1 - g * w (oth i))%coqR else w j)).
Proof.
move=> wi wo hs; have wn : w i <> 0%coqR by lra.
have h0 : (0 < g * w (oth i) / w i)%coqR.
  by apply: Rdiv_lt_0_compat => //; apply: Rmult_lt_0_compat => //; lra.
rewrite vcd_stepE; [|exact: wpd|exact: wunit].
rewrite wxi // wxih // /vcd_coeff.
have w2 : (0 < (w i) ^ 2)%coqR by exact: pow_lt.
have -> : ((/ w i ^ 2)%coqR == 0) = false by apply/eqP; apply: Rgt_not_eq; exact: Rinv_0_lt_compat.
have -> : sing_floor fl (c (g * w (oth i) / w i)%coqR).
  by apply/RltbP; rewrite cabs_c Rabs_pos_eq //; lra.
have -> : (1 / R_sqrt.sqrt (/ w i ^ 2) = w i)%coqR.
  rewrite (_ : (/ w i ^ 2 = (/ w i) ^ 2)%coqR); last by Rfield.
  by rewrite sqrt_pow2; [Rfield|apply: Rlt_le; exact: Rinv_0_lt_compat].
rewrite wgamma /wRXX eqxx invmx1 !mul1mx winv // delta1 mulmx1 [omap _ _]/= scale_scalar_mx -cRM.
have -> : (w i * / w i = 1)%coqR by Rfield.
rewrite -(raddfB (@scalar_mx_additive _ 1)) -cRB ctr_scalar c_conj; congr Some.
apply: FunctionalExtensionality.functional_extensionality => j; rewrite /set_filter /wW.
case: eqP => [->|//]; apply/matrixP => a b; by rewrite !mxE !ord1.
Qed.

Lemma wcost w : (forall i, 0 < w i)%coqR ->
  vcd_cost wRXX (wW w) = (w 0%R ^ 2 + w 1%R ^ 2 + 2 * g * w 0%R * w 1%R - 2 * ln (w 0%R) - 2 * ln (w 1%R))%coqR.
Proof.
move=> h; rewrite /vcd_cost big_ord1 !sum2 /wW !row_scalar1 !ctr_scalar !c_conj /wRXX /=.
rewrite !mulmx1 -!scalar_mxM !mxE !eqxx !mulr1n -!cM !rec !det_scalar1 !cabs_c.
rewrite !Rabs_pos_eq; try exact: Rlt_le.
move: (h 0) (h 1); move: (w 0) (w 1) => x y _ _; toR; lra.
Qed.

Lemma wincrease eps : (g < eps)%coqR -> exists W',
  [/\ vcd (sing_floor (max_flooring eps)) wRXX (wW (fun _ => 1%coqR)) = Some W',
      forall i, W' i \in unitmx & (vcd_cost wRXX (wW (fun _ => 1%coqR)) < vcd_cost wRXX W')%coqR].
Proof.
move=> ge; have e0 : max_flooring eps 0 = eps by rewrite /max_flooring Rmax_right //; lra.
pose w1 : 'I_2 -> R := fun j => if j == 0 then (1 - g * 1)%coqR else 1%coqR.
pose w2 : 'I_2 -> R := fun j => if j == 1 then (1 - g * w1 (oth 1%R))%coqR else w1 j.
have s1 : vcd_step (sing_floor (max_flooring eps)) wRXX (wW (fun _ => 1%coqR)) 0 0 = Some (wW w1).
  by rewrite wstep //; rewrite ?e0 /=; lra.
have p1 j : (0 < w1 j)%coqR by rewrite /w1; case: eqP => _; lra.
have p2 j : (0 < w2 j)%coqR by rewrite /w2 /w1 /=; case: eqP => _; [nra|exact: p1].
have s2 : vcd_step (sing_floor (max_flooring eps)) wRXX (wW w1) 1 0 = Some (wW w2).
  by rewrite wstep //; rewrite ?e0 /w1 /=; nra.
exists (wW w2); split.
- rewrite vcd_seqE /vpairs !enum_ordSl !enum_ord0 /= (_ : ord0 = 0) // (_ : lift 0 0 = 1 :> 'I_2); last exact/val_inj.
  by rewrite s1 s2.
- by move=> i; apply: wunit; have := p2 i; lra.
- rewrite !wcost //; last by move=> _; lra.
  have -> : w2 0 = (1 - g)%coqR by rewrite /w2 /w1 /=; lra.
  have -> : w2 1 = (1 - g * (1 - g))%coqR by rewrite /w2 /w1 /=; congr (1 - g * _)%coqR; lra.
  rewrite ln_1.
  have l1 := ln_one_sub (x := g) ltac:(lra).
  have l2 := ln_one_sub (x := (g * (1 - g))%coqR) ltac:(nra).
  move: l1 l2; set a := ln _; set b := ln _ => l1 l2; nra.
Qed.
End Witness.

(** For every positive floor the sweep of IPSDTA increases the cost for some positive definite
    Hermitian data and an invertible filter. *)
Theorem C61_floor_refuted eps : (0 < eps)%coqR ->
  exists (RXX : vcov 1 2) W W', [/\ herm_cov RXX, pd_cov RXX, forall i, W i \in unitmx,
    vcd (sing_floor (max_flooring eps)) RXX W = Some W' & (vcd_cost RXX W < vcd_cost RXX W')%coqR].
Proof.
move=> e0; pose g := Rmin (eps / 2) (1 / 2).
have g0 : (0 < g <= 1 / 2)%coqR by split; [apply: Rmin_glb_lt; lra|exact: Rmin_r].
have ge : (g < eps)%coqR by have := Rmin_l (eps / 2) (1 / 2); rewrite -/g; lra.
have [W' [e u lt]] := wincrease g0 ge.
exists (wRXX g), (wW (fun _ => 1%coqR)), W'; split=> //.
- exact: wherm.
- exact: wpd.
- by move=> i; apply: wunit; lra.
Qed.

(** Without a floor ([flooring_fn=None]) [|xi_hat| < 0] never holds, and the sweep divides by zero
    as soon as a bin is not coupled to the others: with blocks of one bin, always. *)
Theorem C61_no_flooring_refuted N D (RXX : vcov N.+1 D.+1) (W : vfilter N.+1 D.+1) :
  pd_cov RXX -> (forall i, W i \in unitmx) -> (forall j, j != 0 -> RXX 0 j 0 = 0) ->
  vcd (sing_floor identity_fl) RXX W = None.
Proof.
move=> pR uW h; rewrite vcd_seqE /vpairs !enum_ordSl /= vcd_stepE //.
rewrite (vxih_diag _ h) /vcd_coeff.
have x0 : (0 < vxi RXX W ord0 ord0)%coqR by exact: vxi_gt0.
have -> : (vxi RXX W ord0 ord0 == 0) = false by apply/eqP; rewrite -R0E; lra.
have -> : sing_floor identity_fl 0 = false by apply/RltbP; rewrite cabs0 /identity_fl; exact: Rlt_irrefl.
rewrite eqxx /=.
by set s := _ ++ _; elim: s.
Qed.
Example C61_no_flooring_instance : exists (RXX : vcov 1 1) W, [/\ pd_cov RXX, forall i, W i \in unitmx &
   vcd (sing_floor identity_fl) RXX W = None].
Proof.
exists (fun _ _ _ => 1%:M), (fun _ => 1%:M); split=> [i n|i|]; [exact: pd1|exact: unitmx1|].
by apply: C61_no_flooring_refuted => [i n|i|j]; [exact: pd1|exact: unitmx1|rewrite ord1].
Qed.

(** the hypotheses of the positive theorems hold for coupled data as well *)
Example C61_instance : exists W', [/\ vcd sing_default (wRXX (1 / 4)%coqR) (wW (fun _ => 1%coqR)) = Some W',
   forall i, W' i \in unitmx & (vcd_cost (wRXX (1 / 4)%coqR) W' <= vcd_cost (wRXX (1 / 4)%coqR) (wW (fun _ => 1%coqR)))%coqR].
Proof. by apply: C61_monotone; [exact: wherm|exact: wpd|move=> i; apply: wunit; lra]. Qed.

Print Assumptions C61_optimal.
Print Assumptions C61_monotone.
Print Assumptions C61_floor_partial.
Print Assumptions C61_uncoupled.
Print Assumptions C61_ip1.
Print Assumptions C61_floor_refuted.
Print Assumptions C61_no_flooring_refuted.
