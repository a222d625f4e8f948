(** Proofs about the vector-wise coordinate descent. *)
From Coq Require Import Reals Lra.
From mathcomp Require Import all_ssreflect all_algebra.
From mathcomp.algebra_tactics Require Import ring.
From Verif Require Import RStruct MxC CxR NpLin RealLemmas NmfMM SpatialIP SpatialIPProofs Vcd.
Import Order.TTheory GRing.Theory Num.Theory.
Set Implicit Arguments.
Unset Strict Implicit.
Unset Printing Implicit Defensive.
Local Open Scope ring_scope.

(** ** One real variable *)
Lemma ln_mono x y : (0 < x)%coqR -> (x <= y)%coqR -> (ln x <= ln y)%coqR.
Proof. by move=> x0 [/(ln_increasing _ _ x0)|->]; lra. Qed.
Lemma vcd_real_opt xi h s s' : (0 < xi)%coqR -> (0 <= h)%coqR -> (0 < s)%coqR -> (s * (s + h) = xi)%coqR ->
  (0 <= s')%coqR -> (0 < s' + h)%coqR ->
  (s ^ 2 / xi - 2 * ln (s + h) <= s' ^ 2 / xi - 2 * ln (s' + h))%coqR.
Proof.
move=> x0 h0 s0 e s1 p1.
have p0 : (0 < s + h)%coqR by lra.
have l := ln_le_sub1 _ (Rdiv_lt_0_compat _ _ p1 p0).
move: l; rewrite /Rdiv ln_mult //; last exact: Rinv_0_lt_compat.
rewrite ln_Rinv // => l.
have e1 : ((s' + h) * / (s + h) - 1 = (s' - s) * s / xi)%coqR by rewrite -e; Rfield; lra.
have e2 : (s' ^ 2 / xi - s ^ 2 / xi - 2 * ((s' - s) * s / xi) = (s' - s) ^ 2 / xi)%coqR by Rfield; lra.
have : (0 <= (s' - s) ^ 2 / xi)%coqR.
  by apply: Rmult_le_pos; [exact: pow2_ge_0|apply: Rlt_le; exact: Rinv_0_lt_compat].
by rewrite /Rdiv in e1 e2 *; lra.
Qed.

(** the positive root of [s (s + h) = xi] *)
Definition vcd_s (xi h : R) : R := ((R_sqrt.sqrt (h ^ 2 + 4 * xi) - h) / 2)%coqR.
Lemma vcd_s_root xi h : (0 < xi)%coqR -> (0 <= h)%coqR ->
  (0 < vcd_s xi h)%coqR /\ (vcd_s xi h * (vcd_s xi h + h) = xi)%coqR.
Proof.
move=> x0 h0; rewrite /vcd_s.
have q : (h ^ 2 < h ^ 2 + 4 * xi)%coqR by lra.
have h2 := pow2_ge_0 h.
have hs := sqrt_lt_1_alt _ _ (conj h2 q).
rewrite sqrt_pow2 // in hs.
have sq : (R_sqrt.sqrt (h ^ 2 + 4 * xi) * R_sqrt.sqrt (h ^ 2 + 4 * xi) = h ^ 2 + 4 * xi)%coqR by apply: sqrt_sqrt; lra.
set r := R_sqrt.sqrt _ in hs sq *.
split; first lra.
have -> : ((r - h) / 2 * ((r - h) / 2 + h) = (r * r - h ^ 2) / 4)%coqR by Rfield.
by rewrite sq; Rfield.
Qed.
Lemma vcd_s_scaled xi h : (0 < xi)%coqR -> (0 < h)%coqR ->
  (vcd_s xi h = h / 2 * (R_sqrt.sqrt (1 + 4 * xi / h ^ 2) - 1))%coqR.
Proof.
move=> x0 h0; have h2 : (0 < h ^ 2)%coqR by apply: pow_lt.
have e : (h ^ 2 + 4 * xi = h ^ 2 * (1 + 4 * xi / h ^ 2))%coqR by Rfield; lra.
have p : (0 <= 1 + 4 * xi / h ^ 2)%coqR.
  by have := Rdiv_lt_0_compat (4 * xi) _ ltac:(lra) h2; lra.
rewrite /vcd_s e sqrt_mult //; last lra.
by rewrite sqrt_pow2; [Rfield|lra].
Qed.

(** ** The cost of one block *)
Section Cost.
Variables N D : nat.
Implicit Types (RXX : vcov N D) (W : vfilter N D).

(** the part of the IPSDTA cost that depends on the filters of one block: the quadratic form of
    source [n] couples the filters of all neighbours, [sum_ij w_in^H RXX_ijn w_jn], and the
    log-determinant is that of every neighbour *)
Definition vcd_cost RXX W : R :=
  ((\sum_n \sum_i \sum_j re ((row n (W i) *m RXX i j n *m (row n (W j))^H) 0 0))
  - \sum_i (2 * ln (cabs (\det (W i))))%coqR)%R.

Definition herm_cov RXX := forall i j n, (RXX i j n)^H = RXX j i n.
Definition pd_cov RXX := forall i n, pd (RXX i i n).

Definition vgamma RXX W i n : 'cV[Cx]_N := \sum_(j | j != i) RXX i j n *m (row n (W j))^H.

Lemma gammaE RXX W i n : \sum_j (1 - (i == j)%:R) *: (RXX i j n *m (row n (W j))^H) = vgamma RXX W i n.
Proof.
rewrite /vgamma (bigD1 i) //= eqxx subrr scale0r add0r; apply: eq_bigr => j ji.
by rewrite eq_sym (negbTE ji) subr0 scale1r.
Qed.

Lemma re_conj_pair (z z' : Cx) : z' = z^* -> re z + re z' = (2 * re z)%coqR.
Proof. by move=> ->; rewrite re_conj; toR; lra. Qed.

(** the terms of the cost that involve the row [(i, n)] *)
Definition vrest RXX W i n : R :=
  ((\sum_(m | m != n) \sum_k \sum_j re ((row m (W k) *m RXX k j m *m (row m (W j))^H) 0 0))
  + (\sum_(k | k != i) \sum_(j | j != i) re ((row n (W k) *m RXX k j n *m (row n (W j))^H) 0 0))
  - (\sum_(k | k != i) (2 * ln (cabs (\det (W k))))%coqR))%R.

Lemma vcd_cost_set RXX W i n r : herm_cov RXX -> W i \in unitmx -> (r *m invmx (W i)) 0 n != 0 ->
  vcd_cost RXX (set_filter W i n r) =
  vrest RXX W i n + re (form (RXX i i n) r^H r^H) + (2 * re ((r *m vgamma RXX W i n) 0%R 0%R))%coqR
  - (2 * ln (cabs ((r *m invmx (W i)) 0%R n)) + 2 * ln (cabs (\det (W i))))%coqR.
Proof.
move=> hR uW a0; rewrite /vcd_cost /vrest.
have rw j m : row m (set_filter W i n r j) = if (j == i) && (m == n) then r else row m (W j).
  rewrite /set_filter; case: eqP => [->|//]; case: eqP => [->|/eqP mn] /=; first exact: row_setrow.
  by rewrite row_setrow_neq.
rewrite (bigD1 n) //= [\sum_k (2 * ln (cabs (\det (set_filter W i n r k))))%coqR](bigD1 i) //=.
have -> : \sum_(m | m != n) \sum_k \sum_j re ((row m (set_filter W i n r k) *m RXX k j m *m (row m (set_filter W i n r j))^H) 0 0)
   = \sum_(m | m != n) \sum_k \sum_j re ((row m (W k) *m RXX k j m *m (row m (W j))^H) 0 0).
  apply: eq_bigr => m mn; apply: eq_bigr => k _; apply: eq_bigr => j _.
  by rewrite !rw (negbTE mn) !andbF.
have -> : \sum_(k | k != i) (2 * ln (cabs (\det (set_filter W i n r k))))%coqR = \sum_(k | k != i) (2 * ln (cabs (\det (W k))))%coqR.
  by apply: eq_bigr => k ki; rewrite /set_filter (negbTE ki).
have -> : (2 * ln (cabs (\det (set_filter W i n r i))))%coqR = (2 * ln (cabs ((r *m invmx (W i)) 0%R n)) + 2 * ln (cabs (\det (W i))))%coqR.
  rewrite /set_filter eqxx det_setrow // cabsM ln_mult; first by rewrite Rmult_plus_distr_l.
  - exact: cabs_gt0.
  - by apply: cabs_gt0; rewrite -unitfE -unitmxE.
have -> : \sum_k \sum_j re ((row n (set_filter W i n r k) *m RXX k j n *m (row n (set_filter W i n r j))^H) 0 0)
  = re (form (RXX i i n) r^H r^H) + (2 * re ((r *m vgamma RXX W i n) 0%R 0%R))%coqR
    + \sum_(k | k != i) \sum_(j | j != i) re ((row n (W k) *m RXX k j n *m (row n (W j))^H) 0 0).
  rewrite (bigD1 i) //= (bigD1 i) //= !rw !eqxx /=.
  have -> : (r *m RXX i i n *m r^H) 0 0 = form (RXX i i n) r^H r^H by rewrite /form ctrK.
  rewrite -!addrA; congr (_ + _).
  have e1 : \sum_(j | j != i) re ((r *m RXX i j n *m (row n (set_filter W i n r j))^H) 0 0) = re ((r *m vgamma RXX W i n) 0 0).
    rewrite /vgamma mulmx_sumr summxE re_sum; apply: eq_bigr => j ji.
    by rewrite rw (negbTE ji) /= mulmxA.
  rewrite e1.
  have e2 : \sum_(k | k != i) \sum_j re ((row n (set_filter W i n r k) *m RXX k j n *m (row n (set_filter W i n r j))^H) 0 0)
     = re ((r *m vgamma RXX W i n) 0 0) + \sum_(k | k != i) \sum_(j | j != i) re ((row n (W k) *m RXX k j n *m (row n (W j))^H) 0 0).
    rewrite -e1 -big_split /=; apply: eq_bigr => k ki.
    rewrite (bigD1 i) //= !rw !eqxx (negbTE ki) /=; congr (_ + _).
      rewrite -re_conj; congr re.
      transitivity (((row n (W k) *m RXX k i n *m r^H)^H) 0 0); first by rewrite ctrE.
      by rewrite !ctrM ctrK hR mulmxA.
    by apply: eq_bigr => j ji; rewrite rw (negbTE ji).
  rewrite e2 addrA; congr (_ + _).
  by move: (re ((r *m vgamma RXX W i n) 0 0)) => z; toR; lra.
set s1 := \sum_(m | m != n) _; set s2 := \sum_(k | k != i) \sum_(j | j != i) _.
set s3 := \sum_(k | k != i) _.
clearbody s1 s2 s3.
move: (ln _) (ln _) (re _) (re _) => *; toR; lra.
Qed.

Section Step.
Variables (RXX : vcov N D) (W : vfilter N D) (i : 'I_D) (n : 'I_N).
Hypotheses (hR : herm_cov RXX) (pU : pd (RXX i i n)) (uW : W i \in unitmx).
Let U := RXX i i n.
Let a : 'cV[Cx]_N := invmx (W i) *m delta_mx n 0.
Let g := vgamma RXX W i n.
Let eta : 'cV[Cx]_N := invmx U *m a.
Let etah : 'cV[Cx]_N := invmx U *m g.
Definition vxi : R := ipq (RXX i i n) (W i) n.
Definition vxih : Cx := form (RXX i i n) (invmx (RXX i i n) *m (invmx (W i) *m delta_mx n 0)) (invmx (RXX i i n) *m vgamma RXX W i n).

Lemma vxi_gt0 : (0 < vxi)%coqR. Proof. exact: ipq_gt0. Qed.

Lemma U_herm : U^H = U. Proof. by case: pU. Qed.
Lemma eta_a : form U eta eta = c vxi. Proof. exact: wUw. Qed.

(** what the step computes *)
Lemma vcd_stepE sing : vcd_step sing RXX W i n =
  omap (fun k => set_filter W i n (k *: eta - etah)^H) (vcd_coeff sing vxi vxih).
Proof.
have uU := pd_unit pU.
rewrite /vcd_step /solve gammaE unitmx_mul uW uU /=.
have -> : invmx (W i *m RXX i i n) *m delta_mx n 0 = eta :> 'cV_N by rewrite invmx_mul // -mulmxA.
rewrite -/U -/g -/etah -[(eta^H *m U *m eta) 0 0]/(form U eta eta) eta_a rec.
rewrite Rmax_left; last exact: Rlt_le vxi_gt0.
rewrite -[(eta^H *m U *m etah) 0 0]/(vxih).
by case: (vcd_coeff _ _ _).
Qed.

(** value of the cost as a function of [v = w + eta_hat] *)
Let cst : R := (vrest RXX W i n - re (form U etah etah) - 2 * ln (cabs (\det (W i))))%coqR.

Lemma row_a (r : 'rV[Cx]_N) : (r *m invmx (W i)) 0 n = form 1%:M r^H a.
Proof. by rewrite /form ctrK mulmx1 /a mulmxA -colE [in RHS]mxE. Qed.
Lemma etah_a : form 1%:M etah a = vxih^*.
Proof.
have uU := pd_unit pU; rewrite /vxih form_conj U_herm -/eta -/etah.
by rewrite /form mulmx1 /eta -[RHS]/((etah^H *m U *m (invmx U *m a)) 0 0) !mulmxA mulmxK.
Qed.

Lemma vcd_value (v : 'cV[Cx]_N) : form 1%:M v a - vxih^* != 0 ->
  vcd_cost RXX (set_filter W i n (v - etah)^H) =
  (cst + re (form U v v) - 2 * ln (cabs (form 1%:M v a - vxih^*)))%coqR.
Proof.
move=> h; have ea : ((v - etah)^H *m invmx (W i)) 0 n = form 1%:M v a - vxih^*.
  by rewrite row_a ctrK formDl formNl etah_a.
rewrite vcd_cost_set ?ea // ctrK -/U -/g.
have uU := pd_unit pU.
have eg : U *m etah = g by rewrite /etah mulKVmx.
have e1 : ((v - etah)^H *m g) 0 0 = form U v etah - form U etah etah.
  by rewrite -eg mulmxA -[_ 0 0]/(form U (v - etah) etah) formDl formNl.
rewrite e1 formDl !formDr !formNl !formNr.
have e2 : re (form U etah v) = re (form U v etah) by rewrite -re_conj form_conj U_herm.
rewrite opprK /cst !reD !reN e2.
move: (re (form U v v)) (re (form U v etah)) (re (form U etah etah)) (vrest RXX W i n) => x y z t.
by toR; lra.
Qed.

(** lower bound for every row, from the Cauchy-Schwarz inequality *)
Lemma vcd_lower (v : 'cV[Cx]_N) : form 1%:M v a - vxih^* != 0 ->
  exists s', [/\ (0 <= s')%coqR, (0 < s' + cabs vxih)%coqR &
   (cst + s' ^ 2 / vxi - 2 * ln (s' + cabs vxih) <= vcd_cost RXX (set_filter W i n (v - etah)^H))%coqR].
Proof.
move=> h; exists (cabs (form 1%:M v a)).
have x0 := vxi_gt0.
have tri : (cabs (form 1%:M v a - vxih^*) <= cabs (form 1%:M v a) + cabs vxih)%coqR.
  by have := cabs_triang (form 1%:M v a) (- vxih^*); rewrite cabsN cabs_conj.
have p := cabs_gt0 h.
split; [exact: cabs_ge0|by have := Rlt_le_trans _ _ _ p tri|].
rewrite vcd_value //.
have cs : (cabs (form 1%:M v a) ^ 2 <= re (form U v v) * vxi)%coqR.
  have := cauchy_schwarz_inv v a pU; have [_ pos] := pd_psd pU; have [_ posV] := pd_psd (pd_inv pU).
  have /ge0_cre[-> _] := pos v; have /ge0_cre[-> _] := posV a.
  rewrite cabsE -cX -cM cle => /RleP; rewrite RpowE RmulE -/U; apply.
have q : (cabs (form 1%:M v a) ^ 2 / vxi <= re (form U v v))%coqR.
  apply: (Rmult_le_reg_r vxi) => //.
  by have -> : (cabs (form 1%:M v a) ^ 2 / vxi * vxi = cabs (form 1%:M v a) ^ 2)%coqR by Rfield; lra.
have l := ln_mono p tri.
by move: q l; set s := cabs (form _ _ _); set z := cabs vxih; set u := re _; set m := cabs _; lra.
Qed.

(** the optimum is attained as soon as the coefficient has the right modulus and phase *)
Lemma vcd_attained k s : (0 < s)%coqR -> (s * (s + cabs vxih) = vxi)%coqR ->
  cabs k = (s / vxi)%coqR -> cabs (k^* * c vxi - vxih^*) = (s + cabs vxih)%coqR ->
  vcd_cost RXX (set_filter W i n (k *: eta - etah)^H) = (cst + s ^ 2 / vxi - 2 * ln (s + cabs vxih))%coqR
  /\ set_filter W i n (k *: eta - etah)^H i \in unitmx.
Proof.
move=> s0 root ck cv; have x0 := vxi_gt0; have uU := pd_unit pU.
have ea : form 1%:M eta a = c vxi.
  have -> : form 1%:M eta a = form U eta eta; last exact: eta_a.
  by rewrite /form mulmx1 {3}/eta !mulmxA mulmxK.
have e1 : form 1%:M (k *: eta) a = k^* * c vxi by rewrite formZl ea.
have n0 : form 1%:M (k *: eta) a - vxih^* != 0.
  rewrite -cabs_eq0 e1 cv; apply/eqP; rewrite -R0E => h; have := cabs_ge0 vxih; lra.
split.
  rewrite vcd_value // e1 cv formZl formZr eta_a.
  have -> : re (k^* * (k * c vxi)) = (s ^ 2 / vxi)%coqR.
    rewrite mulrA -[k^* * k]mulrC -cabs_sqr -cM rec ck -RpowE -RmulE.
    by Rfield; lra.
  by [].
rewrite /set_filter eqxx unitmxE det_setrow // unitrM -unitmxE uW andbT unitfE.
by rewrite row_a ctrK formDl formNl etah_a.
Qed.

Lemma vcd_coeff_singular : vxih = 0 -> let k := c (1 / R_sqrt.sqrt vxi)%coqR in
  let s := R_sqrt.sqrt vxi in
  [/\ (0 < s)%coqR, (s * (s + cabs vxih) = vxi)%coqR, cabs k = (s / vxi)%coqR &
      cabs (k^* * c vxi - vxih^*) = (s + cabs vxih)%coqR].
Proof.
move=> z; have x0 := vxi_gt0; rewrite z cabs0 /=.
have s0 := sqrt_lt_R0 _ x0; have sq := sqrt_sqrt _ (Rlt_le _ _ x0).
set s := R_sqrt.sqrt vxi in s0 sq *.
have k0 : (0 < 1 / s)%coqR by apply: Rdiv_lt_0_compat; lra.
have e : (1 / s * vxi = s)%coqR by rewrite -sq; Rfield; lra.
split=> //.
- by rewrite -R0E Rplus_0_r.
- by rewrite cabs_c Rabs_pos_eq; [rewrite -sq; Rfield; lra|lra].
- rewrite conjC0 subr0 c_conj -cRM e cabs_c Rabs_pos_eq; last lra.
  by rewrite -R0E Rplus_0_r.
Qed.

Lemma vcd_coeff_regular : vxih != 0 ->
  let k := vxih / c (2 * vxi)%coqR * c (1 - R_sqrt.sqrt (1 + 4 * vxi / cabs vxih ^ 2))%coqR in
  let s := vcd_s vxi (cabs vxih) in
  [/\ (0 < s)%coqR, (s * (s + cabs vxih) = vxi)%coqR, cabs k = (s / vxi)%coqR &
      cabs (k^* * c vxi - vxih^*) = (s + cabs vxih)%coqR].
Proof.
move=> z; have x0 := vxi_gt0; cbv zeta.
have h0 := cabs_gt0 z.
have [s0 root] := vcd_s_root x0 (cabs_ge0 vxih).
have es := vcd_s_scaled x0 h0.
set k := _ * _; set s := vcd_s _ _ in s0 root es *.
have ek : k = - (vxih * c (s / (vxi * cabs vxih))%coqR).
  have -> : (s / (vxi * cabs vxih) = - (/ (2 * vxi) * (1 - R_sqrt.sqrt (1 + 4 * vxi / cabs vxih ^ 2))))%coqR.
    by rewrite es; Rfield; split; lra.
  by rewrite /k cRN mulrN opprK [c (/ _ * _)%coqR]cRM mulrA; congr (_ * _ * _); rewrite cRV //; lra.
have p1 : (0 < s / (vxi * cabs vxih))%coqR by apply: Rdiv_lt_0_compat => //; apply: Rmult_lt_0_compat.
split=> //.
- rewrite ek cabsN cabsM cabs_c Rabs_pos_eq; last lra.
  by rewrite -RmulE; Rfield; split; lra.
- have -> : k^* * c vxi - vxih^* = - (vxih^* * c ((s + cabs vxih) / cabs vxih)%coqR).
    rewrite ek rmorphN rmorphM c_conj.
    have -> : ((s + cabs vxih) / cabs vxih = s / (vxi * cabs vxih) * vxi + 1)%coqR.
      by Rfield; split; lra.
    by rewrite [c (_ + 1)%coqR]cRD [c (_ * vxi)%coqR]cRM cR1 mulrDr mulr1 opprD mulNr mulrA.
  rewrite cabsN cabsM cabs_conj cabs_c Rabs_pos_eq.
    by rewrite -RmulE; Rfield; lra.
  by apply: Rlt_le; apply: Rdiv_lt_0_compat; lra.
Qed.

(** A step that does not treat a small but non-zero [xi_hat] as zero is a global minimisation over
    the row it replaces. *)
Lemma vcd_step_opt (sing : Cx -> bool) : (sing vxih <-> vxih = 0) ->
  exists W', [/\ vcd_step sing RXX W i n = Some W', W' i \in unitmx &
    forall r, (r *m invmx (W i)) 0 n != 0 -> (vcd_cost RXX W' <= vcd_cost RXX (set_filter W i n r))%coqR].
Proof.
move=> hs; rewrite vcd_stepE /vcd_coeff.
have x0 := vxi_gt0; have xn : vxi == 0 = false by apply/eqP; rewrite -R0E; lra.
rewrite xn.
have fin k s : (0 < s)%coqR -> (s * (s + cabs vxih) = vxi)%coqR -> cabs k = (s / vxi)%coqR ->
   cabs (k^* * c vxi - vxih^*) = (s + cabs vxih)%coqR ->
   exists W', [/\ omap (fun k => set_filter W i n (k *: eta - etah)^H) (Some k) = Some W', W' i \in unitmx &
    forall r, (r *m invmx (W i)) 0 n != 0 -> (vcd_cost RXX W' <= vcd_cost RXX (set_filter W i n r))%coqR].
  move=> s0 root ck cv; have [e u] := vcd_attained s0 root ck cv.
  eexists; split; [reflexivity|exact: u|] => r hr.
  have er : r = (r^H + etah - etah)^H by rewrite addrK ctrK.
  have hv : form 1%:M (r^H + etah) a - vxih^* != 0 by rewrite formDl etah_a addrK -row_a.
  have [s' [p1 p2 lo]] := vcd_lower hv.
  rewrite er; apply: Rle_trans lo; rewrite e.
  have := vcd_real_opt x0 (cabs_ge0 vxih) s0 root p1 p2; lra.
case: ifP => hsg.
  have z : vxih = 0 by apply/hs.
  by have [s0 root ck cv] := vcd_coeff_singular z; apply: (fin _ _ s0 root ck cv).
have z : vxih != 0 by apply/eqP => z; move: hsg; rewrite (proj2 hs).
rewrite (negbTE z).
by have [s0 root ck cv] := vcd_coeff_regular z; apply: (fin _ _ s0 root ck cv).
Qed.
End Step.
End Cost.

(** ** The whole sweep *)
Section Sweep.
Variables N D : nat.
Variables (sing : Cx -> bool) (RXX : vcov N D).
Implicit Types (W : vfilter N D).

Definition vpairs : seq ('I_D * 'I_N) := [seq (i, n) | i <- enum 'I_D, n <- enum 'I_N].
Definition vcd_seq (s : seq ('I_D * 'I_N)) (o : option (vfilter N D)) : option (vfilter N D) :=
  foldl (fun o p => if o is Some V then vcd_step sing RXX V p.1 p.2 else None) o s.

Lemma vcd_seqE W : vcd sing RXX W = vcd_seq vpairs (Some W).
Proof.
rewrite /vcd /vcd_seq /vpairs; elim: (enum 'I_D) (Some W) => [|i s IH] o //=.
rewrite foldl_cat IH; congr foldl.
by elim: (enum 'I_N) o => [|n t IHt] o //=.
Qed.

(** no [xi_hat] met along the run is replaced although it is not zero, and none is left although
    it is zero *)
Fixpoint vcd_regular (s : seq ('I_D * 'I_N)) W : Prop :=
  if s is p :: s' then
    (sing (vxih RXX W p.1 p.2) <-> vxih RXX W p.1 p.2 = 0) /\
    (forall W', vcd_step sing RXX W p.1 p.2 = Some W' -> vcd_regular s' W')
  else True.

Lemma set_filter_id W i n : set_filter W i n (row n (W i)) = W.
Proof.
apply: FunctionalExtensionality.functional_extensionality => j; rewrite /set_filter.
by case: eqP => [->|//]; exact: setrow_id.
Qed.
Lemma vcd_step_other W W' i n j : vcd_step sing RXX W i n = Some W' -> j != i -> W' j = W j.
Proof.
rewrite /vcd_step; case: (solve _ _) => // eta; case: (solve _ _) => // etah.
by cbv zeta; case: (vcd_coeff _ _ _) => // k [<-] ji; rewrite /set_filter (negbTE ji).
Qed.

Lemma vcd_seq_mono s W : herm_cov RXX -> pd_cov RXX -> (forall i, W i \in unitmx) -> vcd_regular s W ->
  exists W', [/\ vcd_seq s (Some W) = Some W', forall i, W' i \in unitmx &
    (vcd_cost RXX W' <= vcd_cost RXX W)%coqR].
Proof.
move=> hR pR; elim: s W => [|[i n] s IH] W uW /=; first by exists W; split=> //; lra.
case=> hs hreg; have [V [e uV opt]] := vcd_step_opt hR (pR i n) (uW i) hs.
have uV' j : V j \in unitmx.
  by case: (eqVneq j i) => [->//|ji]; rewrite (vcd_step_other e ji).
have [W' [e' u' m']] := IH V uV' (hreg V e).
exists W'; split=> //; first by rewrite e.
have n1 : (row n (W i) *m invmx (W i)) 0 n != 0 by rewrite row_inv // oner_neq0.
by have := opt _ n1; rewrite set_filter_id; lra.
Qed.
End Sweep.

Lemma vcd_regular_default N D (RXX : vcov N D) s W : vcd_regular sing_default RXX s W.
Proof.
elim: s W => [|p s IH] W //=; split=> [|W' _]; last exact: IH.
by rewrite /sing_default; split=> /eqP.
Qed.
(** no coupling between the neighbours *)
Lemma vxih_diag N D (RXX : vcov N D) W i n : (forall j, j != i -> RXX i j n = 0) -> vxih RXX W i n = 0.
Proof.
move=> h; rewrite /vxih (_ : vgamma RXX W i n = 0) ?mulmx0 ?form0r //.
by rewrite /vgamma big1 // => j ji; rewrite h // mul0mx.
Qed.
Lemma vcd_regular_diag N D (RXX : vcov N D) fl s W : (0 < fl 0%coqR)%coqR ->
  (forall i j n, j != i -> RXX i j n = 0) -> vcd_regular (sing_floor fl) RXX s W.
Proof.
move=> f0 h; elim: s W => [|p s IH] W //=; split=> [|W' _]; last exact: IH.
rewrite vxih_diag; last by move=> j; exact: h.
by rewrite /sing_floor cabs0; split=> // _; apply/RltbP.
Qed.
