(** Proofs about the secular equation solver. *)
From Coq Require Import Reals Ranalysis5 Lra.
From mathcomp Require Import all_ssreflect all_algebra.
From mathcomp Require Import zify.
From Verif Require Import RStruct MxC CxR RealLemmas NpLin Cubic CubicProofs Lqpqm.
Set Implicit Arguments.
Unset Strict Implicit.
Unset Printing Implicit Defensive.
Local Open Scope R_scope.

(** ** Newton's method for a convex decreasing function on (m, oo) *)
Section Convex.
Variables (f df : R -> R) (m : R).
Hypothesis cvx : forall x y, m < x -> m < y -> f x + df x * (y - x) <= f y.
Hypothesis df1 : forall x, m < x -> df x <= - 1.
Hypothesis dfm : forall x y, m < x -> x <= y -> df x <= df y.

Definition nstep (x : R) : R :=
  let mu := x - f x / df x in if Rlt_dec m mu then mu else (m + x) / 2.

Lemma f_decr x y : m < x -> x <= y -> f y + (y - x) <= f x.
Proof.
move=> mx xy; have my : m < y by lra.
have := cvx my mx; have := df1 my => h1 h2.
by have : 0 <= (- 1 - df y) * (y - x); [apply: Rmult_le_pos; lra|lra].
Qed.
Lemma root_unique x y : m < x -> m < y -> f x = 0 -> f y = 0 -> x = y.
Proof.
move=> mx my fx fy; case: (Rle_or_lt x y) => h.
  by have := f_decr mx h; lra.
by have := f_decr my (Rlt_le _ _ h); lra.
Qed.
Lemma nonneg_le_root x r : m < x -> m < r -> f r = 0 -> 0 <= f x -> x <= r.
Proof.
by move=> mx mr fr fx; apply: Rnot_lt_le => h; have := f_decr mr (Rlt_le _ _ h); lra.
Qed.
Lemma quot_nonneg x : m < x -> 0 <= f x -> 0 <= - (f x / df x).
Proof.
move=> mx fx; have d := df1 mx.
have -> : - (f x / df x) = f x * / (- df x) by Rfield; lra.
by apply: Rmult_le_pos => //; left; apply: Rinv_0_lt_compat; lra.
Qed.
Lemma nstepE x : m < x -> 0 <= f x -> nstep x = x - f x / df x.
Proof.
move=> mx fx; rewrite /nstep; have := quot_nonneg mx fx.
by case: (Rlt_dec m (x - f x / df x)) => [//|] /=; lra.
Qed.
Lemma nstep_ok x : m < x -> 0 <= f x -> x <= nstep x /\ m < nstep x /\ 0 <= f (nstep x).
Proof.
move=> mx fx; rewrite nstepE //; have q := quot_nonneg mx fx.
have d := df1 mx.
split; first lra.
split; first lra.
have my : m < x - f x / df x by lra.
have := cvx mx my.
have -> : f x + df x * (x - f x / df x - x) = 0 by Rfield; lra.
by [].
Qed.
Lemma nstep_iter x k : m < x -> 0 <= f x ->
  x <= iter k nstep x /\ m < iter k nstep x /\ 0 <= f (iter k nstep x).
Proof.
move=> mx fx; elim: k => [|k [h1 [h2 h3]]] /=; first by split; [lra|].
by have [g1 g2] := nstep_ok h2 h3; split; first lra.
Qed.
Lemma nstep_mono x j k : m < x -> 0 <= f x -> (j <= k)%N -> iter j nstep x <= iter k nstep x.
Proof.
move=> mx fx jk; rewrite -(subnK jk) iterD.
by have [h1 [h2 h3]] := nstep_iter j mx fx; have [] := nstep_iter (k - j) h2 h3.
Qed.
(** error contraction *)
Lemma nstep_rate x0 r k : m < x0 -> 0 <= f x0 -> m < r -> f r = 0 ->
  0 <= r - iter k nstep x0 <= (1 - / (- df x0)) ^ k * (r - x0).
Proof.
move=> mx fx mr fr.
have le j : iter j nstep x0 <= r.
  by have [_ [h2 h3]] := nstep_iter j mx fx; apply: nonneg_le_root.
split; first by have := le k; lra.
have d0 := df1 mx; have i0 : 0 < / (- df x0) by apply: Rinv_0_lt_compat; lra.
have i1 : / (- df x0) <= 1 by rewrite -Rinv_1; apply: Rinv_le_contravar; lra.
elim: k => [|k IH]; first by rewrite /=; lra.
have [h1 [h2 h3]] := nstep_iter k mx fx.
set x := iter k nstep x0 in IH h1 h2 h3 *.
rewrite [iter k.+1 _ _]/= -/x nstepE //.
have xr : x <= r := le k.
have fl : r - x <= f x by have := f_decr h2 xr; lra.
have dx := dfm mx h1; have dx1 := df1 h2.
have q : (r - x) * / (- df x0) <= - (f x / df x).
  have -> : - (f x / df x) = f x * / (- df x) by Rfield; lra.
  have : / (- df x0) <= / (- df x) by apply: Rinv_le_contravar; lra.
  by move=> h; apply: Rmult_le_compat; lra.
have : (1 - / (- df x0)) * (r - x) <= (1 - / (- df x0)) * ((1 - / (- df x0)) ^ k * (r - x0)).
  by apply: Rmult_le_compat_l; lra.
rewrite /=; move: (/ (- df x0)) q => i; lra.
Qed.
Lemma f_upper x0 x r : m < x0 -> x0 <= x -> f r = 0 -> x <= r -> f x <= - df x0 * (r - x).
Proof.
move=> mx xx fr xr; have mx' : m < x by lra.
have mr : m < r by lra.
have := cvx mx' mr; have := dfm mx xx => h1 h2.
have : 0 <= (df x - df x0) * (r - x) by apply: Rmult_le_pos; lra.
lra.
Qed.
Lemma nstep_converges x0 r eps : m < x0 -> 0 <= f x0 -> m < r -> f r = 0 -> 0 < eps ->
  exists N, forall k, (N <= k)%N -> f (iter k nstep x0) <= eps /\ r - iter k nstep x0 <= eps.
Proof.
move=> mx fx mr fr e0.
have d0 := df1 mx; have i0 : 0 < / (- df x0) by apply: Rinv_0_lt_compat; lra.
have i1 : / (- df x0) <= 1 by rewrite -Rinv_1; apply: Rinv_le_contravar; lra.
set q := 1 - / (- df x0).
have q1 : Rabs q < 1 by rewrite Rabs_pos_eq /q; lra.
have x0r := nonneg_le_root mx mr fr fx.
set K := - df x0 * (r - x0 + 1).
have K0 : 0 < K by apply: Rmult_lt_0_compat; lra.
have [N hN] := pow_lt_1_zero q q1 (eps / K) (Rdiv_lt_0_compat _ _ e0 K0).
exists N => k /leP/hN hk.
have [h1 h2] := nstep_rate k mx fx mr fr; rewrite -/q in h2.
have [g1 [g2 g3]] := nstep_iter k mx fx.
set x := iter k nstep x0 in h1 h2 g1 g2 g3 *.
have p0 : 0 <= q ^ k by apply: pow_le; rewrite /q; lra.
rewrite Rabs_pos_eq // in hk.
have hk' : q ^ k * K < eps.
  have := Rmult_lt_compat_r _ _ _ K0 hk.
  by rewrite /Rdiv Rmult_assoc Rinv_l; lra.
have fu : f x <= - df x0 * (r - x) by apply: f_upper => //; lra.
have s1 : - df x0 * (r - x) <= eps.
  apply: Rle_trans (Rlt_le _ _ hk').
  have -> : q ^ k * K = - df x0 * (q ^ k * (r - x0) + q ^ k) by rewrite /K; Rring.
  by apply: Rmult_le_compat_l; lra.
split; first lra.
have : 0 <= (- df x0 - 1) * (r - x) by apply: Rmult_le_pos; lra.
lra.
Qed.
End Convex.

(** ** The secular function *)
Lemma rsum_le f g l : (forall p : pv, p \in l -> f p <= g p) -> rsum f l <= rsum g l.
Proof.
elim: l => [|p l IH] h /=; first lra.
apply: Rplus_le_compat; first by apply: h; rewrite inE eqxx.
by apply: IH => q ql; apply: h; rewrite inE ql orbT.
Qed.
Lemma rsum_ge0 f l : (forall p : pv, p \in l -> 0 <= f p) -> 0 <= rsum f l.
Proof.
move=> h; have -> : 0 = rsum (fun=> 0) l by elim: l {h} => //= p l <-; lra.
exact: rsum_le.
Qed.
Lemma rsum_mem f l (p : pv) : (forall p : pv, p \in l -> 0 <= f p) -> p \in l -> f p <= rsum f l.
Proof.
elim: l => // q l IH h; rewrite inE => /orP[/eqP <-|pl] /=.
  have : 0 <= rsum f l by apply: rsum_ge0 => x xl; apply: h; rewrite inE xl orbT.
  lra.
have : f p <= rsum f l by apply: IH => // x xl; apply: h; rewrite inE xl orbT.
have : 0 <= f q by apply: h; rewrite inE eqxx.
lra.
Qed.
Lemma rsumD f g l : rsum (fun p => f p + g p) l = rsum f l + rsum g l.
Proof. by elim: l => [|p l /= ->]; rewrite /=; lra. Qed.
Lemma rsumZ k f l : rsum (fun p => k * f p) l = k * rsum f l.
Proof. by elim: l => [|p l /= ->]; rewrite /=; lra. Qed.

Section Secular.
Variables (l : seq pv) (z m : R).
Hypothesis m0 : 0 < m.
Hypothesis lphi : forall p : pv, p \in l -> 0 <= p.1 <= m.
Let f := lq_fn l z.
Let df := lq_dfn l.

Lemma term_cvx phi a x y : 0 <= phi <= m -> 0 <= a -> m < x -> m < y ->
  x ^ 2 * (phi * a / (x - phi) ^ 2) + (- (2) * x * (phi ^ 2 * a / (x - phi) ^ 3)) * (y - x)
  <= y ^ 2 * (phi * a / (y - phi) ^ 2).
Proof.
move=> p0 a0 mx my; have s0 : 0 < y - phi by lra.
have t0 : 0 < x - phi by lra.
have -> : y ^ 2 * (phi * a / (y - phi) ^ 2) =
  x ^ 2 * (phi * a / (x - phi) ^ 2) + - (2) * x * (phi ^ 2 * a / (x - phi) ^ 3) * (y - x) +
  phi * a * ((y / (y - phi) - x / (x - phi)) ^ 2 +
             2 * (x / (x - phi)) * (phi * (y - x) ^ 2 * / ((y - phi) * (x - phi) ^ 2))).
  by Rfield; lra.
set u := (y / _ - _) ^ 2; have u0 : 0 <= u by exact: pow2_ge_0.
have w0 : 0 <= x / (x - phi) by apply: Rmult_le_pos; [lra|left; exact: Rinv_0_lt_compat].
have v0 : 0 <= phi * (y - x) ^ 2 * / ((y - phi) * (x - phi) ^ 2).
  apply: Rmult_le_pos; first by apply: Rmult_le_pos; [lra|exact: pow2_ge_0].
  by left; apply: Rinv_0_lt_compat; apply: Rmult_lt_0_compat => //; exact: pow_lt.
have : 0 <= x / (x - phi) * (phi * (y - x) ^ 2 * / ((y - phi) * (x - phi) ^ 2)).
  exact: Rmult_le_pos.
move=> w; have : 0 <= phi * a * (u + 2 * (x / (x - phi)) *
    (phi * (y - x) ^ 2 * / ((y - phi) * (x - phi) ^ 2))).
  by apply: Rmult_le_pos; [apply: Rmult_le_pos; lra|lra].
lra.
Qed.
Lemma lq_cvx x y : m < x -> m < y -> f x + df x * (y - x) <= f y.
Proof.
move=> mx my; rewrite /f /df /lq_fn /lq_dfn.
have : rsum (fun p => x ^ 2 * (p.1 * cabs p.2 ^ 2 / (x - p.1) ^ 2) +
    (- (2) * x * (y - x)) * ((p.1 * cabs p.2) ^ 2 / (x - p.1) ^ 3)) l
    <= rsum (fun p => y ^ 2 * (p.1 * cabs p.2 ^ 2 / (y - p.1) ^ 2)) l.
  apply: rsum_le => p pl; have := @term_cvx p.1 (cabs p.2 ^ 2) x y (lphi pl) (pow2_ge_0 _) mx my.
  have -> : (p.1 * cabs p.2) ^ 2 = p.1 ^ 2 * cabs p.2 ^ 2 by Rring.
  lra.
by rewrite rsumD !rsumZ; lra.
Qed.
Lemma dterm_ge0 x (p : pv) : m < x -> p \in l -> 0 <= (p.1 * cabs p.2) ^ 2 / (x - p.1) ^ 3.
Proof.
move=> mx /lphi ph; apply: Rmult_le_pos; first exact: pow2_ge_0.
by left; apply: Rinv_0_lt_compat; apply: pow_lt; lra.
Qed.
Lemma lq_df1 x : m < x -> df x <= - 1.
Proof.
move=> mx; rewrite /df /lq_dfn.
have : 0 <= rsum (fun p => (p.1 * cabs p.2) ^ 2 / (x - p.1) ^ 3) l.
  by apply: rsum_ge0 => p; apply: dterm_ge0.
move=> h; have : 0 <= x * rsum (fun p => (p.1 * cabs p.2) ^ 2 / (x - p.1) ^ 3) l.
  by apply: Rmult_le_pos; lra.
lra.
Qed.
Lemma lq_dfm x y : m < x -> x <= y -> df x <= df y.
Proof.
move=> mx xy; rewrite /df /lq_dfn.
have : rsum (fun p => y * ((p.1 * cabs p.2) ^ 2 / (y - p.1) ^ 3)) l <=
       rsum (fun p => x * ((p.1 * cabs p.2) ^ 2 / (x - p.1) ^ 3)) l.
  apply: rsum_le => p pl; have ph := lphi pl.
  have e t : p.1 < t -> t * ((p.1 * cabs p.2) ^ 2 / (t - p.1) ^ 3) =
    (p.1 * cabs p.2) ^ 2 * ((1 + p.1 * / (t - p.1)) * (/ (t - p.1)) ^ 2).
    by move=> ht; Rfield; lra.
  rewrite !e; try lra.
  apply: Rmult_le_compat_l; first exact: pow2_ge_0.
  have i0 : 0 < / (y - p.1) by apply: Rinv_0_lt_compat; lra.
  have ixy : / (y - p.1) <= / (x - p.1) by apply: Rinv_le_contravar; lra.
  have a0 : 0 <= p.1 * / (y - p.1) by apply: Rmult_le_pos; lra.
  apply: Rmult_le_compat; [lra|exact: pow2_ge_0| |].
    by apply: Rplus_le_compat_l; apply: Rmult_le_compat_l; lra.
  by apply: pow_incr; lra.
by rewrite !rsumZ; lra.
Qed.

Lemma rsum_cont (g : R -> pv -> R) x : (forall p : pv, p \in l -> continuity_pt (fun t => g t p) x) ->
  continuity_pt (fun t => rsum (g t) l) x.
Proof.
elim: l => [|p l' IH] h /=; first by apply: continuity_pt_const.
apply: (continuity_pt_plus (fun t => g t p) (fun t => rsum (g t) l')).
  by apply: h; rewrite inE eqxx.
by apply: IH => q ql; apply: h; rewrite inE ql orbT.
Qed.
Lemma lq_cont x : m < x -> continuity_pt f x.
Proof.
move=> mx; rewrite /f /lq_fn.
apply: (continuity_pt_plus (fun t => t ^ 2 * rsum _ l - t) (fun=> z)); last exact: continuity_pt_const.
apply: (continuity_pt_minus (fun t => t ^ 2 * rsum _ l) (fun t => t)); last by reg.
apply: (continuity_pt_mult (fun t => t ^ 2) (fun t => rsum _ l)); first by reg.
apply: rsum_cont => p /lphi ph.
apply: (continuity_pt_div (fun=> p.1 * cabs p.2 ^ 2) (fun t => (t - p.1) ^ 2)).
- exact: continuity_pt_const.
- by reg.
- by apply: pow_nonzero; lra.
Qed.

Lemma lq_root x0 : m < x0 -> 0 <= f x0 -> exists r, m < r /\ f r = 0.
Proof.
move=> mx fx; have [N] : exists N, x0 < N /\ f N < 0.
  have h : x0 <= x0 + f x0 + 1 by lra.
  by exists (x0 + f x0 + 1); split; [lra|have := f_decr lq_cvx lq_df1 mx h; lra].
case=> xN fN; case: fx => fx; last by exists x0.
have cont a : x0 <= a <= N -> continuity_pt (fun x => - f x) a.
  by move=> ha; apply: continuity_pt_opp; apply: lq_cont; lra.
have n1 : - f x0 < 0 by lra.
have n2 : 0 < - f N by lra.
have [r [[h1 h2] h3]] := IVT_interv (fun x => - f x) x0 N cont xN n1 n2.
by exists r; split; lra.
Qed.
End Secular.

(** ** One bin *)
Definition good (b : lqbin) : Prop :=
  [/\ 0 < lq_max b, forall p : pv, p \in lq_l b -> 0 <= p.1 <= lq_max b,
      lq_vmax b != 0%R, (lq_max b, lq_vmax b) \in lq_l b & 0 <= lq_z b].

Lemma init_ok fl b : good b -> let x0 := lq_init fl (lq_max b) (lq_vmax b) (lq_z b) in
  lq_max b < x0 /\ 0 <= lq_fn (lq_l b) (lq_z b) x0.
Proof.
case: b => l z m v s [/= m0 lp v0 vl z0].
have a0 : 0 < cabs v ^ 2 by apply: pow_lt; exact: cabs_gt0.
have [[h1 h2] [h3 h4]] := @lqpqm_root m (cabs v ^ 2) z m0 a0.
rewrite /lq_init; set r := find_largest_root _ _ _ in h1 h2 h3 h4 *.
case: (Rlt_dec m r) => [//|/(_ h3)] //= _.
have zr := h4 z0; rewrite Rmax_left; last lra.
split=> //; rewrite /lq_fn.
have : m * cabs v ^ 2 / (r - m) ^ 2 <= rsum (fun p => p.1 * cabs p.2 ^ 2 / (r - p.1) ^ 2) l.
  apply: (@rsum_mem (fun p => p.1 * cabs p.2 ^ 2 / (r - p.1) ^ 2) l (m, v)) => // p /lp ph.
  apply: Rmult_le_pos; first by apply: Rmult_le_pos; [lra|exact: pow2_ge_0].
  by left; apply: Rinv_0_lt_compat; apply: pow_lt; lra.
move=> h; have : r ^ 2 * (m * cabs v ^ 2 / (r - m) ^ 2) <=
  r ^ 2 * rsum (fun p => p.1 * cabs p.2 ^ 2 / (r - p.1) ^ 2) l.
  by apply: Rmult_le_compat_l => //; exact: pow2_ge_0.
have -> : r ^ 2 * (m * cabs v ^ 2 / (r - m) ^ 2) = r - z.
  apply: (Rmult_eq_reg_r ((r - m) ^ 2)); last by apply: pow_nonzero; lra.
  have -> : r ^ 2 * (m * cabs v ^ 2 / (r - m) ^ 2) * (r - m) ^ 2 = m * cabs v ^ 2 * r ^ 2.
    by Rfield; lra.
  by move: h1; rewrite lqpqm_cubic; lra.
lra.
Qed.

Lemma newtonE l z m x : lq_newton l z m x = nstep (lq_fn l z) (lq_dfn l) m x.
Proof. by []. Qed.

(** ** The loop over all bins *)
Lemma lq_loopE fl bs n lamb : size lamb = size bs ->
  exists k, (k <= n)%N /\
   lq_loop fl bs n lamb =
     [seq iter k (lq_newton (lq_l bl.1) (lq_z bl.1) (lq_max bl.1)) bl.2 | bl <- zip bs lamb] /\
   (k = n \/ all (fun bl => lq_conv fl (lq_l bl.1) (lq_z bl.1) bl.2) (zip bs (lq_loop fl bs n lamb))).
Proof.
have id lam : size lam = size bs -> lam = [seq bl.2 | bl <- zip bs lam].
  by move=> s; rewrite -/(unzip2 _) unzip2_zip // s.
elim: n lamb => [|n IH] lamb sz /=; first by exists 0%N; split=> //; split; [exact: id|left].
case: ifP => conv; first by exists 0%N; split=> //; split; [exact: id|right].
set lamb' := map _ _; have [|k [kn [e st]]] := IH lamb'.
  by rewrite size_map size_zip sz minnn.
exists k.+1; split=> //; rewrite e; split.
  rewrite /lamb' -[bs in zip bs (map _ _)]map_id.
  have -> : zip [seq id0 | id0 <- bs] [seq lq_newton (lq_l bl.1) (lq_z bl.1) (lq_max bl.1) bl.2 | bl <- zip bs lamb]
     = [seq (bl.1, lq_newton (lq_l bl.1) (lq_z bl.1) (lq_max bl.1) bl.2) | bl <- zip bs lamb].
    rewrite map_id; elim: bs lamb sz {IH id conv lamb' k kn e st} => [|b bs IH] [|x lamb] //= [] sz.
    by rewrite IH.
  by rewrite -map_comp; apply: eq_map => bl /=; rewrite -iterS iterSr.
case: st => [->|st]; [by left|right].
by rewrite -e.
Qed.

Lemma oseqE T (l : seq (option T)) r : oseq l = Some r <-> l = [seq Some x | x <- r].
Proof.
elim: l r => [|[x|] l IH] r /=.
- by split=> [[<-]|]; case: r.
- case e: (oseq l) => [r'|]; split=> //.
  + by case=> <- /=; congr cons; apply/IH.
  + by case: r => // y r [-> /IH]; rewrite e => -[->].
  + by case: r => // y r [_ /IH]; rewrite e.
by split=> //; case: r.
Qed.

(** conclusion for one prepared bin and the value [x] reached by the loop *)
Definition bin_done (b : lqbin) (k : nat) (root x : R) : Prop :=
  [/\ lq_max b < root, lq_fn (lq_l b) (lq_z b) root = 0,
      (forall y, lq_max b < y -> lq_fn (lq_l b) (lq_z b) y = 0 -> y = root),
      lq_max b < x <= root &
      0 <= lq_fn (lq_l b) (lq_z b) x /\ root - x <= lq_fn (lq_l b) (lq_z b) x].

Lemma bin_iter fl b : good b ->
  exists root, (forall k, bin_done b k root
      (iter k (lq_newton (lq_l b) (lq_z b) (lq_max b)) (lq_init fl (lq_max b) (lq_vmax b) (lq_z b)))) /\
   (forall eps, 0 < eps -> exists N, forall k, (N <= k)%N ->
     let x := iter k (lq_newton (lq_l b) (lq_z b) (lq_max b)) (lq_init fl (lq_max b) (lq_vmax b) (lq_z b)) in
     root - x <= eps /\ lq_fn (lq_l b) (lq_z b) x <= eps).
Proof.
move=> g; have [i1 i2] := init_ok fl g; case: g => m0 lp v0 vl z0.
set x0 := lq_init _ _ _ _ in i1 i2 *.
have [root [r1 r2]] := lq_root m0 lp i1 i2.
have cv := @lq_cvx _ (lq_z b) _ m0 lp; have d1 := lq_df1 m0 lp; have dm := lq_dfm lp.
exists root; split.
  move=> k; have [h1 [h2 h3]] := nstep_iter cv d1 k i1 i2.
  rewrite -[lq_newton _ _ _]/(nstep (lq_fn (lq_l b) (lq_z b)) (lq_dfn (lq_l b)) (lq_max b)).
  have le := nonneg_le_root cv d1 h2 r1 r2 h3.
  split=> //.
  - by move=> y my fy; apply: (root_unique cv d1).
  - by split=> //; have := f_decr cv d1 h2 le; rewrite r2; lra.
move=> eps e0; have [N hN] := nstep_converges cv d1 dm i1 i2 r1 r2 e0.
by exists N => k /hN[].
Qed.

Lemma conv_le fl l z x : lq_conv fl l z x -> Rabs (lq_fn l z x) <= fl 0.
Proof. by rewrite /lq_conv; case: (Rle_dec (Rabs (lq_fn l z x)) (fl 0)). Qed.
Lemma le_conv fl l z x : Rabs (lq_fn l z x) <= fl 0 -> lq_conv fl l z x.
Proof. by rewrite /lq_conv; case: (Rle_dec (Rabs (lq_fn l z x)) (fl 0)). Qed.

(** the loop on good bins *)
Definition lq_run fl bs n := lq_loop fl bs n [seq lq_init fl (lq_max b) (lq_vmax b) (lq_z b) | b <- bs].
Definition lq_allconv fl bs lamb := all (fun bl => lq_conv fl (lq_l bl.1) (lq_z bl.1) bl.2) (zip bs lamb).

Lemma zip_map T U (f : T -> U) (s : seq T) : zip s (map f s) = [seq (x, f x) | x <- s].
Proof. by elim: s => //= x s ->. Qed.

Lemma runE fl bs n : exists k, (k <= n)%N /\ lq_run fl bs n =
  [seq iter k (lq_newton (lq_l b) (lq_z b) (lq_max b)) (lq_init fl (lq_max b) (lq_vmax b) (lq_z b)) | b <- bs]
  /\ (k = n \/ lq_allconv fl bs (lq_run fl bs n)).
Proof.
have [|k [kn [e st]]] := @lq_loopE fl bs n [seq lq_init fl (lq_max b) (lq_vmax b) (lq_z b) | b <- bs].
  by rewrite size_map.
exists k; split=> //; split=> //; rewrite /lq_run e zip_map -map_comp.
by apply: eq_map.
Qed.

Lemma nth_all_zip T U (P : T * U -> bool) s t x0 y0 : size s = size t ->
  all P (zip s t) <-> forall i, (i < size s)%N -> P (nth x0 s i, nth y0 t i).
Proof.
move=> sz; have szz : size (zip s t) = size s by rewrite size1_zip ?sz.
split=> [/(all_nthP (x0, y0)) h i hi|h].
  by have := h i; rewrite szz nth_zip // => /(_ hi).
by apply/(all_nthP (x0, y0)) => i; rewrite szz nth_zip //; apply: h.
Qed.

Definition bin0 := LqBin [::] 0 0 0%R 1.

Lemma run_good fl bs n : (forall i, (i < size bs)%N -> good (nth bin0 bs i)) ->
  size (lq_run fl bs n) = size bs /\
  exists k, (k <= n)%N /\ (k = n \/ lq_allconv fl bs (lq_run fl bs n)) /\
  forall i, (i < size bs)%N -> let b := nth bin0 bs i in
    nth 0 (lq_run fl bs n) i = iter k (lq_newton (lq_l b) (lq_z b) (lq_max b))
       (lq_init fl (lq_max b) (lq_vmax b) (lq_z b)).
Proof.
move=> g; have [k [kn [e st]]] := runE fl bs n.
split; first by rewrite e size_map.
exists k; split=> //; split=> // i hi b; by rewrite e (nth_map bin0).
Qed.

Lemma run_conv fl bs : 0 < fl 0 -> (forall i, (i < size bs)%N -> good (nth bin0 bs i)) ->
  exists N, forall n, (N <= n)%N -> lq_allconv fl bs (lq_run fl bs n).
Proof.
move=> f0 g.
have [N hN] : exists N, forall k, (N <= k)%N -> forall i, (i < size bs)%N -> let b := nth bin0 bs i in
  lq_conv fl (lq_l b) (lq_z b) (iter k (lq_newton (lq_l b) (lq_z b) (lq_max b))
       (lq_init fl (lq_max b) (lq_vmax b) (lq_z b))).
  elim: bs g => [|b bs IH] g; first by exists 0%N.
  have [N1 h1] := IH (fun i hi => g i.+1 hi).
  have [root [hb /(_ _ f0)[N2 h2]]] := bin_iter fl (g 0%N isT).
  exists (maxn N1 N2) => k; rewrite geq_max => /andP[k1 k2] [|i] hi /=; last exact: h1.
  apply: le_conv; have [_ _ _ _ [p _]] := hb k; have [_ q] := h2 k k2.
  by rewrite Rabs_pos_eq.
exists N => n Nn; have [sz [k [kn [[ek|//] e]]]] := run_good fl n g.
apply/(nth_all_zip _ bin0 0); first by rewrite sz.
by move=> i hi; rewrite e //= ek; apply: hN.
Qed.

(** ** Preparation of the bins *)
Lemma argmaxP p l : lq_argmax p l \in p :: l /\
  forall q : pv, q \in p :: l -> q.1 <= (lq_argmax p l).1.
Proof.
elim: l p => [|q l IH] p /=; first by rewrite inE eqxx; split=> // x; rewrite inE => /eqP ->; lra.
case: (Rlt_dec p.1 q.1) => h /=.
  have [h1 h2] := IH q; split; first by rewrite inE h1 orbT.
  move=> x; rewrite !inE => /or3P[/eqP ->|/eqP ->|xl].
  - by have := h2 q; rewrite inE eqxx => /(_ isT); lra.
  - by apply: h2; rewrite inE eqxx.
  - by apply: h2; rewrite inE xl orbT.
have [h1 h2] := IH p; split.
  by move: h1; rewrite !inE => /orP[->//|->]; rewrite !orbT.
move=> x; rewrite !inE => /or3P[/eqP ->|/eqP ->|xl].
- by apply: h2; rewrite inE eqxx.
- by have := h2 p; rewrite inE eqxx => /(_ isT); lra.
- by apply: h2; rewrite inE xl orbT.
Qed.

(** entries that survive the mask *)
Definition keptb (eps : R) (p : pv) : bool := if Rle_dec eps (p.1 * cabs p.2 ^ 2) then true else false.
Lemma maskE fl p : lq_mask fl p = if keptb (fl 0) p then p else (0, 0%R).
Proof. by rewrite /lq_mask /keptb; case: (Rle_dec _ _). Qed.
Lemma keptP eps p : reflect (eps <= p.1 * cabs p.2 ^ 2) (keptb eps p).
Proof. by rewrite /keptb; case: (Rle_dec eps (p.1 * cabs p.2 ^ 2)) => h; constructor. Qed.
Lemma rsum_mask g fl l : g (0, 0%R) = 0 ->
  rsum g [seq lq_mask fl p | p <- l] = rsum g [seq p <- l | keptb (fl 0) p].
Proof.
move=> g0; elim: l => //= p l ->; rewrite maskE; case: (keptb _ _) => //=.
by rewrite g0; lra.
Qed.
Lemma lq_fn_mask fl l z x :
  lq_fn [seq lq_mask fl p | p <- l] z x = lq_fn [seq p <- l | keptb (fl 0) p] z x.
Proof. by rewrite /lq_fn rsum_mask //= /Rdiv !Rmult_0_l. Qed.

Definition ready (fl : R -> R) (b : seq pv * R) : Prop :=
  [/\ b.1 <> [::], (forall p : pv, p \in b.1 -> 0 <= p.1), 0 <= b.2 &
      forall pm, pm \in [seq lq_mask fl p | p <- b.1] ->
        (forall q : pv, q \in [seq lq_mask fl p | p <- b.1] -> q.1 <= pm.1) ->
        [/\ fl pm.1 = pm.1, 0 < pm.1 & pm.2 != 0%R]].

Lemma mask_ge0 fl l : (forall p : pv, p \in l -> 0 <= p.1) ->
  forall q : pv, q \in [seq lq_mask fl p | p <- l] -> 0 <= q.1.
Proof.
move=> h q /mapP[p /h hp ->]; rewrite maskE; case: ifP => _ //=; lra.
Qed.

Lemma prep_false fl b : ready fl b -> exists pm,
  lq_prep fl false b = Some (LqBin [seq lq_mask fl p | p <- b.1] b.2 pm.1 pm.2 1) /\
  good (LqBin [seq lq_mask fl p | p <- b.1] b.2 pm.1 pm.2 1).
Proof.
case: b => [[|p l] z] [//= _ h0 z0 hm]; rewrite /lq_prep /=.
have [a1 a2] := argmaxP (lq_mask fl p) [seq lq_mask fl p | p <- l].
set pm := lq_argmax _ _ in a1 a2 *; have [e1 e2 e3] := hm pm a1 a2.
exists pm; rewrite e1; split=> //; split=> //=.
- by move=> q ql; split; [apply: (@mask_ge0 fl (p :: l))|apply: a2].
- by rewrite -surjective_pairing.
Qed.

Definition scale_pv (s : R) (q : pv) : pv := (q.1 / s, (q.2 * (c s)^-1)%R).
Lemma prep_true fl b : ready fl b -> exists pm,
  let s := pm.1 in let l := [seq scale_pv s (lq_mask fl p) | p <- b.1] in
  [/\ lq_prep fl true b = Some (LqBin l (b.2 / s) 1 (scale_pv s pm).2 s),
      good (LqBin l (b.2 / s) 1 (scale_pv s pm).2 s),
      0 < s, pm \in [seq lq_mask fl p | p <- b.1] &
      forall q : pv, q \in [seq lq_mask fl p | p <- b.1] -> q.1 <= s].
Proof.
case: b => [[|p l] z] [//= _ h0 z0 hm]; rewrite /lq_prep /=.
have [a1 a2] := argmaxP (lq_mask fl p) [seq lq_mask fl p | p <- l].
set pm := lq_argmax _ _ in a1 a2 *; have [e1 e2 e3] := hm pm a1 a2.
have ss : pm.1 / pm.1 = 1 by Rfield; lra.
have mE : [seq scale_pv pm.1 (lq_mask fl p0) | p0 <- p :: l] =
          [seq scale_pv pm.1 q | q <- [seq lq_mask fl p0 | p0 <- p :: l]] by rewrite -map_comp.
exists pm; rewrite e1 ss; split=> //.
  by rewrite -map_comp.
split=> /=.
- exact: Rlt_0_1.
- move=> q; rewrite -[scale_pv _ _ :: _]/([seq scale_pv pm.1 (lq_mask fl p0) | p0 <- p :: l]) mE.
  move=> /mapP[r rl ->] /=; have r0 : 0 <= r.1 by apply: (@mask_ge0 fl (p :: l)).
  have i0 : 0 < / pm.1 by exact: Rinv_0_lt_compat.
  split; first by apply: Rmult_le_pos; [exact: r0|exact: Rlt_le].
  by rewrite -ss; apply: Rmult_le_compat_r; [lra|apply: a2].
- by rewrite GRing.mulf_neq0 // GRing.invr_eq0; apply: c_neq0; lra.
- rewrite -[scale_pv _ _ :: _]/([seq scale_pv pm.1 (lq_mask fl p0) | p0 <- p :: l]) mE.
  by apply/mapP; exists pm => //; rewrite /scale_pv ss.
- by apply: Rmult_le_pos => //; left; exact: Rinv_0_lt_compat.
Qed.

Lemma rsum_map g (f : pv -> pv) l : rsum g (map f l) = rsum (fun p => g (f p)) l.
Proof. by elim: l => //= p l ->. Qed.
Lemma rsum_ext f g l : (forall p : pv, p \in l -> f p = g p) -> rsum f l = rsum g l.
Proof.
elim: l => //= p l IH h; rewrite h ?inE ?eqxx // IH // => q ql; apply: h; by rewrite inE ql orbT.
Qed.

(** the equation solved after [normalization] *)
Lemma lq_fn_scale s l z x : 0 < s -> (forall p : pv, p \in l -> p.1 <= s) -> 1 < x ->
  lq_fn [seq scale_pv s p | p <- l] (z / s) x =
  / s * (/ s ^ 2 * ((x * s) ^ 2 * rsum (fun p => p.1 * cabs p.2 ^ 2 / (x * s - p.1) ^ 2) l) - (x * s - z)).
Proof.
move=> s0 hp x1; rewrite /lq_fn rsum_map.
have -> : rsum (fun p => (scale_pv s p).1 * cabs (scale_pv s p).2 ^ 2 / (x - (scale_pv s p).1) ^ 2) l =
   rsum (fun p => / s * (p.1 * cabs p.2 ^ 2 / (x * s - p.1) ^ 2)) l.
  apply: rsum_ext => p /hp hps; rewrite /scale_pv [_.1]/= [_.2]/= cabsM cabsV cabs_c Rabs_pos_eq; last lra.
  have xs : s < x * s by have := Rmult_lt_compat_r s 1 x s0 x1; lra.
  toR; rewrite -RinvE; last lra.
  by Rfield; repeat split; lra.
by rewrite rsumZ; Rfield; lra.
Qed.

(** ** Whole solver *)
Definition raw0 : seq pv * R := ([::], 0).
Lemma oseq_prep fl nrm bins bs :
  oseq [seq lq_prep fl nrm b | b <- bins] = Some bs ->
  size bs = size bins /\
  forall i, (i < size bins)%N -> lq_prep fl nrm (nth raw0 bins i) = Some (nth bin0 bs i).
Proof.
move/oseqE => e; have sz : size bs = size bins by have := congr1 size e; rewrite !size_map.
split=> // i hi; have := congr1 (fun s => nth None s i) e.
by rewrite (nth_map raw0) // (nth_map bin0) ?sz.
Qed.
Lemma oseq_ready fl nrm bins : (forall i, (i < size bins)%N -> ready fl (nth raw0 bins i)) ->
  exists bs, oseq [seq lq_prep fl nrm b | b <- bins] = Some bs.
Proof.
elim: bins => [|b bins IH] h; first by exists [::].
have [bs /= ->] := IH (fun i hi => h i.+1 hi).
have rb : ready fl b := h 0%N isT.
case: (nrm); first by have [pm [-> _ _ _ _]] := prep_true rb; eexists.
by have [pm [-> _]] := prep_false rb; eexists.
Qed.

Lemma solve_spec fl n nrm bins r w :
  (forall i, (i < size bins)%N -> ready fl (nth raw0 bins i)) ->
  solve_equation fl n nrm bins = Some (r, w) ->
  exists bs lamb k,
  [/\ oseq [seq lq_prep fl nrm b | b <- bins] = Some bs,
      lamb = lq_run fl bs n /\ (k <= n)%N /\ (k = n \/ w = false),
      w = ~~ lq_allconv fl bs lamb,
      (forall i, (i < size bins)%N -> let b := nth bin0 bs i in
         good b /\ nth 0 lamb i = iter k (lq_newton (lq_l b) (lq_z b) (lq_max b))
           (lq_init fl (lq_max b) (lq_vmax b) (lq_z b)) /\
         (w = false -> Rabs (lq_fn (lq_l b) (lq_z b) (nth 0 lamb i)) <= fl 0)) &
      size r = size bins /\ forall i, (i < size bins)%N ->
         nth 0 r i = nth 0 lamb i * (if nrm then lq_scale (nth bin0 bs i) else 1)].
Proof.
move=> rd; rewrite /solve_equation; have [bs e] := oseq_ready nrm rd; rewrite e.
have [sz eb] := oseq_prep e.
case: n => // n; rewrite -/(lq_run fl bs n.+1) => -[<- <-].
have g : forall i, (i < size bs)%N -> good (nth bin0 bs i).
  move=> i; rewrite sz => hi; have := eb i hi; have := rd i hi.
  case: (nrm) => [/prep_true[pm [-> g _ _ _]]|/prep_false[pm [-> g]]] [<-] //.
have [szl [k [kn [st ik]]]] := run_good fl n.+1 g.
exists bs, (lq_run fl bs n.+1), k; split=> //.
- by split=> //; split=> //; case: st => [->|st]; [left|right; rewrite -/(lq_allconv _ _ _) st].
- move=> i hi; have hi' : (i < size bs)%N by rewrite sz.
  split; first exact: g.
  split; first exact: ik.
  move/negbFE; move/(nth_all_zip _ bin0 0 (esym szl)) => /(_ i hi')/conv_le; exact.
case: (nrm); last by rewrite szl; split=> // i hi; lra.
rewrite size_map size_zip szl minnn; split=> // i hi.
rewrite (nth_map (bin0, 0)) ?size_zip ?szl ?minnn ?sz // nth_zip ?szl //.
Qed.
