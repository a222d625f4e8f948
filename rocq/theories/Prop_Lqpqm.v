(** Property C29: the secular equation solver of LQPQM. *)
From Coq Require Import Reals Lra.
From mathcomp Require Import all_ssreflect all_algebra.
From Verif Require Import RStruct MxC CxR RealLemmas NpLin Cubic CubicProofs Lqpqm LqpqmProofs.
Set Implicit Arguments.
Unset Strict Implicit.
Unset Printing Implicit Defensive.
Local Open Scope R_scope.

(** the documented function f (docstring of [solve_equation]) *)
Definition secular (l : seq (R * Cx)) (z x : R) : R :=
  x ^ 2 * (\sum_(p <- l) ((p.1 * cabs p.2 ^ 2 / (x - p.1) ^ 2)%coqR : R))%R - x + z.
(** its root to the right of all poles; there is only one *)
Definition above (l : seq (R * Cx)) (x : R) : Prop := forall p : R * Cx, p \in l -> p.1 < x.
Definition top_root (l : seq (R * Cx)) (z r : R) : Prop :=
  [/\ above l r, secular l z r = 0 &
      forall y, above l y -> secular l z y = 0 -> y = r].

Lemma secularE l z x : secular l z x = lq_fn l z x.
Proof.
rewrite /secular /lq_fn; congr (_ * _ - _ + _).
by elim: l => [|p l /= <-]; rewrite ?big_nil ?big_cons.
Qed.
Lemma aboveP l m x : 0 < m -> (forall p : pv, p \in l -> p.1 <= m) -> (exists v, (m, v) \in l) ->
  above l x <-> m < x.
Proof.
by move=> m0 hm [v vl]; split=> [/(_ _ vl)//|mx p /hm]; lra.
Qed.

Lemma bins_false fl n bins r w : fl 0 >= 0 ->
  (forall i, (i < size bins)%N -> ready fl (nth raw0 bins i)) ->
  solve_equation fl n false bins = Some (r, w) ->
  size r = size bins /\
  forall i, (i < size bins)%N ->
    let l := [seq p <- (nth raw0 bins i).1 | keptb (fl 0) p] in let z := (nth raw0 bins i).2 in
    exists root, top_root l z root /\ above l (nth 0 r i) /\ nth 0 r i <= root /\
      (w = false -> secular l z (nth 0 r i) <= fl 0 /\ root - nth 0 r i <= fl 0).
Proof.
move=> f0 rd /(solve_spec rd)[bs [lamb [k [ebs [elam [kn ck]] ew hb [sr er]]]]].
split=> // i hi l z; have [sz /(_ i hi) ep] := oseq_prep ebs.
have [pm [ep' g]] := prep_false (rd i hi).
have [gb [il cv]] := hb i hi; rewrite ep' in ep; move: ep => [ep].
rewrite er // Rmult_1_r; move: il cv gb; rewrite -ep {hb er ep ep'}.
have [root [/(_ k)]] := bin_iter fl g; set x := iter k _ _; rewrite {1}/bin_done /=.
move=> [b1 b2 b3 b4 [b5 b6]] _ ex cv _; rewrite -/x in ex.
have fE y : lq_fn [seq lq_mask fl p | p <- (nth raw0 bins i).1] (nth raw0 bins i).2 y = secular l z y.
  by rewrite secularE lq_fn_mask.
case: g => /= m0 hm v0 vm _.
have ab y : above l y <-> pm.1 < y.
  split=> [h|my p].
    apply: (h (pm.1, pm.2)); move: vm => /mapP[q ql]; rewrite maskE; case: ifP => [kq qe|_ [e1 _]].
      by rewrite qe mem_filter kq.
    by move: m0; rewrite e1; lra.
  rewrite mem_filter => /andP[kp pl]; have /hm : p \in [seq lq_mask fl p | p <- (nth raw0 bins i).1].
    by apply/mapP; exists p => //; rewrite maskE kp.
  rewrite /=; lra.
rewrite ex; exists root; split.
  split; first exact/ab.
    by rewrite -fE.
  by move=> y /ab my; rewrite -fE; apply: b3.
split; first by apply/ab; lra.
split; first lra.
move=> w0; have := cv w0; rewrite ex Rabs_pos_eq // -fE; lra.
Qed.

(** A bin on which the default flooring leaves something to solve: nonnegative
    eigenvalues and constant, and one entry that is not masked. *)
Definition floor_bin (eps : R) (b : seq (R * Cx) * R) : Prop :=
  [/\ forall p : R * Cx, p \in b.1 -> 0 <= p.1, 0 <= b.2 &
      exists2 p : R * Cx, p \in b.1 & eps <= p.1 /\ eps <= p.1 * cabs p.2 ^ 2].
(** Without flooring: the largest eigenvalue is positive and its component of v is not zero. *)
Definition exact_bin (b : seq (R * Cx) * R) : Prop :=
  [/\ b.1 <> [::], forall p : R * Cx, p \in b.1 -> 0 <= p.1, 0 <= b.2 &
      forall p : R * Cx, p \in b.1 -> (forall q : R * Cx, q \in b.1 -> q.1 <= p.1) ->
        0 < p.1 /\ p.2 != 0%R].
(** entries kept by the mask of lines 165-167 *)
Definition kept (eps : R) (l : seq (R * Cx)) : seq (R * Cx) := [seq p <- l | keptb eps p].

Lemma fl0 eps : 0 < eps -> max_flooring eps 0 = eps.
Proof. by move=> e0; rewrite /max_flooring Rmax_right //; lra. Qed.
Lemma floor_ready eps b : 0 < eps -> floor_bin eps b -> ready (max_flooring eps) b.
Proof.
move=> e0 [h0 z0 [p pl [pe pk]]]; split=> //; first by move=> e; rewrite e in pl.
move=> pm pml pmax.
have pm1 : eps <= pm.1.
  have : p \in [seq lq_mask (max_flooring eps) q | q <- b.1].
    by apply/mapP; exists p => //; rewrite maskE fl0 //; case: keptP.
  by move/pmax; move=> /= ?; lra.
split.
- by rewrite /max_flooring Rmax_left.
- lra.
- move: pml => /mapP[q ql]; rewrite maskE fl0 //; case: keptP => [kq ->|_ e]; last first.
    by move: pm1; rewrite e /=; lra.
  by apply/eqP => e; move: kq; rewrite e cabs0; toR; lra.
Qed.
Lemma kept0 (l : seq (R * Cx)) : (forall p : R * Cx, p \in l -> 0 <= p.1) -> kept 0 l = l.
Proof.
move=> h; apply/all_filterP/allP => p /h hp; apply/keptP.
by apply: Rmult_le_pos => //; exact: pow2_ge_0.
Qed.
Lemma mask0 (l : seq (R * Cx)) : (forall p : R * Cx, p \in l -> 0 <= p.1) ->
  [seq lq_mask identity_fl p | p <- l] = l.
Proof.
move=> h; rewrite -[RHS]map_id; apply/eq_in_map => p /h hp; rewrite maskE.
by case: keptP => // -[]; apply: Rmult_le_pos => //; exact: pow2_ge_0.
Qed.
Lemma exact_ready b : exact_bin b -> ready identity_fl b.
Proof.
by move=> [h1 h2 h3 h4]; split=> //; rewrite mask0 // => pm pml /(h4 _ pml)[].
Qed.

(** C29, default flooring, [normalization=False] *)
Theorem C29_floored eps n bins r w : 0 < eps ->
  (forall i, (i < size bins)%N -> floor_bin eps (nth raw0 bins i)) ->
  solve_equation (max_flooring eps) n false bins = Some (r, w) ->
  size r = size bins /\
  forall i, (i < size bins)%N ->
    let l := kept eps (nth raw0 bins i).1 in let z := (nth raw0 bins i).2 in
    exists root, top_root l z root /\ above l (nth 0 r i) /\ nth 0 r i <= root /\
      (w = false -> secular l z (nth 0 r i) <= eps /\ root - nth 0 r i <= eps).
Proof.
move=> e0 h s; have := bins_false _ _ s; rewrite fl0 //; apply; first lra.
by move=> i hi; apply: floor_ready => //; apply: h.
Qed.
(** C29, identity flooring, [normalization=False] *)
Theorem C29_exact n bins r w :
  (forall i, (i < size bins)%N -> exact_bin (nth raw0 bins i)) ->
  solve_equation identity_fl n false bins = Some (r, w) ->
  size r = size bins /\
  forall i, (i < size bins)%N ->
    let l := (nth raw0 bins i).1 in let z := (nth raw0 bins i).2 in
    exists root, top_root l z root /\ above l (nth 0 r i) /\ nth 0 r i <= root /\
      (w = false -> nth 0 r i = root).
Proof.
move=> h s; have [||sr hr] := bins_false _ _ s.
- by rewrite /identity_fl; lra.
- by move=> i hi; apply: exact_ready; apply: h.
split=> // i hi l z; have [root] := hr i hi; rewrite -/(kept _ _) kept0; last first.
  by case: (h i hi).
move=> [h1 [h2 [h3 h4]]]; exists root; split=> //; split=> //; split=> // /h4[_].
by rewrite /identity_fl -/l -/z; lra.
Qed.
(** the warning disappears when enough iterations are allowed *)
Theorem C29_terminates eps bins : 0 < eps ->
  (forall i, (i < size bins)%N -> floor_bin eps (nth raw0 bins i)) ->
  exists N, forall n, (N <= n)%N -> exists r,
    solve_equation (max_flooring eps) n false bins = Some (r, false).
Proof.
move=> e0 h; have rd i : (i < size bins)%N -> ready (max_flooring eps) (nth raw0 bins i).
  by move=> hi; apply: floor_ready => //; apply: h.
have [bs e] := oseq_ready false rd; have [sz eb] := oseq_prep e.
have g i : (i < size bs)%N -> good (nth bin0 bs i).
  by rewrite sz => hi; have [pm [e1 g]] := prep_false (rd i hi); have := eb i hi; rewrite e1 => -[<-].
have [|N hN] := @run_conv (max_flooring eps) bs _ g; first by rewrite fl0.
exists N.+1 => -[//|n] /ltnW Nn; exists (lq_run (max_flooring eps) bs n.+1).
rewrite /solve_equation e -/(lq_run _ _ _) -/(lq_allconv _ _ _).
by rewrite hN.
Qed.
(** without flooring the values tend to the roots as the iteration limit grows *)
Theorem C29_limit bins eps : 0 < eps ->
  (forall i, (i < size bins)%N -> exact_bin (nth raw0 bins i)) ->
  exists N, forall n r w, (N <= n)%N -> solve_equation identity_fl n false bins = Some (r, w) ->
  forall i, (i < size bins)%N -> exists root,
    top_root (nth raw0 bins i).1 (nth raw0 bins i).2 root /\ root - eps <= nth 0 r i <= root.
Proof.
move=> e0 h; have rd i : (i < size bins)%N -> ready identity_fl (nth raw0 bins i).
  by move=> hi; apply: exact_ready => //; apply: h.
have [bs e] := oseq_ready false rd; have [sz eb] := oseq_prep e.
have g i : (i < size bs)%N -> good (nth bin0 bs i).
  by rewrite sz => hi; have [pm [e1 g]] := prep_false (rd i hi); have := eb i hi; rewrite e1 => -[<-].
have [N hN] : exists N, forall k, (N <= k)%N -> forall i, (i < size bs)%N -> let b := nth bin0 bs i in
  forall root, lq_max b < root -> lq_fn (lq_l b) (lq_z b) root = 0 ->
   root - iter k (lq_newton (lq_l b) (lq_z b) (lq_max b))
       (lq_init identity_fl (lq_max b) (lq_vmax b) (lq_z b)) <= eps.
  elim: (bs) g => [|b bs' IH] g; first by exists 0%N.
  have [N1 h1] := IH (fun i hi => g i.+1 hi).
  have [root [hb /(_ _ e0)[N2 h2]]] := bin_iter identity_fl (g 0%N isT).
  exists (maxn N1 N2) => k; rewrite geq_max => /andP[k1 k2] [|i] hi /=; last exact: h1.
  move=> root' r1 r2; have [_ _ u _ _] := hb k; rewrite (u root' r1 r2).
  by have [] := h2 k k2.
exists N => n r w Nn s i hi.
have [sr /(_ i hi)[root [tr [ab [le ex]]]]] := C29_exact h s; exists root; split=> //.
have [bs' [lamb [k [ebs [elam [kn ck]] ew hb [_ er]]]]] := solve_spec rd s.
move: ebs; rewrite e => -[ebs]; rewrite -{}ebs in elam ew hb er.
case: ck => [ek|/ex ->]; last lra.
split=> //; rewrite er // Rmult_1_r; have [gb [il _]] := hb i hi; rewrite il ek.
have hi' : (i < size bs)%N by rewrite sz.
suff h3 : root - iter n (lq_newton (lq_l (nth bin0 bs i)) (lq_z (nth bin0 bs i)) (lq_max (nth bin0 bs i)))
       (lq_init identity_fl (lq_max (nth bin0 bs i)) (lq_vmax (nth bin0 bs i)) (lq_z (nth bin0 bs i))) <= eps by lra.
apply: hN => //.
- have [pm [ep _]] := prep_false (rd i hi); have := eb i hi; rewrite ep => -[<-] /=.
  move: gb; have := eb i hi; rewrite ep => -[<-] [/= _ _ _ vm _].
  case: tr => at_ _ _; apply: (at_ (pm.1, pm.2)).
  by move: vm; rewrite mask0 //; case: (h i hi).
- have [pm [ep _]] := prep_false (rd i hi); have := eb i hi; rewrite ep => -[<-] /=.
  rewrite mask0; last by case: (h i hi).
  by case: tr => _ + _; rewrite secularE.
Qed.

(** C29, [normalization=True] as called by [lqpqm2]: the value returned on convergence
    solves the equation with the factor (max phi)^2 in front of lambda - z *)
Theorem C29_normalized n bins r w :
  (forall i, (i < size bins)%N -> exact_bin (nth raw0 bins i)) ->
  solve_equation identity_fl n true bins = Some (r, w) -> w = false ->
  forall i, (i < size bins)%N ->
    let l := (nth raw0 bins i).1 in let z := (nth raw0 bins i).2 in let x := nth 0 r i in
    exists2 p : R * Cx, p \in l & (forall q : R * Cx, q \in l -> q.1 <= p.1) /\ p.1 < x /\
      secular l z x = (p.1 ^ 2 - 1) * (x - z).
Proof.
move=> h s w0 i hi l z x.
have rd j : (j < size bins)%N -> ready identity_fl (nth raw0 bins j).
  by move=> hj; apply: exact_ready => //; apply: h.
have [bs [lamb [k [ebs [elam [kn ck]] ew hb [_ er]]]]] := solve_spec rd s.
have [sz /(_ i hi) eb] := oseq_prep ebs.
have [pm [ep g s0 pml pmax]] := prep_true (rd i hi).
have l0 : forall p : pv, p \in l -> 0 <= p.1 by case: (h i hi).
rewrite mask0 // in pml pmax.
have [gb [il cv]] := hb i hi.
have xE : x = nth 0 lamb i * lq_scale (nth bin0 bs i) := er i hi.
rewrite ep in eb; move: eb => [eb]; rewrite -{}eb /= in il gb cv xE.
have [root [/(_ k) [/= b1 b2 b3 b4 [b5 b6]] _]] := bin_iter identity_fl g.
rewrite -il in b4 b5 b6; set mu := nth 0 lamb i in xE b4 b5 b6 cv.
have f0 : lq_fn [seq scale_pv pm.1 (lq_mask identity_fl p) | p <- (nth raw0 bins i).1] ((nth raw0 bins i).2 / pm.1) mu = 0.
  by have := cv w0; rewrite Rabs_pos_eq // -[identity_fl 0]/0 => ?; apply: Rle_antisym.
exists pm; first exact: pml.
split=> //.
have x1 : pm.1 < x by have := Rmult_lt_compat_r pm.1 1 mu s0 (proj1 b4); rewrite xE; lra.
split=> //; rewrite secularE /lq_fn.
have mE : [seq scale_pv pm.1 (lq_mask identity_fl p) | p <- l] = [seq scale_pv pm.1 p | p <- l].
  by rewrite -[in RHS](mask0 l0) -map_comp.
move: f0; rewrite -/l -/z mE lq_fn_scale // -?xE; last exact: (proj1 b4).
set S := rsum _ l => f0.
have e1 : / pm.1 ^ 2 * (x ^ 2 * S) - (x - z) = 0.
  by case/Rmult_integral: f0 => // e; have := Rinv_0_lt_compat _ s0; lra.
have : pm.1 ^ 2 * (/ pm.1 ^ 2 * (x ^ 2 * S) - (x - z)) = 0 by rewrite e1; lra.
have -> : pm.1 ^ 2 * (/ pm.1 ^ 2 * (x ^ 2 * S) - (x - z)) = x ^ 2 * S - pm.1 ^ 2 * (x - z).
  by Rfield; lra.
lra.
Qed.
(** hence it is the documented root when the largest eigenvalue is 1 (IPA with two sources) ... *)
Theorem C29_normalized_unit n bins r w :
  (forall i, (i < size bins)%N -> exact_bin (nth raw0 bins i)) ->
  (forall i, (i < size bins)%N -> exists v, (1, v) \in (nth raw0 bins i).1) ->
  (forall i, (i < size bins)%N -> forall p : R * Cx, p \in (nth raw0 bins i).1 -> p.1 <= 1) ->
  solve_equation identity_fl n true bins = Some (r, w) -> w = false ->
  forall i, (i < size bins)%N ->
  above (nth raw0 bins i).1 (nth 0 r i) /\ secular (nth raw0 bins i).1 (nth raw0 bins i).2 (nth 0 r i) = 0.
Proof.
move=> h h1 h2 s w0 i hi; have [p pl [pm [px ->]]] := C29_normalized h s w0 hi.
have [v vl] := h1 i hi; have p1 : p.1 = 1 by have := pm _ vl; have /= := h2 i hi _ pl; lra.
by split; [move=> q /pm; lra|rewrite p1; lra].
Qed.
(** ... and it never is when the largest eigenvalue is not 1 *)
Theorem C29_normalized_never n bins r w :
  (forall i, (i < size bins)%N -> exact_bin (nth raw0 bins i)) ->
  solve_equation identity_fl n true bins = Some (r, w) -> w = false ->
  forall i, (i < size bins)%N ->
  (forall v, (1, v) \notin (nth raw0 bins i).1) ->
  secular (nth raw0 bins i).1 (nth raw0 bins i).2 (nth 0 r i) <> 0.
Proof.
move=> h s w0 i hi h1; have [p pl [pm [px e]]] := C29_normalized h s w0 hi.
have [_ l0 z0 hp] := h i hi; have [p0 v0] := hp p pl pm.
move: e; set x := nth 0 r i in px *; set l := (nth raw0 bins i).1 in h1 pl pm l0 *.
set z := (nth raw0 bins i).2 => e e0.
have p1 : p.1 <> 1 by move=> ep; have := h1 p.2; rewrite -ep -surjective_pairing pl.
have pp : p.1 ^ 2 - 1 <> 0.
  have -> : p.1 ^ 2 - 1 = (p.1 - 1) * (p.1 + 1) by Rring.
  by apply: Rmult_integral_contrapositive_currified; lra.
have xz : x = z by move: e; rewrite e0 => /esym/Rmult_integral[//|]; lra.
move: e0; rewrite secularE /lq_fn xz => e0.
have S0 : 0 < rsum (fun p => p.1 * cabs p.2 ^ 2 / (z - p.1) ^ 2) l.
  apply: Rlt_le_trans (rsum_mem (l := l) (p := p) _ pl).
    apply: Rmult_lt_0_compat; first by apply: Rmult_lt_0_compat => //; apply: pow_lt; apply: cabs_gt0.
    by apply: Rinv_0_lt_compat; apply: pow_lt; lra.
  move=> q ql; apply: Rmult_le_pos.
    by apply: Rmult_le_pos; [apply: l0|exact: pow2_ge_0].
  by left; apply: Rinv_0_lt_compat; apply: pow_lt; have := pm q ql; lra.
have : 0 < z ^ 2 * rsum (fun p => p.1 * cabs p.2 ^ 2 / (z - p.1) ^ 2) l.
  by apply: Rmult_lt_0_compat => //; apply: pow_lt; lra.
lra.
Qed.

(** a concrete bin: one eigenvalue 4, v = 1, z = 7 *)
Definition ex_bins : seq (seq (R * Cx) * R) := [:: ([:: (4, 1%R : Cx)], 7)].
Lemma ex_exact i : (i < size ex_bins)%N -> exact_bin (nth raw0 ex_bins i).
Proof.
case: i => // _; split=> //=.
- by move=> p; rewrite inE => /eqP -> /=; lra.
- lra.
- by move=> p; rewrite inE => /eqP -> _ /=; split; [lra|exact: GRing.oner_neq0].
Qed.
Lemma one_bin_conv fl (b : lqbin) : good b -> lq_l b = [:: (lq_max b, lq_vmax b)] ->
  lq_fn (lq_l b) (lq_z b) (lq_init fl (lq_max b) (lq_vmax b) (lq_z b)) = 0.
Proof.
case: b => l z m v s /= g ->; case: g => /= m0 _ v0 _ z0.
have a0 : 0 < cabs v ^ 2 by apply: pow_lt; exact: cabs_gt0.
have [[h1 h2] [h3 h4]] := @lqpqm_root m (cabs v ^ 2) z m0 a0.
rewrite /lq_init; set r := find_largest_root _ _ _ in h1 h2 h3 h4 *.
case: (Rlt_dec m r) => [//|/(_ h3)] //= _.
have zr := h4 z0; rewrite Rmax_left; last lra.
rewrite /lq_fn /= Rplus_0_r; move: h1; rewrite lqpqm_cubic => h1.
have -> : r * (r * 1) * (m * (cabs v * (cabs v * 1)) / ((r - m) * ((r - m) * 1))) = r - z.
  apply: (Rmult_eq_reg_r ((r - m) ^ 2)); last by apply: pow_nonzero; lra.
  have -> : r * (r * 1) * (m * (cabs v * (cabs v * 1)) / ((r - m) * ((r - m) * 1))) * (r - m) ^ 2 =
    m * cabs v ^ 2 * r ^ 2 by Rfield; lra.
  by lra.
lra.
Qed.
Lemma ex_conv nrm : exists r, solve_equation identity_fl 1 nrm ex_bins = Some (r, false).
Proof.
have rd i (hi : (i < size ex_bins)%N) := exact_ready (ex_exact hi).
have [bs e] := oseq_ready nrm rd; have [sz eb] := oseq_prep e.
have := eb 0%N isT; case: bs sz e eb => [|b [|]] //= _ e _ eb0.
suff [g gl] : good b /\ lq_l b = [:: (lq_max b, lq_vmax b)].
  have c0 := one_bin_conv identity_fl g gl.
  have cv : lq_conv identity_fl (lq_l b) (lq_z b) (lq_init identity_fl (lq_max b) (lq_vmax b) (lq_z b)).
    by apply: le_conv; rewrite c0 Rabs_R0 /identity_fl; lra.
  by rewrite /solve_equation /= e /= cv /= cv; eexists.
have := rd 0%N isT.
have l0 : forall p : pv, p \in [:: (4, 1%R : Cx)] -> 0 <= p.1 by move=> p; rewrite inE => /eqP -> /=; lra.
case: nrm {e} eb0 => eb0.
  move=> /prep_true[pm [/= ]]; rewrite /= in eb0; rewrite eb0 => -[->] g _ + _.
  rewrite -[[:: lq_mask _ _]]/[seq lq_mask identity_fl p | p <- [:: (4, 1%R : Cx)]] mask0 // inE => /eqP pmE.
  split=> //=; rewrite pmE /= /scale_pv.
  have : [:: lq_mask identity_fl (4, 1%R : Cx)] = [:: (4, 1%R : Cx)] by exact: (mask0 l0).
  by case=> -> /=; congr [:: (_, _)]; lra.
move=> /prep_false[pm [/= ]]; rewrite /= in eb0; rewrite eb0 => -[->] g.
split=> //=; case: g => /= _ _ _ + _.
have -> : [:: lq_mask identity_fl (4, 1%R : Cx)] = [:: (4, 1%R : Cx)] by exact: (mask0 l0).
by rewrite inE => /eqP ->.
Qed.
Theorem C29_normalized_refuted : exists (bins : seq (seq (R * Cx) * R)) (n : nat) (r : seq R),
  (forall i, (i < size bins)%N -> exact_bin (nth raw0 bins i)) /\
  solve_equation identity_fl n true bins = Some (r, false) /\
  exists2 i, (i < size bins)%N & secular (nth raw0 bins i).1 (nth raw0 bins i).2 (nth 0 r i) <> 0.
Proof.
have [r e] := ex_conv true; exists ex_bins, 1%N, r; split; first exact: ex_exact.
split=> //; exists 0%N => //; apply: (C29_normalized_never ex_exact e) => // v.
by rewrite inE; apply/eqP => -[]; lra.
Qed.
(** [max_iter=0] is not usable: the code reads an unbound loop variable *)
Theorem C29_zero_iterations fl nrm bins : solve_equation fl 0 nrm bins = None.
Proof. by rewrite /solve_equation; case: oseq. Qed.
Example C29_instance : exists r, solve_equation identity_fl 1 false ex_bins = Some (r, false) /\
  top_root [:: (4, 1%R : Cx)] 7 (nth 0 r 0).
Proof.
have [r e] := ex_conv false; exists r; split=> //.
have [_ /(_ 0%N isT)[root [tr [_ [_ er]]]]] := C29_exact ex_exact e; by rewrite er.
Qed.

Print Assumptions C29_floored.
Print Assumptions C29_exact.
Print Assumptions C29_terminates.
Print Assumptions C29_limit.
Print Assumptions C29_normalized.
Print Assumptions C29_normalized_refuted.
