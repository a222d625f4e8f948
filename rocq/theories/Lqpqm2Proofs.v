(** Lemmas about the model of [lqpqm2] (Lqpqm2.v). *)
From Coq Require Import Reals Lra.
From mathcomp Require Import all_ssreflect all_algebra.
From mathcomp.algebra_tactics Require Import ring.
From Verif Require Import RStruct MxC CxR NpLin RealLemmas Eigh EighProofs Cubic CubicProofs
  Lqpqm LqpqmProofs Lqpqm2.
Import Order.TTheory GRing.Theory Num.Theory.
Set Implicit Arguments.
Unset Strict Implicit.
Unset Printing Implicit Defensive.
Local Open Scope ring_scope.

(** the documented objective (docstring of [lqpqm2]) *)
Definition lq_arg n (H : 'M[Cx]_n) (v : 'cV[Cx]_n) (z : R) (q : 'cV[Cx]_n) : R :=
  (re (form H (q + v) (q + v)) + z)%R.
Definition lq_obj n (H : 'M[Cx]_n) (v : 'cV[Cx]_n) (z : R) (q : 'cV[Cx]_n) : R :=
  ((\sum_i cabs (q i 0%R) ^+ 2)%R - ln (lq_arg H v z q))%coqR.

(** ** one coordinate *)
Lemma coord_sq (l p : R) (q v : Cx) : l - p != 0 ->
  l * cabs q ^+ 2 - p * cabs (q + v) ^+ 2 =
  (l - p) * cabs (q - c p * v / c (l - p)) ^+ 2 - l * p / (l - p) * cabs v ^+ 2.
Proof.
move=> n0; have n1 : c l - c p != 0 by rewrite -cB c_eq0.
apply: c_inj; rewrite !(cB, cM, cV, cabs_sqr) !(rmorphM, rmorphB, rmorphD, fmorphV) /= -!/(_^*) !c_conj.
by field.
Qed.
Lemma coord_arg (l p : R) (v : Cx) : l - p != 0 ->
  p * cabs (c p * v / c (l - p) + v) ^+ 2 = l ^+ 2 * (p * cabs v ^+ 2 / (l - p) ^+ 2).
Proof.
move=> n0; have n1 : c l - c p != 0 by rewrite -cB c_eq0.
apply: c_inj; rewrite !(cB, cM, cV, cX, cR_cabs_sqr) !(rmorphM, rmorphB, rmorphD, fmorphV) /= ?c_conj.
by field.
Qed.

(** ** the objective in the eigenbasis *)
Lemma norm_unitary n (P : 'M[Cx]_n) (x : 'cV[Cx]_n) : unitary P ->
  \sum_i cabs ((P^H *m x) i 0) ^+ 2 = \sum_i cabs (x i 0) ^+ 2.
Proof.
move=> uP; apply: c_inj; rewrite -!form1E.
by rewrite /form !mulmx1 ctrM ctrK -mulmxA (mulmxA P) unitaryC // mul1mx.
Qed.
Lemma form_eigh n (H : 'M[Cx]_n) r (x : 'cV[Cx]_n) : eigh_spec H r ->
  re (form H x x) = \sum_i r.1 0 i * cabs ((r.2^H *m x) i 0) ^+ 2.
Proof. by move=> s; rewrite (eigh_recompose s) form_recompose form_rdiag rec. Qed.

Section Minimiser.
Variables (n : nat) (H : 'M[Cx]_n) (v : 'cV[Cx]_n) (z : R) (phi : 'rV[R]_n) (P : 'M[Cx]_n).
Hypothesis s : eigh_spec H (phi, P).
Let vt := P^H *m v.

Lemma lq_argE q : lq_arg H v z q = \sum_i phi 0 i * cabs ((P^H *m q) i 0 + vt i 0) ^+ 2 + z.
Proof.
rewrite /lq_arg (form_eigh _ s) /=; congr (_ + _); apply: eq_bigr => i _.
by rewrite mulmxDr [(_ + _ : 'cV__) _ _]mxE.
Qed.

(** the stationary point for the multiplier [l] *)
Definition lq_pt (l : R) : 'cV[Cx]_n := P *m \col_i (c (phi 0 i) * vt i 0 / c (l - phi 0 i)).
Lemma lq_ptE l i : (P^H *m lq_pt l) i 0 = c (phi 0 i) * vt i 0 / c (l - phi 0 i).
Proof. by case: s => /= uP _ _; rewrite /lq_pt mulmxA uP mul1mx mxE. Qed.

Variable l : R.
Hypothesis hl : forall i, (phi 0%R i < l)%coqR.
Lemma lphi0 i : l - phi 0 i != 0.
Proof. by apply/eqP; have := hl i; toR; lra. Qed.

(** value of the argument of the logarithm: [l] plus the secular function *)
Lemma lq_arg_pt : lq_arg H v z (lq_pt l) =
  l ^+ 2 * (\sum_i phi 0 i * cabs (vt i 0) ^+ 2 / (l - phi 0 i) ^+ 2) + z.
Proof.
rewrite lq_argE mulr_sumr; congr (_ + _); apply: eq_bigr => i _.
by rewrite lq_ptE coord_arg // lphi0.
Qed.

(** the distance weighted by the gaps between [l] and the eigenvalues *)
Definition lq_dist (q : 'cV[Cx]_n) : R :=
  \sum_i (l - phi 0 i) * cabs ((P^H *m q) i 0 - c (phi 0 i) * vt i 0 / c (l - phi 0 i)) ^+ 2.
Lemma lq_dist_ge0 q : (0 <= lq_dist q)%coqR.
Proof.
apply: sumR_ge0 => i _; toR; apply: Rmult_le_pos; last by rewrite -RpowE; apply: pow2_ge_0.
by have := hl i; lra.
Qed.
Lemma lq_dist_pt : lq_dist (lq_pt l) = 0.
Proof. by rewrite /lq_dist big1 // => i _; rewrite lq_ptE subrr cabs0 expr0n /= mulr0. Qed.
Lemma lq_dist_eq0 q : lq_dist q = 0 -> q = lq_pt l.
Proof.
case: s => /= uP _ _ h.
have e i : (P^H *m q) i 0 = c (phi 0 i) * vt i 0 / c (l - phi 0 i).
  have p j : (0 <= (l - phi 0 j) * cabs ((P^H *m q) j 0 - c (phi 0 j) * vt j 0 / c (l - phi 0 j)) ^+ 2).
    apply: mulr_ge0; last exact: sqr_ge0.
    by apply/RleP; have := hl j; toR; lra.
  move: h; rewrite /lq_dist => /eqP; rewrite psumr_eq0 // => /allP /(_ i); rewrite mem_index_enum => /(_ isT) /=.
  by rewrite mulf_eq0 (negbTE (lphi0 i)) /= sqrf_eq0 cabs_eq0 subr_eq0 => /eqP.
rewrite /lq_pt -[LHS]mul1mx -(unitaryC uP) -mulmxA; congr (_ *m _).
by apply/matrixP => i j; rewrite (ord1 j) e mxE.
Qed.
Lemma lq_quad (q : 'cV[Cx]_n) : l * (\sum_i cabs (q i 0) ^+ 2) - lq_arg H v z q =
  lq_dist q - (\sum_i l * phi 0 i / (l - phi 0 i) * cabs (vt i 0) ^+ 2) - z.
Proof.
case: s => /= uP _ _; rewrite -(norm_unitary q uP) lq_argE mulr_sumr opprD addrA -!sumrB.
by congr (_ - _); apply: eq_bigr => i _; rewrite coord_sq // lphi0.
Qed.

(** a point obtained from an arbitrary multiplier above the spectrum is optimal
    up to [r - 1 - ln r] *)
Lemma lq_gap q : (0 < l)%coqR -> (0 < lq_arg H v z (lq_pt l))%coqR -> (0 < lq_arg H v z q)%coqR ->
  let r := (lq_arg H v z (lq_pt l) / l)%coqR in
  (lq_obj H v z (lq_pt l) + lq_dist q / l <= lq_obj H v z q + (r - 1 - ln r))%coqR.
Proof.
move=> l0 ay aq r.
have := lq_quad q; have := lq_quad (lq_pt l); rewrite lq_dist_pt.
rewrite /lq_obj; set Y := lq_arg H v z (lq_pt l) in ay r *; set Q := lq_arg H v z q in aq *.
set ny := \sum_i _; set K := \sum_i _; set nq := \sum_i _; set D := lq_dist q.
move: ny nq K D => ny nq K D; toR => e1 e2.
have r0 : (0 < r)%coqR by apply: Rdiv_lt_0_compat.
have q0 : (0 < Q / l)%coqR by apply: Rdiv_lt_0_compat.
have h := @ln_le_sub1 _ q0.
have eQ : (ln (Q / l) = ln Q - ln l)%coqR by rewrite /Rdiv ln_mult ?ln_Rinv //; apply: Rinv_0_lt_compat.
have er : (ln r = ln Y - ln l)%coqR by rewrite /r /Rdiv ln_mult ?ln_Rinv //; apply: Rinv_0_lt_compat.
have i0 : (0 < / l)%coqR by apply: Rinv_0_lt_compat.
have ne : (nq - ny = (D + Q - Y) / l)%coqR by apply: (Rmult_eq_reg_l l); [rewrite /Rdiv -Rmult_assoc Rinv_r_simpl_m; lra|lra].
have rE : (r = Y / l)%coqR by [].
rewrite /Rdiv in ne rE h eQ *; rewrite er rE.
lra.
Qed.
Lemma lq_optimal q : (0 < l)%coqR -> lq_arg H v z (lq_pt l) = l -> (0 < lq_arg H v z q)%coqR ->
  (lq_obj H v z (lq_pt l) + lq_dist q / l <= lq_obj H v z q)%coqR.
Proof.
move=> l0 e aq; have := lq_gap l0 _ aq; rewrite e /= => /(_ l0).
have -> : (l / l = 1)%coqR by rewrite /Rdiv Rinv_r //; lra.
rewrite ln_1; lra.
Qed.
Lemma lq_optimal_uniq q : (0 < l)%coqR -> lq_arg H v z (lq_pt l) = l -> (0 < lq_arg H v z q)%coqR ->
  (lq_obj H v z q <= lq_obj H v z (lq_pt l))%coqR -> q = lq_pt l.
Proof.
move=> l0 e aq le; have := lq_optimal l0 e aq; have := lq_dist_ge0 q => d0 h.
apply: lq_dist_eq0; apply: Rle_antisym => //.
have i0 : (0 < / l)%coqR by apply: Rinv_0_lt_compat.
apply: (Rmult_le_reg_r (/ l)) => //; move: h; rewrite /Rdiv Rmult_0_l; lra.
Qed.
End Minimiser.

(** ** the solver, bin by bin *)
Definition lq_iter fl (b : lqbin) (k : nat) : R :=
  iter k (lq_newton (lq_l b) (lq_z b) (lq_max b)) (lq_init fl (lq_max b) (lq_vmax b) (lq_z b)).

Lemma solve_nth fl n bins r w : solve_equation fl n true bins = Some (r, w) ->
  size r = size bins /\ exists k, ((k <= n)%N /\ (k = n \/ w = false)) /\
  forall i, (i < size bins)%N -> exists b, [/\ lq_prep fl true (nth raw0 bins i) = Some b,
     nth 0 r i = (lq_iter fl b k * lq_scale b)%coqR &
     w = false -> lq_conv fl (lq_l b) (lq_z b) (lq_iter fl b k)].
Proof.
rewrite /solve_equation; case e: oseq => [bs|] //; case: n => // n.
have [sz hp] := oseq_prep e.
rewrite -/(lq_run fl bs n.+1); have [k [kn [ek st]]] := runE fl bs n.+1.
move=> [<- <-]; have szr : size (lq_run fl bs n.+1) = size bs by rewrite ek size_map.
split; first by rewrite size_map size_zip szr minnn.
exists k; split=> [|i hi].
  by split=> //; case: st => st; [left|right; rewrite -/(lq_allconv _ _ _) st].
exists (nth bin0 bs i).
have nr : nth 0 (lq_run fl bs n.+1) i = lq_iter fl (nth bin0 bs i) k.
  by rewrite ek (nth_map bin0) ?sz.
split; first exact: hp.
- by rewrite (nth_map (bin0, 0)) ?size_zip ?szr ?minnn ?sz // nth_zip ?szr //= nr.
- move=> /negbFE /(nth_all_zip _ bin0 0 (esym szr)) /(_ i); rewrite sz => /(_ hi) /=.
  by rewrite nr.
Qed.

Lemma nth_filter_count T (x0 : T) (p : pred T) s i : (i < size s)%N -> p (nth x0 s i) ->
  nth x0 [seq x <- s | p x] (count p (take i s)) = nth x0 s i /\
  (count p (take i s) < size [seq x <- s | p x])%N.
Proof.
elim: s i => // x s IH [|i] /=; first by move=> _ ->.
by move=> hi /(IH i hi)[h1 h2]; case: (p x) => /=.
Qed.
Lemma oseq_nth T (x0 : T) (l : seq (option T)) r : oseq l = Some r ->
  size r = size l /\ forall i, (i < size l)%N -> nth None l i = Some (nth x0 r i).
Proof.
move/oseqE => ->; rewrite size_map; split=> // i hi; by rewrite (nth_map x0).
Qed.

Section Calls.
Variables (eig : eigh_t) (m : nat) (fl : R -> R) (sing : R -> bool) (n : nat).
Definition lqin0 : lqin m := (0, 0, 0).

Lemma scatter_size bins lambs : size (lq_scatter eig sing bins lambs) = size (bins : seq (lqin m)).
Proof.
elim: bins lambs => //= b bins IH lambs.
by case: (eig _) => phi sigma; case: ifP => _ /=; rewrite IH.
Qed.
Lemma scatter_nth bins lambs i : (i < size (bins : seq (lqin m)))%N ->
  let b := nth lqin0 bins i in let r := eig b.1.1 in
  nth None (lq_scatter eig sing bins lambs) i =
  if lq_is_singular sing b then lq_singular r.1 r.2 b.2
  else lq_regular r.1 r.2 (lq_tilde r.2 b.1.2)
         (nth 0 lambs (count (fun b => ~~ lq_is_singular sing b) (take i bins))).
Proof.
elim: bins lambs i => //= b bins IH lambs [|i] hi /=.
  by case: (eig _) => phi sigma; case: ifP => _ //=; rewrite nth0.
by case: (eig b.1.1) => phi sigma; case: ifP => /= e; rewrite IH // ?nth_behead.
Qed.

Lemma lqpqm2_nth bins ys w : lqpqm2 eig fl sing n bins = Some (ys, w) ->
  size ys = size bins /\ exists k, ((k <= n)%N /\ (k = n \/ w = false)) /\
  forall i, (i < size bins)%N ->
    let b := nth lqin0 bins i in let r := eig b.1.1 in
    if lq_is_singular sing b then lq_singular r.1 r.2 b.2 = Some (nth 0 ys i)
    else exists bn, [/\ lq_prep fl true (lq_pairs r.1 (lq_tilde r.2 b.1.2), b.2) = Some bn,
       lq_regular r.1 r.2 (lq_tilde r.2 b.1.2) (lq_iter fl bn k * lq_scale bn)%coqR = Some (nth 0 ys i) &
       w = false -> lq_conv fl (lq_l bn) (lq_z bn) (lq_iter fl bn k)].
Proof.
rewrite /lqpqm2; case e: solve_equation => [[lambs w']|] //; case e': oseq => [ys'|] // [<- <-].
have [sz hy] := oseq_nth 0 e'; rewrite scatter_size in sz hy.
have [szl [k [kn hk]]] := solve_nth e; rewrite size_map in szl hk.
split=> //; exists k; split=> [//|i hi]; set b := nth lqin0 bins i; set r := eig b.1.1; cbv zeta.
have := hy i hi; rewrite scatter_nth // -/b -/r; case: ifP => // sb.
have sb' : ~~ lq_is_singular sing (nth lqin0 bins i) by rewrite -/b sb.
have [c1 c2] := nth_filter_count (p := fun b => ~~ lq_is_singular sing b) hi sb'.
have [bn [p1 p2 p3]] := hk _ c2.
rewrite p2 => h; exists bn; split=> //.
by rewrite (nth_map lqin0) // c1 -/b /lq_bin -/r in p1; move: p1; case: (eig b.1.1) @r h => phi sigma.
Qed.
End Calls.
