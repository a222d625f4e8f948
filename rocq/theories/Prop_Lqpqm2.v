(** Property C63: [lqpqm2] and the minimisation problem of its docstring.

    The recovery of the solution from the multiplier is right, so the function
    returns the minimiser whenever [solve_equation] returns the root it is
    documented to return.  It does not in general, because [lqpqm2] asks for
    [normalization=True] (see C29), and in the branch for v = 0 a row of the
    matrix of eigenvectors is used in place of a column. *)
From Coq Require Import Reals Lra.
From mathcomp Require Import all_ssreflect all_algebra.
From mathcomp.algebra_tactics Require Import ring.
From Verif Require Import RStruct MxC CxR NpLin RealLemmas Eigh EighProofs Cubic CubicProofs
  Lqpqm LqpqmProofs Prop_Lqpqm Lqpqm2 Lqpqm2Proofs.
Import Order.TTheory GRing.Theory Num.Theory.
Set Implicit Arguments.
Unset Strict Implicit.
Unset Printing Implicit Defensive.
Local Open Scope ring_scope.

(** [objective H v z q] is q^H q - log((q + v)^H H (q + v) + z), defined where the
    argument of the logarithm is positive *)
Definition penalty n (H : 'M[Cx]_n) (v : 'cV[Cx]_n) (z : R) (q : 'cV[Cx]_n) : R :=
  (re (((q + v)^H *m H *m (q + v)) 0%R 0%R) + z)%coqR.
Definition objective n (H : 'M[Cx]_n) (v : 'cV[Cx]_n) (z : R) (q : 'cV[Cx]_n) : R :=
  (re ((q^H *m q) 0%R 0%R) - ln (penalty H v z q))%coqR.
Definition minimises n (H : 'M[Cx]_n) (v : 'cV[Cx]_n) (z : R) (y : 'cV[Cx]_n) : Prop :=
  (0 < penalty H v z y)%coqR /\
  forall q, (0 < penalty H v z q)%coqR -> (objective H v z y <= objective H v z q)%coqR.

(** [k] is the largest eigenvalue of the Hermitian matrix H *)
Definition top_eig n (H : 'M[Cx]_n) (k : R) : Prop :=
  (exists2 x : 'cV[Cx]_n, x != 0 & H *m x = c k *: x) /\
  forall x : 'cV[Cx]_n, (re ((x^H *m H *m x) 0%R 0%R) <= k * re ((x^H *m x) 0%R 0%R))%coqR.
(** v is not orthogonal to any eigenvector for the largest eigenvalue *)
Definition generic n (H : 'M[Cx]_n) (v : 'cV[Cx]_n) (k : R) : Prop :=
  forall x : 'cV[Cx]_n, x != 0 -> H *m x = c k *: x -> (x^H *m v) 0 0 != 0.

Lemma norm_re n (q : 'cV[Cx]_n) : re ((q^H *m q) 0 0) = \sum_i cabs (q i 0) ^+ 2.
Proof. by have := form1E q; rewrite /form mulmx1 => ->; rewrite rec. Qed.
Lemma penaltyE n (H : 'M[Cx]_n) v z q : penalty H v z q = lq_arg H v z q.
Proof. by []. Qed.
Lemma objectiveE n (H : 'M[Cx]_n) v z q : objective H v z q = lq_obj H v z q.
Proof. by rewrite /objective norm_re. Qed.

Lemma rsum_pairs m f (phi : 'rV[R]_m.+1) vt :
  rsum f (lq_pairs phi vt) = \sum_i f (phi 0 i, vt i 0).
Proof.
rewrite /lq_pairs -[RHS]big_enum /=; elim: (enum _) => [|i s IH] /=; first by rewrite big_nil.
by rewrite big_cons IH.
Qed.
Lemma mem_pairs m (phi : 'rV[R]_m.+1) (vt : 'cV[Cx]_m.+1) (p : pv) :
  reflect (exists i, p = (phi 0 i, vt i 0)) (p \in lq_pairs phi vt).
Proof.
apply: (iffP mapP) => [[i _ ->]|[i ->]]; first by exists i.
by exists i => //; rewrite mem_enum.
Qed.

Section Spec.
Variables (m : nat) (H : 'M[Cx]_m.+1) (v : 'cV[Cx]_m.+1) (z : R) (phi : 'rV[R]_m.+1) (P : 'M[Cx]_m.+1).
Hypothesis s : eigh_spec H (phi, P).
Let vt := P^H *m v.

Lemma fn_arg l : (forall i, (phi 0%R i < l)%coqR) ->
  secular (lq_pairs phi vt) z l = (lq_arg H v z (lq_pt v phi P l) - l)%coqR.
Proof.
move=> hl; rewrite secularE /lq_fn rsum_pairs (lq_arg_pt _ _ s hl) -/vt.
have -> : \sum_i (phi 0%R i * cabs (vt i 0%R) ^ 2 / (l - phi 0%R i) ^ 2)%coqR =
          \sum_i phi 0 i * cabs (vt i 0) ^+ 2 / (l - phi 0 i) ^+ 2.
  apply: eq_bigr => i _; rewrite !RpowE /Rdiv; toR; rewrite -RinvE //.
  by rewrite -RpowE; apply: pow_nonzero; have := hl i; lra.
rewrite -!RpowE; set S := \sum_i _; move: S => S; toR; lra.
Qed.
Lemma top_phi k : top_eig H k -> (forall i, (phi 0%R i <= k)%coqR) /\ exists i, phi 0 i = k.
Proof.
move=> [[x x0 ex] hx]; have [/= uP e _] := s; split=> [i|].
  have := hx (col i P); have := eigh_val i s; rewrite /form /= => <-; rewrite rec.
  have -> : ((col i P)^H *m col i P) 0 0 = 1.
    transitivity ((P^H *m P) i i); last by rewrite uP mxE eqxx.
    by rewrite !mxE; apply: eq_bigr => j _; rewrite !mxE.
  by rewrite re1; toR; lra.
have w0 : P^H *m x != 0.
  apply: contra x0 => /eqP e0; rewrite -[x]mul1mx -(unitaryC uP) -mulmxA e0 mulmx0 //.
have [i wi] : exists i, (P^H *m x) i 0 != 0.
  apply/existsP; apply: contraR w0; rewrite negb_exists => /forallP h; apply/eqP/matrixP => i j.
  by rewrite (ord1 j) [RHS]mxE; apply/eqP; have := h i; rewrite negbK.
exists i; apply: c_inj; apply: (mulIf wi).
have : P^H *m H *m x = rdiag phi *m (P^H *m x).
  by rewrite mulmxA (eigh_recompose s) /recompose /= -!mulmxA (mulmxA P^H) uP mul1mx.
rewrite -mulmxA ex -scalemxAr => /(congr1 (fun M : 'cV_m.+1 => M i 0)) /esym.
by rewrite mul_diag_mx [in RHS]mxE [in LHS]mxE [in LHS]mxE.
Qed.
Lemma top_vt k i : generic H v k -> phi 0 i = k -> vt i 0 != 0.
Proof.
move=> g e; have := g (col i P) (eigh_col_neq0 i s).
have -> : ((col i P)^H *m v) 0 0 = vt i 0 by rewrite !mxE; apply: eq_bigr => j _; rewrite !mxE.
apply; have [_ /= h _] := s.
rewrite !colE mulmxA h -mulmxA scalemxAr -e; congr (_ *m _).
by apply/matrixP => j l; rewrite (ord1 l) mul_diag_mx !mxE eqxx andbT; case: eqP => [->|]; rewrite ?mulr1 // !mulr0.
Qed.
End Spec.

(** the value handed back by [solve_equation] for one bin on convergence *)
Lemma prep_root b bn k : exact_bin b -> lq_prep identity_fl true b = Some bn ->
  lq_conv identity_fl (lq_l bn) (lq_z bn) (lq_iter identity_fl bn k) ->
  let x := (lq_iter identity_fl bn k * lq_scale bn)%coqR in
  exists2 p : R * Cx, p \in b.1 & (forall q : R * Cx, q \in b.1 -> (q.1 <= p.1)%coqR) /\ (p.1 < x)%coqR /\
      (secular b.1 b.2 x = (p.1 ^ 2 - 1) * (x - b.2))%coqR.
Proof.
move=> h ep cv; cbv zeta; have rd := exact_ready h; have [_ l0 _ _] := h.
have [pm [ep' g s0 pml pmax]] := prep_true rd; rewrite mask0 // in pml pmax.
rewrite ep in ep'; move: ep' => [ebn]; rewrite {}ebn {ep} [lq_scale _]/= in cv *.
have [root [/(_ k) [/= b1 b2 b3 b4 [b5 b6]] _]] := bin_iter identity_fl g.
move: cv; rewrite /lq_iter [lq_l _]/= [lq_z _]/= [lq_max _]/= [lq_vmax _]/=.
move: b4 b5 b6; set mu := iter k _ _ => b4 b5 b6 cv; set x := (mu * pm.1)%coqR.
have f0 : lq_fn [seq scale_pv pm.1 (lq_mask identity_fl p) | p <- b.1] (b.2 / pm.1)%coqR mu = 0.
  by have := conv_le cv; rewrite Rabs_pos_eq // -[identity_fl 0]/0%coqR => ?; apply: Rle_antisym.
exists pm; first exact: pml.
split=> //.
have x1 : (pm.1 < x)%coqR by have := Rmult_lt_compat_r pm.1 1 mu s0 (proj1 b4); rewrite /x; lra.
split=> //; rewrite secularE /lq_fn.
have mE : [seq scale_pv pm.1 (lq_mask identity_fl p) | p <- b.1] = [seq scale_pv pm.1 p | p <- b.1].
  by rewrite -[in RHS](mask0 l0) -map_comp.
move: f0; rewrite mE lq_fn_scale // -/x; last exact: (proj1 b4).
set S := rsum _ _ => f0.
have e1 : (/ pm.1 ^ 2 * (x ^ 2 * S) - (x - b.2) = 0)%coqR.
  by case/Rmult_integral: f0 => // e; have := Rinv_0_lt_compat _ s0; lra.
have : (pm.1 ^ 2 * (/ pm.1 ^ 2 * (x ^ 2 * S) - (x - b.2)) = 0)%coqR by rewrite e1; lra.
have -> : (pm.1 ^ 2 * (/ pm.1 ^ 2 * (x ^ 2 * S) - (x - b.2)) = x ^ 2 * S - pm.1 ^ 2 * (x - b.2))%coqR.
  by Rfield; lra.
lra.
Qed.
(** the documented root exists *)
Lemma root_exists b : exact_bin b -> exists root, top_root b.1 b.2 root.
Proof.
move=> h; have h1 i : (i < size [:: b])%N -> exact_bin (nth raw0 [:: b] i) by case: i.
have [r [w e]] : exists r w, solve_equation identity_fl 1 false [:: b] = Some (r, w).
  have [pm [ep _]] := prep_false (exact_ready h).
  by rewrite /solve_equation [[seq _ | _ <- _]]/= ep /=; case: ifP => _; do 2 eexists.
by have [_ /(_ 0%N isT)[root [tr _]]] := C29_exact h1 e; exists root.
Qed.

Section Call.
Variables (m : nat) (H : 'M[Cx]_m.+1) (v : 'cV[Cx]_m.+1) (z : R) (k : R).
Hypotheses (pH : psd H) (z0 : (0 <= z)%coqR) (tk : top_eig H k) (k0 : (0 < k)%coqR) (g : generic H v k).

Lemma pairs_exact phi P : eigh_spec H (phi, P) -> exact_bin (lq_pairs phi (P^H *m v), z).
Proof.
move=> s; have [hk [i0 ei0]] := top_phi s tk; split=> //=.
- by move=> e; have : (phi 0 i0, (P^H *m v) i0 0) \in lq_pairs phi (P^H *m v) by [apply/mem_pairs; exists i0]; rewrite e.
- by move=> p /mem_pairs[i ->] /=; have := eigh_val_ge0 i pH s.
- move=> p /mem_pairs[i ->] hp /=.
  have e : phi 0 i = k.
    apply: Rle_antisym; first exact: hk.
    by have /= := hp _ (introT (mem_pairs _ _ _) (ex_intro _ i0 erefl)); rewrite ei0.
  by split; [rewrite e|apply: (top_vt s g e)].
Qed.
(** the exact root gives the unique minimiser *)
Lemma root_minimises phi P l : eigh_spec H (phi, P) ->
  (forall i, (phi 0%R i < l)%coqR) -> secular (lq_pairs phi (P^H *m v)) z l = 0 ->
  minimises H v z (lq_pt v phi P l) /\
  forall q, minimises H v z q -> q = lq_pt v phi P l.
Proof.
move=> s hl; rewrite (fn_arg v z s hl) => e0.
have [hk [i0 ei0]] := top_phi s tk.
have l0 : (0 < l)%coqR by have := hl i0; rewrite ei0; lra.
have e : lq_arg H v z (lq_pt v phi P l) = l by move: e0; toR; lra.
have mn : minimises H v z (lq_pt v phi P l).
  split; first by rewrite penaltyE e.
  move=> q q0; rewrite !objectiveE; have := lq_optimal s hl l0 e q0.
  have d0 := lq_dist_ge0 v P hl q.
  have : (0 <= lq_dist v phi P l q / l)%coqR by apply: Rmult_le_pos => //; left; apply: Rinv_0_lt_compat.
  lra.
split=> // q [q0 hq]; apply: (lq_optimal_uniq s hl l0 e q0).
by rewrite -!objectiveE; apply: hq; case: mn.
Qed.
End Call.

Section Calls.
Variables (eig : eigh_t) (m : nat) (sing : R -> bool) (n : nat) (bins : seq (lqin m)).
Hypothesis He : eigh_contract eig.
Variables (ys : seq 'cV[Cx]_m.+1) (i : nat).

Lemma regularE phi P v l y : lq_regular phi P (lq_tilde P v) l = Some y ->
  (forall j, l - phi 0 j != 0) /\ y = lq_pt (n := m.+1) v phi P l.
Proof. by rewrite /lq_regular; case: forallP => // h [<-]; split. Qed.

(** C63: a bin whose largest eigenvalue is 1, on convergence: the unique minimiser *)
Theorem C63_unit : lqpqm2 eig identity_fl sing n bins = Some (ys, false) -> (i < size bins)%N ->
  let: (H, v, z) := nth (0, 0, 0%R) bins i in
  sing (vnorm v) = false -> psd H -> (0 <= z)%coqR -> top_eig H 1%R -> generic H v 1%R ->
  minimises H v z (nth 0 ys i) /\ forall q, minimises H v z q -> q = nth 0 ys i.
Proof.
move=> e hi; case eb: (nth _ bins i) => [[H v] z] sb pH z0 tk g.
have [_ [k [_ /(_ i hi)]]] := lqpqm2_nth e; rewrite -/lqin0 eb /lq_is_singular /= sb => -[bn [p1 p2 p3]].
have s := He pH.1; move: p1 p2; case er: (eig H) s => [phi P] s /= p1 p2.
have [_ ->] := regularE p2.
have ex := pairs_exact pH z0 tk Rlt_0_1 g s.
have [p pl [hp [hx es]]] := prep_root ex p1 (p3 erefl).
have [hk [j ej]] := top_phi s tk.
have p1' : p.1 = 1.
  apply: Rle_antisym; first by move: pl => /mem_pairs[j' ->]; apply: hk.
  by have := hp _ (introT (mem_pairs _ _ _) (ex_intro _ j erefl)); rewrite /= ej.
move: es hx; set x := (lq_iter _ _ _ * _)%coqR => es hx.
have hl j' : (phi 0%R j' < x)%coqR.
  by have := hp _ (introT (mem_pairs _ _ _) (ex_intro _ j' erefl)) => /=; lra.
have sr : secular (lq_pairs phi (P^H *m v)) z x = 0 by move: es; rewrite /= p1'; toR; lra.
exact: (root_minimises tk Rlt_0_1 s hl sr).
Qed.

(** the objective exceeds its infimum at most by the residual of the equation *)
Lemma residual_gap H v z phi P x q : eigh_spec H (phi, P) -> (forall j, (phi 0%R j < x)%coqR) -> (1 <= x)%coqR ->
  (0 <= secular (lq_pairs phi (P^H *m v)) z x)%coqR -> (0 < penalty H v z q)%coqR ->
  (objective H v z (lq_pt v phi P x) <= objective H v z q + secular (lq_pairs (m := m) phi (P^H *m v)) z x)%coqR.
Proof.
move=> s hl x1; rewrite (fn_arg v z s hl) !objectiveE; set a := lq_arg _ _ _ (lq_pt _ _ _ _) => f0 q0.
have x0 : (0 < x)%coqR by lra.
have a0 : (0 < a)%coqR by lra.
have := lq_gap s hl x0 a0 q0; rewrite -/a /=.
have i0 : (0 < / x)%coqR by apply: Rinv_0_lt_compat.
have d0 : (0 <= lq_dist v phi P x q / x)%coqR by apply: Rmult_le_pos; [exact: lq_dist_ge0|lra].
have r1 : (a / x - 1 = (a - x) * / x)%coqR by Rfield; lra.
have r2 : (0 <= (a - x) * / x <= a - x)%coqR.
  split; first by apply: Rmult_le_pos; lra.
  rewrite -{2}[(a - x)%coqR]Rmult_1_r; apply: Rmult_le_compat_l; first lra.
  by rewrite -Rinv_1; apply: Rinv_le_contravar; lra.
have l0 : (0 <= ln (a / x))%coqR.
  have : (1 <= a / x)%coqR by lra.
  by case=> [h|<-]; [left; rewrite -ln_1; apply: ln_increasing; lra|rewrite ln_1; lra].
lra.
Qed.

(** unit bins none of whose components is masked *)
Definition unmasked fl (H : 'M[Cx]_m.+1) (v : 'cV[Cx]_m.+1) : Prop :=
  let: (phi, P) := eig H in
  forall j, (fl 0 <= phi 0%R j * cabs ((P^H *m v)%R j 0%R) ^ 2)%coqR.
Lemma unit_iter fl H v z phi P bn k : eig H = (phi, P) -> fl 1%coqR = 1%coqR -> unmasked fl H v ->
  psd H -> (0 <= z)%coqR -> top_eig H 1%R -> generic H v 1%R ->
  lq_prep fl true (lq_pairs phi (P^H *m v), z) = Some bn ->
  [/\ lq_scale bn = 1%coqR, forall j, (phi 0%R j < lq_iter fl bn k)%coqR, (1 <= lq_iter fl bn k)%coqR,
      (0 <= secular (lq_pairs phi (P^H *m v)) z (lq_iter fl bn k))%coqR &
      lq_fn (lq_l bn) (lq_z bn) (lq_iter fl bn k) = secular (lq_pairs phi (P^H *m v)) z (lq_iter fl bn k)] /\
  good bn.
Proof.
move=> er f1 um pH z0 tk g ep; have s := He pH.1; rewrite er in s.
rewrite /unmasked er in um.
have [hk [j ej]] := top_phi s tk; have [ne l0 _ ex] := pairs_exact pH z0 tk Rlt_0_1 g s.
have mk : [seq lq_mask fl p | p <- lq_pairs phi (P^H *m v)] = lq_pairs phi (P^H *m v).
  by rewrite -[RHS]map_id; apply/eq_in_map => p /mem_pairs[j' ->]; rewrite maskE; case: keptP => // -[]; apply: um.
have inj : (phi 0 j, (P^H *m v) j 0) \in lq_pairs phi (P^H *m v) by apply/mem_pairs; exists j.
have rd : ready fl (lq_pairs phi (P^H *m v), z).
  split=> //=; rewrite mk => pm pml hp; have [h1 h2] := ex pm pml hp; split=> //.
  suff -> : pm.1 = 1%coqR by [].
  apply: Rle_antisym; first by case/mem_pairs: pml => j' ->; apply: hk.
  by have := hp _ inj; rewrite /= ej.
have [pm [ep' gb s0 pml pmx]] := prep_true rd; rewrite /= mk in pml pmx.
have p1 : pm.1 = 1%coqR.
  apply: Rle_antisym; first by case/mem_pairs: pml => j' ->; apply: hk.
  by have := pmx _ inj; rewrite /= ej.
have idE (l : seq pv) : [seq scale_pv 1 p | p <- l] = l.
  rewrite -[RHS]map_id; apply: eq_map => -[a b]; rewrite /scale_pv /= cR1 invr1 mulr1.
  by rewrite /Rdiv Rinv_1 Rmult_1_r.
have mk2 : [seq scale_pv pm.1 (lq_mask fl p) | p <- lq_pairs phi (P^H *m v)] = lq_pairs phi (P^H *m v).
  by rewrite p1 -[in RHS](idE (lq_pairs phi (P^H *m v))) -[in RHS]mk -map_comp.
rewrite /= mk2 in ep' gb; rewrite ep in ep'; move: ep' => [ebn]; rewrite -ebn in gb; split=> //.
have [root [/(_ k) [b1 b2 b3 b4 [b5 b6]] _]] := bin_iter fl gb.
rewrite -/(lq_iter fl bn k) in b4 b5 b6.
have mx : lq_max bn = 1%coqR by rewrite ebn.
have fe x : lq_fn (lq_l bn) (lq_z bn) x = secular (lq_pairs phi (P^H *m v)) z x.
  by rewrite secularE ebn /= p1 /Rdiv Rinv_1 Rmult_1_r.
split; last exact: fe.
- by rewrite ebn.
- by move=> j'; have := hk j'; move: b4; rewrite mx; toR; lra.
- by move: b4; rewrite mx; lra.
- by rewrite -fe.
Qed.

(** C63: for a bin whose largest eigenvalue is 1, a call that converged within the floor
    returns a point whose objective is within the floor of the infimum *)
Theorem C63_floored eps w : (0 < eps <= 1)%coqR ->
  lqpqm2 eig (max_flooring eps) sing n bins = Some (ys, w) -> w = false -> (i < size bins)%N ->
  let: (H, v, z) := nth (0, 0, 0%R) bins i in
  sing (vnorm v) = false -> psd H -> (0 <= z)%coqR -> top_eig H 1%R -> generic H v 1%R ->
  unmasked (max_flooring eps) H v ->
  forall q, (0 < penalty H v z q)%coqR -> (objective H v z (nth 0%R ys i) <= objective H v z q + eps)%coqR.
Proof.
move=> [e0 e1] e w0 hi; case eb: (nth _ bins i) => [[H v] z] sb pH z0 tk g um q q0.
have [_ [k [_ /(_ i hi)]]] := lqpqm2_nth e; rewrite -/lqin0 eb /lq_is_singular /= sb => -[bn [p1 p2 /(_ w0) p3]].
have s := He pH.1; move: p1 p2; case er: (eig H) s => [phi P] s /= p1 p2.
have [_ ->] := regularE p2.
have f1 : max_flooring eps 1%coqR = 1%coqR by rewrite /max_flooring Rmax_left.
have [[sc h1 h2 h3 h4] gb] := unit_iter k er f1 um pH z0 tk g p1.
rewrite sc Rmult_1_r; have := residual_gap s h1 h2 h3 q0.
by have := conv_le p3; rewrite h4 Rabs_pos_eq // fl0 //; lra.
Qed.
(** C63, identity flooring: the objective converges to its infimum as [max_iter] grows,
    whatever the other bins *)
Theorem C63_limit H v z delta : (i < size bins)%N -> nth (0, 0, 0%R) bins i = (H, v, z) ->
  sing (vnorm v) = false -> psd H -> (0 <= z)%coqR -> top_eig H 1%R -> generic H v 1%R -> (0 < delta)%coqR ->
  exists N, forall n' ys' w, (N <= n')%N -> lqpqm2 eig identity_fl sing n' bins = Some (ys', w) ->
  forall q, (0 < penalty H v z q)%coqR -> (objective H v z (nth 0%R ys' i) <= objective H v z q + delta)%coqR.
Proof.
move=> hi eb sb pH z0 tk g d0.
have s := He pH.1; case er: (eig H) s => [phi P] s.
have um : unmasked identity_fl H v.
  rewrite /unmasked er => j; apply: Rmult_le_pos; last exact: pow2_ge_0.
  by have := eigh_val_ge0 j pH s.
have [bn ep] : exists bn, lq_prep identity_fl true (lq_pairs phi (P^H *m v), z) = Some bn.
  have [pm [ep _ _ _ _]] := prep_true (exact_ready (pairs_exact pH z0 tk Rlt_0_1 g s)).
  by rewrite ep; eexists.
have [[sc _ _ _ _] gb] := unit_iter 0 er erefl um pH z0 tk g ep.
have [root [hb /(_ _ d0)[N hN]]] := bin_iter identity_fl gb; exists N => n' ys' w Nn e q q0.
have [_ [k [[_ st] /(_ i hi)]]] := lqpqm2_nth e; rewrite -/lqin0 eb /lq_is_singular /= sb er /= => -[bn' [p1 p2 p3]].
move: p1; rewrite ep => -[ebn]; rewrite -{}ebn in p2 p3; have [_ ->] := regularE p2.
have [[_ h1 h2 h3 h4] _] := unit_iter k er erefl um pH z0 tk g ep.
rewrite sc Rmult_1_r; have := residual_gap s h1 h2 h3 q0; rewrite -h4.
suff : (lq_fn (lq_l bn) (lq_z bn) (lq_iter identity_fl bn k) <= delta)%coqR by lra.
case: st => [->|/p3 cv]; first by have [] := hN n' Nn.
have := conv_le cv; rewrite -[identity_fl _]/0%coqR; have := Rle_abs (lq_fn (lq_l bn) (lq_z bn) (lq_iter identity_fl bn k)); lra.
Qed.

(** ... and when the largest eigenvalue is not 1, what is returned on convergence is
    never the minimiser *)
Theorem C63_never k0 : lqpqm2 eig identity_fl sing n bins = Some (ys, false) -> (i < size bins)%N ->
  let: (H, v, z) := nth (0, 0, 0%R) bins i in
  sing (vnorm v) = false -> psd H -> (0 <= z)%coqR -> top_eig H k0 -> (0 < k0)%coqR -> k0 <> 1%coqR ->
  generic H v k0 -> ~ minimises H v z (nth 0 ys i).
Proof.
move=> e hi; case eb: (nth _ bins i) => [[H v] z] sb pH z0 tk k0p k1 g mn.
have [_ [k [_ /(_ i hi)]]] := lqpqm2_nth e; rewrite -/lqin0 eb /lq_is_singular /= sb => -[bn [p1 p2 p3]].
have s := He pH.1; move: p1 p2; case er: (eig H) s => [phi P] s /= p1 p2.
have [h0 ye] := regularE p2.
have ex := pairs_exact pH z0 tk k0p g s.
have [p pl [hp [hx es]]] := prep_root ex p1 (p3 erefl).
have [hk [j ej]] := top_phi s tk.
have pk : p.1 = k0.
  apply: Rle_antisym; first by move: pl => /mem_pairs[j' ->]; apply: hk.
  by have := hp _ (introT (mem_pairs _ _ _) (ex_intro _ j erefl)); rewrite /= ej.
have [root [ab sr _]] := root_exists ex.
have hr j' : (phi 0%R j' < root)%coqR by apply: (ab (phi 0 j', (P^H *m v) j' 0)); apply/mem_pairs; exists j'.
have [_ /(_ _ mn)] := root_minimises tk k0p s hr sr.
move: hx es ye; set x := (lq_iter _ _ _ * _)%coqR => hx es -> eq.
(* equal points have equal multipliers *)
have vj : (P^H *m v) j 0 != 0 := top_vt s g ej.
have := congr1 (fun y : 'cV_m.+1 => (P^H *m y) j 0) eq; rewrite !(lq_ptE _ s) ej.
have kc : c k0 != 0 by apply: c_neq0; lra.
move/(mulfI (mulf_neq0 kc vj)); move/invr_inj/c_inj => e1.
have xr : x = root by move: e1; toR; lra.
move: es; rewrite /= xr sr pk => /esym/Rmult_integral[|xz].
  have -> : (k0 ^ 2 - 1 = (k0 - 1) * (k0 + 1))%coqR by Rring.
  by move/Rmult_integral => []; lra.
move: sr; rewrite (fn_arg v z s hr) => /=.
rewrite (lq_arg_pt _ _ s hr); set S := \sum_l _ => sr.
suff S0 : (0 < S)%coqR.
  have : (0 < root ^ 2 * S)%coqR.
    by apply: Rmult_lt_0_compat => //; apply: pow_lt; have := hr j; rewrite ej; lra.
  by move: sr xz; rewrite -!RpowE; toR; lra.
rewrite /S (bigD1 j) //= ej; toR; rewrite -[X in (X < _)%coqR]Rplus_0_r; apply: Rplus_lt_le_compat.
  apply/RltP; apply: mulr_gt0; first apply: mulr_gt0.
  - exact/RltP.
  - by apply/RltP; rewrite -RpowE; apply: pow_lt; apply: cabs_gt0.
  - by rewrite invr_gt0; apply/RltP; rewrite -RpowE; apply: pow_lt; have := hr j; rewrite ej; toR; lra.
apply: sumR_ge0 => l _; apply/RleP; apply: mulr_ge0; last by rewrite invr_ge0 sqr_ge0.
apply: mulr_ge0; last exact: sqr_ge0.
by apply/RleP; have := eigh_val_ge0 l pH s.
Qed.
End Calls.

(** ** one-dimensional problems (IPA with two sources) *)
Lemma top_scalar (h : R) : top_eig ((c h)%:M : 'M[Cx]_1) h.
Proof.
split.
  exists (1%:M : 'cV[Cx]_1); first by apply/eqP => /(congr1 (fun M : 'M_1 => M 0 0)) /eqP; rewrite !mxE oner_eq0.
  by rewrite mulmx1 scalemx1.
move=> x; rewrite mul_mx_scalar -scalemxAl [(_ *: _ : 'M__) _ _]mxE reMc; toR; lra.
Qed.
Lemma scalar_psd (h : R) : (0 <= h)%coqR -> psd ((c h)%:M : 'M[Cx]_1).
Proof.
by move=> h0; rewrite -scalemx1; apply: (psdZ (c_ge0 h0)); apply: pd_psd; exact: pd1.
Qed.
Lemma pairs1 (phi : 'rV[R]_1) (vt : 'cV[Cx]_1) : lq_pairs phi vt = [:: (phi 0 0, vt 0 0)].
Proof. by rewrite /lq_pairs enum_ordS enum_ord0 /= (ord1 ord0). Qed.
Lemma spec1 (h : R) phi P : eigh_spec ((c h)%:M : 'M[Cx]_1) (phi, P) -> phi 0 0 = h.
Proof. by move=> s; have [_ [i <-]] := top_phi s (top_scalar h); rewrite (ord1 i). Qed.
Lemma tilde1 (P : 'M[Cx]_1) (v : 'cV[Cx]_1) : unitary P -> cabs ((P^H *m v) 0 0) = cabs (v 0 0).
Proof.
move=> uP; have := norm_unitary v uP; rewrite !big_ord1.
rewrite -!RpowE => e; have := cabs_ge0 ((P^H *m v) 0 0); have := cabs_ge0 (v 0 0) => h1 h2.
by apply: Rsqr_inj => //; rewrite !Rsqr_pow2.
Qed.

Lemma newton_root l z mx x k : (mx < x)%coqR -> lq_fn l z x = 0 -> iter k (lq_newton l z mx) x = x.
Proof.
move=> h e; elim: k => //= k ->; rewrite /lq_newton e /Rdiv Rmult_0_l Rminus_0_r.
by case: Rlt_dec.
Qed.
(** one regular entry of size [h] with a component that is not masked: the initial value
    of the Newton iteration is already the root of the (rescaled) equation *)
Lemma one_entry fl (h : R) (u : Cx) z k : (0 < h)%coqR -> u != 0 -> (0 <= z)%coqR -> fl h = h ->
  (fl 0 <= h * cabs u ^ 2)%coqR ->
  exists bn, [/\ lq_prep fl true ([:: (h, u)], z) = Some bn, lq_scale bn = h,
    (h < lq_iter fl bn k * h)%coqR &
    lq_fn (lq_l bn) (lq_z bn) (lq_iter fl bn k) = 0 /\
    lq_fn [seq scale_pv h p | p <- [:: (h, u)]] (z / h)%coqR (lq_iter fl bn k) = 0].
Proof.
move=> h0 u0 z0 fh fu.
have mk : lq_mask fl (h, u) = (h, u) by rewrite maskE; case: keptP.
have rd : ready fl ([:: (h, u)], z).
  split=> //=; first by move=> p; rewrite inE => /eqP -> /=; lra.
  by move=> pm; rewrite mk inE => /eqP -> _ /=; split.
have [pm [ep g s0 pml _]] := prep_true rd; move: pml; rewrite /= mk inE => /eqP pmE.
rewrite {}pmE /= mk in ep g; exists (LqBin [:: scale_pv h (h, u)] (z / h)%coqR 1%coqR (u / c h) h).
set bn := LqBin _ _ _ _ _ in ep g *.
have ll : lq_l bn = [:: (lq_max bn, lq_vmax bn)].
  by rewrite /bn /= /scale_pv /=; congr [:: (_, _)]; rewrite /Rdiv Rinv_r //; lra.
have f0 := one_bin_conv fl g ll.
have [mx _] := init_ok fl g.
have it : lq_iter fl bn k = lq_init fl (lq_max bn) (lq_vmax bn) (lq_z bn) by apply: newton_root.
split=> //; last by rewrite it.
rewrite it; have := Rmult_lt_compat_r h _ _ h0 mx; rewrite -[lq_max bn]/1%coqR; lra.
Qed.

(** C63, one-dimensional bin with unit coefficient: the unique minimiser, for every
    flooring function that does not act on 1 and does not mask the component of v,
    whatever the other bins and the iteration limit *)
Theorem C63_one eig fl sing n (bins : seq (lqin 0)) ys w i : eigh_contract eig ->
  lqpqm2 eig fl sing n bins = Some (ys, w) -> (i < size bins)%N ->
  let: (H, v, z) := nth (0, 0, 0%R) bins i in
  sing (vnorm v) = false -> H = 1%:M -> (0 <= z)%coqR -> v != 0 ->
  fl 1%coqR = 1%coqR -> (fl 0%coqR <= cabs (v 0%R 0%R) ^ 2)%coqR ->
  minimises H v z (nth 0 ys i) /\ forall q, minimises H v z q -> q = nth 0 ys i.
Proof.
move=> He e hi; case eb: (nth _ bins i) => [[H v] z] sb HE z0 v0 f1 f0.
have [_ [k [_ /(_ i hi)]]] := lqpqm2_nth e; rewrite -/lqin0 eb /lq_is_singular /= sb => -[bn [p1 p2 _]].
have HE' : H = (c 1)%:M by rewrite HE c1.
have pH : psd H by rewrite HE'; apply: scalar_psd; exact: Rle_0_1.
have s := He _ _ pH.1; move: p1 p2; case er: (eig _ H) s => [phi P] s /= p1 p2.
have [_ ->] := regularE p2.
have uP := eigh_unitary s; have tE := tilde1 v uP.
have ph : phi 0 0 = 1%coqR by apply: (@spec1 1%coqR phi P); rewrite -HE'.
have v00 : v 0 0 != 0.
  apply: contra v0 => /eqP e0; apply/eqP/matrixP => a b; by rewrite (ord1 a) (ord1 b) mxE.
have u0 : (P^H *m v) 0 0 != 0.
  by rewrite -cabs_eq0 tE cabs_eq0.
have [|bn' []] := @one_entry fl 1%coqR ((P^H *m v) 0 0) z k Rlt_0_1 u0 z0 f1; first by rewrite tE Rmult_1_l.
rewrite -[RHS]/(Some bn') -{1}ph -pairs1 -/(lq_tilde P v) p1 => -[<-] sc hx [_ hf].
rewrite sc; set x := (lq_iter fl bn k * 1)%coqR in hx *.
have hl j : (phi 0%R j < x)%coqR by rewrite (ord1 j) ph.
have tk : top_eig H 1%coqR by rewrite HE'; exact: top_scalar.
have sr : secular (lq_pairs phi (P^H *m v)) z x = 0.
  have sE (u : Cx) : [seq scale_pv 1 p | p <- [:: (1%coqR, u)]] = [:: (1%coqR, u)].
    by rewrite /= /scale_pv /= cR1 invr1 mulr1 /Rdiv Rinv_1 Rmult_1_r.
  by move: hf; rewrite sE secularE pairs1 ph /x Rmult_1_r /Rdiv Rinv_1 Rmult_1_r.
exact: (root_minimises tk Rlt_0_1 s hl sr).
Qed.

(** the branch for v = 0 in one dimension: a minimiser *)
Lemma singular_real h z t : (0 < h)%coqR -> (0 <= z)%coqR -> (0 <= t)%coqR -> (0 < h * t + z)%coqR ->
  let l := Rmax z h in
  ((l - z) / h - ln l <= t - ln (h * t + z))%coqR.
Proof.
move=> h0 z0 t0 a0 l.
have l0 : (0 < l)%coqR by have := Rmax_r z h; rewrite -/l; lra.
have q0 : (0 < (h * t + z) / l)%coqR by apply: Rdiv_lt_0_compat.
have := @ln_le_sub1 _ q0.
have -> : (ln ((h * t + z) / l) = ln (h * t + z) - ln l)%coqR.
  by rewrite /Rdiv ln_mult ?ln_Rinv //; apply: Rinv_0_lt_compat.
suff : ((l - z) / h <= t - (h * t + z) / l + 1)%coqR by lra.
rewrite /l; case: (Rle_dec z h) => zh.
  rewrite Rmax_right //; apply: Req_le; Rfield; lra.
rewrite Rmax_left; last lra.
have -> : ((z - z) / h = 0)%coqR by Rfield; lra.
have -> : (t - (h * t + z) / z + 1 = t * ((z - h) * / z))%coqR by Rfield; lra.
apply: Rmult_le_pos => //; apply: Rmult_le_pos; [lra|left; apply: Rinv_0_lt_compat; lra].
Qed.
Theorem C63_one_singular eig fl sing n (bins : seq (lqin 0)) ys w i : eigh_contract eig ->
  lqpqm2 eig fl sing n bins = Some (ys, w) -> (i < size bins)%N ->
  let: (H, v, z) := nth (0, 0, 0%R) bins i in
  sing 0%coqR -> v = 0 -> forall h, (0 < h)%coqR -> H = (c h)%:M -> (0 <= z)%coqR ->
  minimises H v z (nth 0 ys i).
Proof.
move=> He e hi; case eb: (nth _ bins i) => [[H v] z] sb v0 h h0 HE z0.
have [_ [k [_ /(_ i hi)]]] := lqpqm2_nth e; rewrite -/lqin0 eb /lq_is_singular /= v0.
have -> : vnorm (0 : 'cV[Cx]_1) = 0.
  by rewrite /vnorm big1 ?R_sqrt.sqrt_0 // => j _; rewrite mxE cabs0 expr0n.
rewrite -/(is_true _) in sb; rewrite sb.
have pH : psd H by rewrite HE; apply: scalar_psd; lra.
have s := He _ _ pH.1; case er: (eig _ H) s => [phi P] s /=.
have ph : phi 0 0 = h by apply: (@spec1 h phi P); rewrite -HE.
rewrite /lq_singular (ord1 ord_max) ph; case: eqP => [hz|_ [<-]]; first by move: h0; rewrite hz; toR; lra.
set sc := R_sqrt.sqrt _; have l0 := Rmax_r z h; have l1 := Rmax_l z h.
have pen (q : 'cV[Cx]_1) : penalty H 0 z q = (h * cabs (q 0%R 0%R) ^ 2 + z)%coqR.
  rewrite /penalty addr0 HE mul_mx_scalar -scalemxAl [(_ *: _ : 'M__) _ _]mxE reMc norm_re big_ord1.
  by rewrite RpowE; toR.
have obj (q : 'cV[Cx]_1) : objective H 0 z q = (cabs (q 0%R 0%R) ^ 2 - ln (h * cabs (q 0%R 0%R) ^ 2 + z))%coqR.
  by rewrite /objective pen norm_re big_ord1 RpowE.
have [uP _ _] := s; have P1 : cabs (P 0 0) = 1.
  have := congr1 (fun M : 'M_1 => M 0 0) uP; rewrite !mxE big_ord1 ctrE /= mulr1n => e1.
  have : cabs (P 0 0) ^+ 2 = 1 by rewrite -re_zzc mulrC e1.
  by rewrite -RpowE => h2; apply: Rsqr_inj; [exact: cabs_ge0|exact: Rle_0_1|rewrite Rsqr_pow2 h2 /Rsqr; toR; lra].
have sn : (0 <= (Rmax z h - z) / h)%coqR by apply: Rmult_le_pos; [lra|left; exact: Rinv_0_lt_compat].
have ey : (cabs ((c sc *: (row 0%R P)^T) 0%R 0%R) ^ 2 = (Rmax z h - z) / h)%coqR.
  rewrite !mxE cabsM cabs_c P1 mulr1 Rabs_pos_eq /sc; last exact: R_sqrt.sqrt_pos.
  by rewrite Rmax_left // pow2_sqrt.
have py : (h * ((Rmax z h - z) / h) + z = Rmax z h)%coqR by Rfield; lra.
split; first by rewrite pen ey py; lra.
move=> q; rewrite pen !obj ey py => q0; apply: singular_real => //; exact: pow2_ge_0.
Qed.

(** ** the branch for v = 0 in three dimensions *)
Definition diag3 (a b d : R) : 'M[Cx]_3 :=
  diag_mx (\row_j c (if j == 0%N :> nat then a else if j == 1%N :> nat then b else d)).
Lemma ord3P (i : 'I_3) : [\/ i = 0, i = 1 | i = ord_max].
Proof.
case: i => -[|[|[|//]]] hi; [constructor 1|constructor 2|constructor 3]; exact: val_inj.
Qed.
(** in [diag(a, b, d)] with d < a < b the eigenvectors are, in ascending order, the third,
    first and second unit vector; the last row of the matrix of eigenvectors is therefore
    a multiple of the first unit vector *)
Lemma diag3_eigh (a b d : R) phi P : (d < a < b)%coqR -> eigh_spec (diag3 a b d) (phi, P) ->
  phi 0 ord_max = b /\
  exists2 u, cabs u = 1 & (row ord_max P)^T = u *: delta_mx 0 0.
Proof.
move=> [da ab] s; have [/= uP e srt] := s.
have ent (i j : 'I_3) : ((if i == 0%N :> nat then a else if i == 1%N :> nat then b else d) - phi 0 j != 0) -> P i j = 0.
  move=> n0; have := congr1 (fun M : 'M_3 => M i j) e; rewrite mul_diag_mx mul_mx_diag !mxE => h.
  apply/eqP; move: h => /eqP; rewrite -subr_eq0 [P i j * _]mulrC -mulrBl mulf_eq0 -cB c_eq0.
  by rewrite (negbTE n0).
have p0 j : P 0 j != 0 -> phi 0 j = a.
  by move=> h; apply/eqP; rewrite eq_sym -subr_eq0; apply: contraR h => /(ent 0 j) ->.
have p1 j : P 1 j != 0 -> phi 0 j = b.
  by move=> h; apply/eqP; rewrite eq_sym -subr_eq0; apply: contraR h => /(ent 1 j) ->.
have p2 j : P ord_max j != 0 -> phi 0 j = d.
  by move=> h; apply/eqP; rewrite eq_sym -subr_eq0; apply: contraR h => /(ent ord_max j) ->.
have rowN i : exists j, P i j != 0.
  apply/existsP; apply: contraT; rewrite negb_exists => /forallP h.
  have := congr1 (fun M : 'M_3 => M i i) (unitaryC uP); rewrite !mxE eqxx big1 => [/eqP|j _].
    by rewrite eq_sym oner_eq0.
  by have := h j; rewrite negbK => /eqP ->; rewrite mul0r.
have cases j : [\/ phi 0 j = a, phi 0 j = b | phi 0 j = d].
  have [i] : exists i, P i j != 0.
    apply/existsP; apply: contraT; rewrite negb_exists => /forallP h.
    have := congr1 (fun M : 'M_3 => M j j) uP; rewrite !mxE eqxx big1 => [/eqP|i _].
      by rewrite eq_sym oner_eq0.
    by have := h i; rewrite negbK => /eqP ->; rewrite mulr0.
  by case: (ord3P i) => ->; [move/p0|move/p1|move/p2] => ->; [constructor 1|constructor 2|constructor 3].
have [jb /p1 ejb] := rowN 1; have [jd hjd] := rowN ord_max; have ejd := p2 _ hjd.
have top : phi 0 ord_max = b.
  have := srt jb ord_max (leq_ord jb); rewrite ejb.
  by case: (cases ord_max) => ->; lra.
have bot : phi 0 0 = d.
  have := srt 0 jd (leq0n jd); rewrite ejd.
  by case: (cases 0) => ->; lra.
have colz i j : phi 0 j = d -> i != ord_max -> P i j = 0.
  move=> ej ni; apply: ent; rewrite ej; apply/eqP.
  by case: (ord3P i) ni => -> // _ /=; toR; lra.
have other j : P ord_max j != 0 -> j = 0.
  move=> hj; apply/eqP; apply: contraT => j0; have ej := p2 _ hj.
  have h00 : P ord_max 0 != 0.
    apply: contraT; rewrite negbK => /eqP z0.
    have := congr1 (fun M : 'M_3 => M 0 0) uP; rewrite !mxE eqxx big1 => [/eqP|i _].
      by rewrite eq_sym oner_eq0.
    by case: (eqVneq i ord_max) => [->|ni]; rewrite ?z0 ?(colz _ _ bot ni) mulr0.
  have := congr1 (fun M : 'M_3 => M 0 j) uP; rewrite !mxE eq_sym (negbTE j0) (bigD1 ord_max) //= big1 ?addr0.
    by rewrite ctrE => /eqP; rewrite mulf_eq0 conjC_eq0 (negbTE h00) (negbTE hj).
  by move=> i ni; rewrite (colz _ _ ej ni) mulr0.
split=> //; exists (P ord_max 0).
  have := congr1 (fun M : 'M_3 => M ord_max ord_max) (unitaryC uP).
  rewrite !mxE eqxx (bigD1 0) //= big1 ?addr0 => [|j j0]; last first.
    by have [->|/other ej] := eqVneq (P ord_max j) 0; rewrite ?mul0r // ej eqxx in j0 *.
  rewrite ctrE => h; have : cabs (P ord_max 0) ^+ 2 = 1 by rewrite -re_zzc h.
  rewrite -RpowE => h2; apply: Rsqr_inj; [exact: cabs_ge0|exact: Rle_0_1|].
  by rewrite Rsqr_pow2 h2 /Rsqr; toR; lra.
apply/matrixP => j l; rewrite (ord1 l) !mxE eqxx andbT.
have [->|nj] := eqVneq j 0; first by rewrite mulr1.
by rewrite mulr0; apply/eqP; apply: contraR nj => /other ->.
Qed.

(** C63: for the matrix diag(2, 3, 1), v = 0 and z = 0 the call succeeds without warning
    and returns a unit vector of the wrong eigenspace, whatever [eigh] chooses *)
Theorem C63_singular_refuted eig fl (sing : R -> bool) n : eigh_contract eig -> sing 0%coqR ->
  exists y, lqpqm2 eig fl sing n.+1 [:: (diag3 2 3 1, 0, 0%coqR)] = Some ([:: y], false) /\
  psd (diag3 2 3 1) /\ ~ minimises (diag3 2 3 1) 0 0%coqR y.
Proof.
move=> He sb.
have pH : psd (diag3 2 3 1).
  rewrite /diag3; set w := \row_j _.
  have -> : diag_mx w = rdiag (map_mx re w) by congr diag_mx; apply/rowP => j; rewrite !mxE rec.
  by apply: psd_rdiag => j; rewrite !mxE rec; case: (ord3P j) => -> /=; lra.
have s := He _ _ pH.1; case er: (eig _ _) s => [phi P] s.
have [|top [u u1 eu]] := diag3_eigh _ s; first lra.
have v0 : vnorm (0 : 'cV[Cx]_3) = 0.
  by rewrite /vnorm big1 ?R_sqrt.sqrt_0 // => j _; rewrite mxE cabs0 expr0n.
exists (u *: delta_mx 0 0); split; last first.
  split=> // -[_ /(_ (delta_mx 1 0))].
  have pen (x : 'cV[Cx]_3) : penalty (diag3 2 3 1) 0 0%coqR x =
      (2 * cabs (x 0%R 0%R) ^ 2 + 3 * cabs (x 1%R 0%R) ^ 2 + cabs (x ord_max 0%R) ^ 2)%coqR.
    rewrite /penalty addr0 mxE (bigD1 0) //= (bigD1 1) //= (bigD1 ord_max) //= big1; last first.
      by move=> i; case: (ord3P i) => ->.
    rewrite !mul_mx_diag !mxE /= addr0 !reD.
    have cv (t : R) (y : Cx) : re (y^* * c t * y) = (t * cabs y ^ 2)%coqR.
      by rewrite mulrAC mulrC reMc mulrC re_zzc RpowE.
    have g (a b d : R) : ((2 * a + (3 * b + 1 * d)) + 0 = 2 * a + 3 * b + d)%coqR by lra.
    by rewrite !cv; exact: g.
  have e1 (i : 'I_3) : (delta_mx 1 0 : 'cV[Cx]_3) i 0 = (i == 1)%:R by rewrite mxE eqxx andbT.
  have e0 (i : 'I_3) : (u *: delta_mx 0 0 : 'cV[Cx]_3) i 0 = u * (i == 0)%:R by rewrite !mxE eqxx andbT.
  have pe : penalty (diag3 2 3 1) 0 0%coqR (delta_mx 1 0) = 3%coqR.
    by rewrite pen !e1 /= cabs0 cabs1; toR; lra.
  have py : penalty (diag3 2 3 1) 0 0%coqR (u *: delta_mx 0 0) = 2%coqR.
    by rewrite pen !e0 /= !cabsM cabs0 cabs1 u1; toR; lra.
  rewrite /objective pe py !norm_re => /(_ ltac:(lra)).
  have -> : \sum_i cabs ((delta_mx 1 0 : 'cV[Cx]_3) i 0) ^+ 2 = 1.
    by rewrite (bigD1 1) //= big1 => [|i /negbTE ni]; rewrite e1 ?eqxx ?ni /= ?cabs1 ?cabs0 ?expr1n ?addr0 ?expr0n.
  have -> : \sum_i cabs ((u *: delta_mx 0 0 : 'cV[Cx]_3) i 0) ^+ 2 = 1.
    rewrite (bigD1 0) //= big1 => [|i /negbTE ni]; rewrite e0 ?eqxx ?ni /= ?mulr1 ?mulr0 ?cabs0 ?expr0n //.
    by rewrite u1 expr1n addr0.
  have := ln_increasing 2 3; toR; lra.
rewrite /lqpqm2 /= er /lq_is_singular /= v0 sb /=.
rewrite /lq_singular top eu; case: eqP => [h|_] /=; first by move: h; toR; lra.
congr (Some ([:: _], _)); rewrite (Rmax_right 0%coqR 3%coqR); last lra.
have -> : ((3 - 0) / 3 = 1)%coqR by Rfield; lra.
by rewrite Rmax_left ?R_sqrt.sqrt_1 ?cR1 ?scale1r //; lra.
Qed.

Lemma col1_neq0 (v : 'cV[Cx]_1) : v != 0 -> v 0 0 != 0.
Proof.
by move=> v0; apply: contra v0 => /eqP e0; apply/eqP/matrixP => a b; rewrite (ord1 a) (ord1 b) mxE.
Qed.
Lemma generic1 (h : R) (v : 'cV[Cx]_1) : v != 0 -> generic ((c h)%:M : 'M[Cx]_1) v h.
Proof.
move=> v0 x x0 _; rewrite mxE big_ord1 ctrE.
by rewrite mulf_neq0 ?conjC_eq0 ?col1_neq0.
Qed.
Lemma one_run eig sing n h v z : eigh_contract eig -> (0 < h)%coqR -> v != 0 -> (0 <= z)%coqR ->
  sing (vnorm v) = false ->
  exists y, lqpqm2 eig identity_fl sing n.+1 [:: ((c h)%:M, v : 'cV[Cx]_1, z)] = Some ([:: y], false).
Proof.
move=> He h0 v0 z0 sv; have pH : psd ((c h)%:M : 'M[Cx]_1) by apply: scalar_psd; lra.
have s := He _ _ pH.1; case er: (eig _ _) s => [phi P] s.
have ph := spec1 s; have uP := eigh_unitary s; have tE := tilde1 v uP.
have u0 : (P^H *m v) 0 0 != 0 by rewrite -cabs_eq0 tE cabs_eq0 col1_neq0.
have fu : (identity_fl 0 <= h * cabs ((P^H *m v) 0%R 0%R) ^ 2)%coqR.
  by apply: Rmult_le_pos; [lra|exact: pow2_ge_0].
rewrite /lqpqm2 /= /lq_is_singular /= sv /= er /lq_bin er /= pairs1 ph /lq_tilde.
have [bn [p1 sc hx [hf _]]] := @one_entry identity_fl h _ z 0%N h0 u0 z0 erefl fu.
have cv : lq_conv identity_fl (lq_l bn) (lq_z bn) (lq_init identity_fl (lq_max bn) (lq_vmax bn) (lq_z bn)).
  by apply: le_conv; rewrite -/(lq_iter identity_fl bn 0) hf Rabs_R0; exact: Rle_refl.
rewrite /solve_equation [[seq _ | _ <- _]]/= p1 /= cv /= cv /= /lq_regular.
case: forallP => [_|]; first by eexists.
case=> j; rewrite (ord1 j) ph sc; apply/eqP; move: hx; rewrite /lq_iter /=; toR; lra.
Qed.

(** C63: in one dimension with a coefficient other than 1 the call always succeeds
    without warning and never returns the minimiser *)
Theorem C63_refuted eig sing n h v z : eigh_contract eig -> (0 < h)%coqR -> h <> 1%coqR ->
  v != 0 -> (0 <= z)%coqR -> sing (vnorm v) = false ->
  exists y, lqpqm2 eig identity_fl sing n.+1 [:: ((c h)%:M, v : 'cV[Cx]_1, z)] = Some ([:: y], false) /\
    ~ minimises (c h)%:M v z y.
Proof.
move=> He h0 h1 v0 z0 sv; have [y e] := one_run n He h0 v0 z0 sv; exists y; split=> //.
have := @C63_never eig 0 sing n.+1 _ He _ 0%N h e isT; rewrite [nth _ _ _]/=; apply=> //.
- by apply: scalar_psd; lra.
- exact: top_scalar.
- exact: generic1.
Qed.

(** C63 with the default flooring, unit coefficient: a linear term of norm between the
    floor and its square root is masked out of the equation but not treated as zero; the
    returned point then has an objective larger than another point by more than 1/20 *)
Theorem C63_floor_refuted eig eps e n : eigh_contract eig -> (0 < eps <= / 100)%coqR ->
  (eps <= e)%coqR -> (e ^ 2 < eps)%coqR ->
  let v := const_mx (c e) : 'cV[Cx]_1 in let z := (1 / 2)%coqR in
  exists y, lqpqm2 eig (max_flooring eps) (sing_floor (max_flooring eps)) n.+1 [:: (1%:M, v, z)]
     = Some ([:: y], false) /\
  exists q, (0 < penalty 1%:M v z q)%coqR /\ (objective 1%:M v z q + / 20 < objective 1%:M v z y)%coqR.
Proof.
move=> He [e0 e1] ee e2 v z.
have H1 : 1%:M = (c 1)%:M :> 'M[Cx]_1 by rewrite c1.
have pH : psd (1%:M : 'M[Cx]_1) by apply: pd_psd; apply: pd1.
have s := He _ _ pH.1; case er: (eig _ _) s => [phi P] s.
have ph : phi 0 0 = 1%coqR by rewrite H1 in s; apply: spec1 s.
have uP := eigh_unitary s; have tE := tilde1 v uP.
have ve : cabs (v 0 0) = e by rewrite mxE cabs_c Rabs_pos_eq //; lra.
have vn : vnorm v = e.
  by rewrite /vnorm big_ord1 ve -RpowE R_sqrt.sqrt_pow2 //; lra.
have f0 : max_flooring eps 0%coqR = eps by apply: fl0.
set u := (P^H *m v) 0 0 in tE.
have mk : lq_mask (max_flooring eps) (1%coqR, u) = (0%coqR, 0%R).
  by rewrite maskE; case: keptP => //; rewrite f0 /= tE ve; lra.
set bn := LqBin [:: ((0 / eps)%coqR, 0 * (c eps)^-1)] (z / eps)%coqR (eps / eps)%coqR (0 * (c eps)^-1) eps.
have ep : lq_prep (max_flooring eps) true ([:: (1%coqR, u)], z) = Some bn.
  by rewrite /lq_prep [[seq _ | _ <- _]]/= mk /= f0.
have ee1 : (eps / eps = 1)%coqR by Rfield; lra.
have z1 : (1 < z / eps)%coqR.
  apply: (Rmult_lt_reg_r eps); first lra.
  have -> : (z / eps * eps = z)%coqR by Rfield; lra.
  rewrite /z; lra.
have fn x : lq_fn (lq_l bn) (lq_z bn) x = (- x + z / eps)%coqR.
  rewrite /lq_fn /bn /= mul0r cabs0; have -> : (0 / eps = 0)%coqR by Rfield; lra.
  by rewrite /Rdiv; toR; Rring.
have init : lq_init (max_flooring eps) (lq_max bn) (lq_vmax bn) (lq_z bn) = (z / eps)%coqR.
  rewrite /lq_init /bn [lq_max _]/= [lq_vmax _]/= [lq_z _]/= ee1 mul0r cabs0.
  move: (z / eps)%coqR z1 => Z Z1.
  set A := (- _)%coqR; set B := ((1 + _) * 1)%coqR; set C := (- _ * _)%coqR.
  have cE x : (cubicR A B C x = (x - 1) ^ 2 * (x - Z))%coqR.
    by rewrite /cubicR /A /B /C; toR; Rring.
  have [|h1 h2] := @find_largest_root_spec A B C.
    have -> : disc (depP A B) (depQ A B C) = 0%coqR.
      by rewrite /disc /depP /depQ /A /B /C; toR; Rfield.
    lra.
  move: h1 h2; set r := find_largest_root A B C; rewrite cE => h1 h2.
  have rZ : (Z <= r)%coqR by apply: h2; rewrite cE; Rring.
  have er' : r = Z.
    case/Rmult_integral: h1 => h1; last lra.
    by have : (0 < (r - 1) ^ 2)%coqR; [apply: pow_lt; lra|lra].
  by case: (Rlt_dec 1 r) => h /=; [rewrite er' Rmax_left; lra|lra].
have it k : lq_iter (max_flooring eps) bn k = (z / eps)%coqR.
  by rewrite /lq_iter init; apply: newton_root; [rewrite /bn /= ee1; exact: z1|rewrite fn; toR; lra].
exists (lq_pt v phi P (1 / 2)%coqR); split.
  have sv : sing_floor (max_flooring eps) (vnorm v) = false.
    by rewrite vn /sing_floor f0; apply/RltbP; lra.
  rewrite /lqpqm2 /= /lq_is_singular /= sv /= er /lq_bin er /= pairs1 ph /lq_tilde -/u.
  have cv : lq_conv (max_flooring eps) (lq_l bn) (lq_z bn) (lq_init (max_flooring eps) (lq_max bn) (lq_vmax bn) (lq_z bn)).
    by apply: le_conv; rewrite init fn f0 Rplus_opp_l Rabs_R0; lra.
  rewrite /solve_equation [[seq _ | _ <- _]]/= ep /= cv /= cv /=.
  move: init; rewrite /bn /= => ->.
  have -> : (z / eps * eps = 1 / 2)%coqR by rewrite /z; Rfield; lra.
  rewrite /lq_regular; case: forallP => [_ //|[j]].
  by rewrite (ord1 j) ph; apply/eqP; toR; lra.
have hy : (lq_pt v phi P (1 / 2)%coqR) 0 0 = - c 2%coqR * v 0 0.
  rewrite /lq_pt mxE big_ord1 mxE ph -/u.
  have P1 : P 0 0 * (P 0 0)^* = 1.
    by have := congr1 (fun M : 'M_1 => M 0 0) (unitaryC uP); rewrite !mxE big_ord1 ctrE.
  have uE : u = (P 0 0)^* * v 0 0 by rewrite /u mxE big_ord1 ctrE.
  have t2 : c ((1 / 2)%coqR - 1%coqR)%R = - (c 2%coqR)^-1.
    by rewrite -cRV -?cN; [congr c; toR; lra|lra].
  rewrite t2 uE cR1 mul1r invrN invrK.
  have -> : P 0 0 * ((P 0 0)^* * v 0 0 * - c 2%coqR) = (P 0 0 * (P 0 0)^*) * (- c 2%coqR * v 0 0) by ring.
  by rewrite P1 mul1r.
have pen (q : 'cV[Cx]_1) : penalty 1%:M v z q = (cabs (q 0%R 0%R + v 0%R 0%R) ^ 2 + z)%coqR.
  by rewrite /penalty mulmx1 norm_re big_ord1 mxE RpowE.
have obj (q : 'cV[Cx]_1) : objective 1%:M v z q =
    (cabs (q 0%R 0%R) ^ 2 - ln (cabs (q 0%R 0%R + v 0%R 0%R) ^ 2 + z))%coqR.
  by rewrite /objective pen norm_re big_ord1 -RpowE.
exists (const_mx (c (1 / 2)%coqR)); rewrite pen !obj hy.
have q2 : cabs ((const_mx (c (1 / 2)%coqR) : 'cV[Cx]_1) 0%R 0%R + v 0 0) = (1 / 2 + e)%coqR.
  by rewrite !mxE -cRD cabs_c Rabs_pos_eq //; lra.
have y1 : cabs (- c 2%coqR * v 0 0) = (2 * e)%coqR.
  by rewrite mulNr cabsN cabsM ve cabs_c Rabs_pos_eq //; lra.
have y2 : cabs (- c 2%coqR * v 0 0 + v 0 0) = e.
  have -> : - c 2%coqR * v 0 0 + v 0 0 = - v 0 0 by rewrite cR2; ring.
  by rewrite cabsN.
rewrite q2 y2 y1 mxE cabs_c (Rabs_pos_eq (1 / 2)); last lra.
split; first by have := pow2_ge_0 (1 / 2 + e); rewrite /z; lra.
have a1 : (3 / 4 <= (1 / 2 + e) ^ 2 + z)%coqR by rewrite /z /=; nra.
have a2 : (e ^ 2 + z <= 51 / 100)%coqR by rewrite /z; lra.
have e2p := pow2_ge_0 e.
have l1 : (ln (3 / 4) <= ln ((1 / 2 + e) ^ 2 + z))%coqR.
  by case: a1 => [a1|<-]; [left; apply: ln_increasing; lra|right].
have l2 : (ln (e ^ 2 + z) <= ln (51 / 100))%coqR.
  by case: a2 => [a2|->]; [left; apply: ln_increasing; rewrite /z in a2 *; lra|right].
have l3 : (ln (51 / 100) - ln (3 / 4) <= - 32 / 100)%coqR.
  have q0 : (0 < (51 / 100) / (3 / 4))%coqR by lra.
  have := @ln_le_sub1 _ q0; rewrite {1}/Rdiv ln_mult ?ln_Rinv; lra.
have := pow2_ge_0 (2 * e); lra.
Qed.

(** instances: a unit bin in one dimension, and a two-dimensional bin meeting the
    hypotheses of C63_unit, C63_limit and C63_never *)
Example C63_instance eig n : eigh_contract eig ->
  exists y, lqpqm2 eig identity_fl sing_none n.+1 [:: ((c 1)%:M, const_mx 1 : 'cV[Cx]_1, 1%coqR)] = Some ([:: y], false)
    /\ minimises (c 1)%:M (const_mx 1) 1%coqR y.
Proof.
move=> He; have v0 : const_mx 1 != 0 :> 'cV[Cx]_1.
  by apply/eqP => /(congr1 (fun M : 'M_1 => M 0 0)) /eqP; rewrite !mxE oner_eq0.
have sv : sing_none (vnorm (const_mx 1 : 'cV[Cx]_1)) = false.
  rewrite /vnorm big_ord1 mxE cabs1 expr1n -[1%R]/1%coqR R_sqrt.sqrt_1; apply/eqP; toR; lra.
have [y e] := one_run n He Rlt_0_1 v0 Rle_0_1 sv; exists y; split=> //.
have := @C63_unit eig 0 sing_none n.+1 _ He _ 0%N e isT; rewrite [nth _ _ _]/= => -[] //.
- by apply: scalar_psd; exact: Rle_0_1.
- exact: Rle_0_1.
- exact: top_scalar.
- exact: generic1.
Qed.
Definition ex_H (k : R) : 'M[Cx]_2 := rdiag (\row_j if j == 0 then (k / 2)%coqR else k).
Example C63_instance_two k : (0 < k)%coqR ->
  [/\ psd (ex_H k), top_eig (ex_H k) k & generic (ex_H k) (const_mx 1) k].
Proof.
move=> k0; have ord2 (i : 'I_2) : i = 0 \/ i = 1 := ord2P i.
split.
- by apply: psd_rdiag => j; rewrite mxE; case: ifP => _; lra.
- split.
    exists (delta_mx 1 0).
      by apply/eqP => /(congr1 (fun M : 'M_(2, 1) => M 1 0)) /eqP; rewrite !mxE oner_eq0.
    apply/matrixP => i j; rewrite (ord1 j) mul_diag_mx !mxE.
    by case: (ord2 i) => -> /=; rewrite ?mulr0 ?mulr1.
  move=> x; rewrite -/(form _ x x) form_rdiag rec norm_re !sum2 !mxE /=.
  have := pow2_ge_0 (cabs (x 0 0)); rewrite !RpowE; toR; nra.
- move=> x x0 /matrixP e; rewrite mxE sum2 !ctrE !mxE !mulr1.
  have x00 : x 0 0 = 0.
    have := e 0 0; rewrite mul_diag_mx !mxE /= => /eqP; rewrite -subr_eq0 -mulrBl mulf_eq0 => /orP[|/eqP //].
    by rewrite -cB c_eq0 => /eqP; toR; lra.
  rewrite x00 conjC0 add0r conjC_eq0; apply: contra x0 => /eqP x10.
  by apply/eqP/matrixP => i j; rewrite (ord1 j) mxE; case: (ord2 i) => ->.
Qed.

Print Assumptions C63_unit.
Print Assumptions C63_floored.
Print Assumptions C63_limit.
Print Assumptions C63_never.
Print Assumptions C63_one.
Print Assumptions C63_one_singular.
Print Assumptions C63_singular_refuted.
Print Assumptions C63_refuted.
Print Assumptions C63_floor_refuted.
