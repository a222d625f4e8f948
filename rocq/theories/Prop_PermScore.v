(** C11, continued: the choice made by the score-based solver; concrete runs for C09-C12 *)
From Coq Require Import Reals Lra FunctionalExtensionality.
From mathcomp Require Import all_ssreflect all_algebra.
From Verif Require Import RStruct MxC CxR NpLin RealLemmas PermAlign PermAlignProofs Prop_PermAlign.
Import Order.TTheory GRing.Theory Num.Theory.
Set Implicit Arguments.
Unset Strict Implicit.
Unset Printing Implicit Defensive.
Local Open Scope ring_scope.

(** ** choice over real scores *)
Lemma cgt_c x y : cgt (Some (c x)) (Some (c y)) = Rltb y x.
Proof. by rewrite /cgt !rec; case: eqP => [->|_]; rewrite ?orbF //=; case: RltbP => //= _; apply/RltbP; exact: Rlt_irrefl. Qed.
Lemma argmax_best (g : seq nat -> R) f ps : (forall p, p \in ps -> f p = Some (c (g p))) ->
  argmax_perm f ps = best_perm (fun p => Some (g p)) ps.
Proof.
case: ps => [//|p ps] fE; rewrite /argmax_perm /best_perm /= fE ?mem_head //.
have fE' q : q \in ps -> f q = Some (c (g q)) by move=> h; apply: fE; rewrite inE h orbT.
rewrite cbetterE betterE; elim: ps p {fE} fE' => [//|q ps IH] p fE /=.
rewrite [f q]fE ?mem_head // cgt_c.
have fE' q' : q' \in ps -> f q' = Some (c (g q')) by move=> h; apply: fE; rewrite inE h orbT.
by case: ifP => _; exact: IH.
Qed.
Lemma cnsum_some (I : eqType) (l : seq I) (f : I -> cnum) (g : I -> R) : (forall i, i \in l -> f i = Some (c (g i))) ->
  cnsum [seq f i | i <- l] = Some (c (\sum_(i <- l) g i)).
Proof.
rewrite /cnsum => h.
have gen (l' : seq I) (z : R) : (forall i, i \in l' -> f i = Some (c (g i))) ->
    foldl cnadd (Some (c z)) [seq f i | i <- l'] = Some (c (z + \sum_(i <- l') g i)).
  elim: l' z => [|i l' IH] z hl /=; first by rewrite big_nil addr0.
  rewrite hl ?mem_head //= -cD IH ?big_cons ?addrA // => j jl; apply: hl; by rewrite inE jl orbT.
by rewrite -c0 gen // add0r.
Qed.
Lemma sum_iota n (g : nat -> R) : \sum_(i <- iota 0 n) g i = \sum_(i < n) g i.
Proof. by rewrite -(big_mkord xpredT g) /index_iota subn0. Qed.

(** ** the score, over real data [y] *)
Section RealScore.
Variables (fl : R -> R) (F n T : nat) (y : nat -> nat -> nat -> R).
Definition rmean (f : nat -> R) : R := (T%:R)^-1 * \sum_(t < T) f t.
Definition rstd (f : nat -> R) : R := R_sqrt.sqrt (rmean (fun t => (f t - rmean f) ^+ 2)).
(** frames of a source, shifted and scaled to mean zero and variance one *)
Definition standardised b s t : R := ((y b s t - rmean (y b s)) / rstd (y b s))%R.
(** average over the bins *)
Definition centroid s t : R := (F%:R)^-1 * \sum_(b < F) standardised b s t.
(** sum of the correlations with the centroid of the same source, minus those with the others *)
Definition agreement_score b (q : seq nat) : R :=
  \sum_(s < n) \sum_(s' < n) (if s == s' :> nat then 1 else -1) *
     (rmean (fun t => standardised b (nth 0%N q s) t * centroid s' t) / fl (rstd (centroid s)))%R.

Hypothesis T0 : (0 < T)%N.
Hypothesis F0 : (0 < F)%N.
Lemma Tn : (T == 0%N) = false. Proof. by case: T T0. Qed.
Lemma Fn : (F == 0%N) = false. Proof. by case: F F0. Qed.

Lemma mean_real f g : (forall t, (t < T)%N -> f t = c (g t)) -> mean_of T f = c (rmean g).
Proof. by move=> h; rewrite /mean_of /rmean cM c_sum; congr (_ * _); apply: eq_bigr => t _; exact: h. Qed.
Lemma std_real f g : (forall t, (t < T)%N -> f t = c (g t)) -> std_of T f = rstd g.
Proof.
move=> h; rewrite /std_of /rstd (mean_real h); congr (R_sqrt.sqrt (_ * _)); apply: eq_bigr => t _.
by rewrite h // -cB cabs_c -!RpowE pow2_abs.
Qed.

Variable Y : arr.
Hypothesis YT : nth 0%N (shape Y) 2 = T.
Hypothesis YE : forall b s t, (b < F)%N -> (s < n)%N -> (t < T)%N -> get Y b s t = c (y b s t).
Hypothesis sd : forall b s, (b < F)%N -> (s < n)%N -> rstd (y b s) <> 0.

Lemma normalized_real b s t : (b < F)%N -> (s < n)%N -> (t < T)%N -> normalized Y b s t = Some (c (standardised b s t)).
Proof.
move=> bF sn tT; have h t' : (t' < T)%N -> get Y b s t' = c (y b s t') by move=> ?; exact: YE.
rewrite /normalized YT Tn (std_real h) (mean_real h) h // /cndiv; case: eqP => [e|_]; first by case: (sd bF sn).
by rewrite /standardised -cB -cV -cM.
Qed.
Let cen s t : cnum := if F == 0%N then None else cnscale (F%:R)^-1 (cnsum [seq normalized Y b s t | b <- iota 0 F]).
Let cstd s := nstd T (cen s).
Lemma cen_real s t : (s < n)%N -> (t < T)%N -> cen s t = Some (c (centroid s t)).
Proof.
move=> sn tT; rewrite /cen Fn (cnsum_some (g := fun b => standardised b s t)).
  by rewrite /= -cM sum_iota.
by move=> b; rewrite mem_iota => /= bF; exact: normalized_real.
Qed.
Lemma cstd_real s : (s < n)%N -> cstd s = Some (rstd (centroid s)).
Proof.
move=> sn; rewrite /cstd /nstd Tn /=.
have -> : all_some T (cen s).
  by apply/allP => t; rewrite mem_iota => /= tT; rewrite cen_real.
by congr Some; apply: std_real => t tT; rewrite cen_real.
Qed.
Hypothesis fz : forall s, (s < n)%N -> fl (rstd (centroid s)) <> 0.
Lemma agreement_real b q : (b < F)%N -> perm_eq q (iota 0 n) ->
  agreement fl n T cstd (normalized Y b) cen q = Some (c (agreement_score b q)).
Proof.
move=> bF pq; rewrite /agreement /agreement_score.
rewrite (cnsum_some (g := fun s : nat => \sum_(s' < n) (if s == s' :> nat then 1 else -1) *
     (rmean (fun t => standardised b (nth 0%N q s) t * centroid s' t) / fl (rstd (centroid s))))); first by rewrite sum_iota.
move=> s; rewrite mem_iota => /= sn.
rewrite (cnsum_some (g := fun s' : nat => (if s == s' :> nat then 1 else -1) *
     (rmean (fun t => standardised b (nth 0%N q s) t * centroid s' t) / fl (rstd (centroid s))))); first by rewrite sum_iota.
move=> s'; rewrite mem_iota => /= sn'.
rewrite cstd_real // /nmean Tn (cnsum_some (g := fun t => standardised b (nth 0%N q s) t * centroid s' t)); last first.
  by move=> t; rewrite mem_iota => /= tT; rewrite normalized_real ?(perm_nth_lt pq) // cen_real //= cM.
rewrite /= /cndiv; case: (fl _ =P 0) => [e|_]; first by case: (fz sn).
rewrite -cM -cV -cM sum_iota /rmean; case: ifP => _; first by rewrite mul1r.
by rewrite /= mulN1r cN.
Qed.
Lemma global_perm_real b : (b < F)%N -> forall q, perm_eq q (iota 0 n) ->
  let p := global_perm fl F n T (normalized Y) cstd cen b in
  (agreement_score b q <= agreement_score b p)%coqR /\ (agreement_score b q = agreement_score b p -> q = p \/ lexltb p q).
Proof.
move=> bF q pq; rewrite /global_perm (argmax_best (g := agreement_score b)); last first.
  by move=> p; rewrite permutations_mem => pp; exact: agreement_real.
exact: (@best_perm_first n (agreement_score b)).
Qed.
End RealScore.

(** C11: with one global iteration and real data the permutation of each bin is the one with the
    largest score, and lexicographically first among those.  Hypotheses: there are frames, every
    row has a nonzero standard deviation, and the floored deviations of the centroids are nonzero. *)
Theorem C11_choice fl h seqn args (ow : bool) lY ls h' (y : nat -> nat -> nat -> R)
    (Y := rd h seqn) (F := dim0 Y) (n := dim1 Y) (T := nth 0%N (shape Y) 2) :
  valid h (seqn :: args) -> (ow -> uniq (seqn :: args)) -> (0 < T)%N ->
  (forall b s t, (b < F)%N -> (s < n)%N -> (t < T)%N -> get Y b s t = c (y b s t)) ->
  (forall b s, (b < F)%N -> (s < n)%N -> rstd T (y b s) <> 0) ->
  (forall s, (s < n)%N -> fl (rstd T (centroid F T y s)) <> 0) ->
  score_solver fl h seqn args 1 0 false ow = Done (lY, ls) h' ->
  exists pi,
   [/\ permutations_of n pi,
     forall k, (k < size (seqn :: args))%N ->
       rows_permuted pi (rd h (nth 0%N (seqn :: args) k)) (rd h' (nth 0%N (lY :: ls) k)) &
     forall b q, (b < F)%N -> perm_eq q (iota 0 n) ->
       (agreement_score fl F n T y b q <= agreement_score fl F n T y b (pi b))%coqR /\
       (agreement_score fl F n T y b q = agreement_score fl F n T y b (pi b) -> q = pi b \/ lexltb (pi b) q)].
Proof.
move=> v u T0 yE sd fz.
case: (boolP (size (shape (rd h seqn)) == 3%N)) => [/eqP sh|sh]; last by rewrite /score_solver sh.
case: (sameP h seqn args) => [ag|/sameP ag]; last by rewrite /score_solver sh eqxx /= ag.
rewrite score_solverE //; have := prepP v u; case: (prep _ _ _ _) => [[h1 lY1] ls1] [u1 a1 m1 [s1 f1] _]; cbv zeta.
have YE : rd h1 lY1 = Y by case: m1.
rewrite YE -/F -/n -/T; cbv beta iota; rewrite [iter 1 _ _]/=; rewrite [(0%N == 0%N) || _]/=.
set cen := (fun s t : nat => if F == 0%N then None else _).
set cstd := (fun s : nat => nstd T (cen s)).
set p := global_perm _ _ _ _ _ _ _; rewrite YE.
have pp : all_perms n p by move=> b; exact: argmax_perm_ok.
case=> <- <- <-.
have [uY uls] := andP u1; have [aY als] := andP a1.
have als1 : all (fun l => l < size (rcons h1 (parallel_sort Y p)))%N ls1.
  by apply: sub_all als => l; rewrite size_rcons; exact: ltnW.
have [sz1 rd1] := sort_argsP p uls als1.
have nY : size h1 \notin ls1 by apply/negP => /(allP als); rewrite ltnn.
exists p; split=> //.
  have szE : size (lY1 :: ls1) = size (seqn :: args) by have := congr1 size m1; rewrite !size_map.
  move=> k ks; have dn := dim1_agree ag (mem_nth 0%N ks).
  have rE : rd h1 (nth 0%N (lY1 :: ls1) k) = rd h (nth 0%N (seqn :: args) k).
    by have := congr1 (fun s => nth arr0 s k) m1; rewrite !(nth_map 0%N) ?szE.
  case: k ks dn rE => [_ _ _|k ks dn /= rE].
    rewrite /= rd1 (negbTE nY) rd_new; split=> // b s r _ _ rt /=; by rewrite trailE.
  have kl : (k < size ls1)%N by rewrite -ltnS -[(size ls1).+1]/(size (lY1 :: ls1)) szE.
  rewrite /= rd1 mem_nth // rd_rcons ?rE; last by apply: (allP als); rewrite mem_nth.
  by split=> // b s r _ _ rt /=; rewrite trailE.
move=> b q bF pq; have F0 : (0 < F)%N by apply: leq_ltn_trans bF.
exact: (global_perm_real T0 F0 (erefl _) yE sd fz bF).
Qed.

(** ** Concrete runs *)
(** a sorting function satisfying the contract *)
Definition key_le (f : nat -> num) (i j : nat) : bool :=
  if f i is Some a then if f j is Some b then Rleb a b else true else f j == None.
Definition argsort_ex (n : nat) (f : nat -> num) : seq nat := sort (key_le f) (iota 0 n).
Lemma argsort_exP : argsort_contract argsort_ex.
Proof.
move=> n f; split; first by rewrite perm_sort.
move=> g fE.
have tr : transitive (key_le f).
  move=> j i k; rewrite /key_le; case: (f i) => [a|]; case: (f j) => [b|] //; case: (f k) => [d|] //.
  by move=> /RlebP ab /RlebP bd; apply/RlebP; exact: Rle_trans bd.
have tot : total (key_le f).
  move=> i j; rewrite /key_le; case: (f i) => [a|]; case: (f j) => [b|] //.
  by case: (Rle_or_lt a b) => h; apply/orP; [left|right]; apply/RlebP; lra.
have : pairwise (key_le f) (argsort_ex n f) by rewrite -sorted_pairwise // sort_sorted.
have al : all (fun i => i < n)%N (argsort_ex n f) by rewrite all_sort; apply/allP => i; rewrite mem_iota.
elim: (argsort_ex n f) al => [//|i l IH] /= /andP[iN al] /andP[ki pl]; rewrite IH // andbT.
apply/allP => j jl; have := allP ki j jl; by rewrite /key_le !fE // (allP al).
Qed.
Lemma argsort_ex_size n f : size (argsort_ex n f) = n. Proof. by rewrite size_sort size_iota. Qed.

(** two bins, two sources, two frames; the second bin has its sources exchanged.  The extra
    argument has no trailing dimension. *)
Definition ex_y (b s t : nat) : R := if odd (b + s + t) then 0 else 1.
Definition ex_Y : arr := Arr [:: 2; 2; 2]%N (fun b s t => c (ex_y b s t)).
Definition ex_A : arr := Arr [:: 2; 2]%N (fun b s _ => c (s%:R)).
Definition ex_h : heap := [:: ex_Y; ex_A].
Definition idR (x : R) : R := x.
Lemma ex_norm b t : idR (R_sqrt.sqrt (\sum_(s' < dim1 ex_Y) cabs (get ex_Y b s' t) ^+ 2)) = 1.
Proof.
rewrite -[RHS]sqrt_1 /idR; congr R_sqrt.sqrt; rewrite !big_ord_recl big_ord0 addr0 /= !cabs_c /ex_y.
rewrite addn0 -addnA addnA addn1 addSn /=.
by case: odd; rewrite /= ?Rabs_R0 ?Rabs_R1 ?expr0n ?expr1n ?add0r ?addr0.
Qed.
Lemma ex_ampl b s t : amplitude idR ex_Y b s t = ex_y b s t.
Proof.
by rewrite /amplitude ex_norm divr1 /= cabs_c Rabs_pos_eq // /ex_y; case: odd; toR; lra.
Qed.
Lemma valid_ex ls : all (fun l => l < 2)%N ls -> valid ex_h ls.
Proof. by move=> a l /(allP a). Qed.

(** C10 applies to it: the solver returns, and the two bins of the result are aligned. *)
Example C10_instance : exists lY ls h', corr_solver idR argsort_ex ex_h 0%N [:: 1]%N true = Done (lY, ls) h' /\
  forall s t, (s < 2)%N -> (t < 2)%N -> get (rd h' lY) 0%N s t = get (rd h' lY) 1%N s t.
Proof.
have v : valid ex_h [:: 0; 1]%N by exact: valid_ex.
have ag : bins_and_sources_agree ex_h 0%N [:: 1]%N by move=> l; rewrite inE => /eqP ->.
have [lY [ls [h' E]]] := @C09_total idR argsort_ex ex_h 0%N [:: 1]%N true v (fun _ => isT) argsort_ex_size (erefl _) ag (isT : (0 < dim0 (rd ex_h 0%N))%N).
exists lY, ls, h'; split=> //.
have nz b t : (b < 2)%N -> (t < 2)%N -> idR (R_sqrt.sqrt (\sum_(s' < dim1 ex_Y) cabs (get ex_Y b s' t) ^+ 2)) <> 0.
  by move=> _ _; rewrite ex_norm; apply/eqP; exact: oner_neq0.
have [ord [pi [po _ [pp rp p0 best]]]] := C10_greedy v (fun _ => isT) argsort_exP nz E.
have {rp} [_ rY] := rp 0%N isT.
have two q : perm_eq q (iota 0 2) -> q = [:: 0; 1]%N \/ q = [:: 1; 0]%N.
  by rewrite -permutations_mem /permutations /= !inE => /orP[]/eqP ->; [left|right].
have := best 1%N isT; rewrite /first_best_alignment => /(_ [:: 1; 0]%N isT)[].
rewrite /alignment !big_ord_recl !big_ord0 !addr0 /= p0 !ex_ampl /=.
have oE : nth 0%N ord 1 = (1 - nth 0%N ord 0)%N /\ (nth 0%N ord 0 < 2)%N.
  by case: (two ord po) => ->.
have [o1 o0] := oE; move: (nth 0%N ord 1) o1 => b1 ->; move: (nth 0%N ord 0) o0 p0 => b0 b02 p0 {oE best}.
have p1 := two (pi (1 - b0)%N) (pp _).
move=> le _ s t s2 t2; rewrite /= (rY 0%N s t isT s2 t2) (rY 1%N s t isT s2 t2) /=.
case: b0 b02 p0 p1 le => [|[|//]] _ p0 /= [->|->].
- by rewrite /ex_y /=; toR => le; exfalso; lra.
- by rewrite p0 => _; case: s t s2 t2 => [|[|//]] [|[|//]].
- by rewrite /ex_y /=; toR => le; exfalso; lra.
- by rewrite p0 => _; case: s t s2 t2 => [|[|//]] [|[|//]].
Qed.

(** The arguments must be different arrays: an array given twice with [overwrite=True] is
    permuted twice, out of step with the sequence. *)
Lemma best2 f : best_perm f (permutations 2) = if ngt (f [:: 1; 0]%N) (f [:: 0; 1]%N) then [:: 1; 0]%N else [:: 0; 1]%N.
Proof. by rewrite /best_perm /permutations /=; case: ifP. Qed.
Theorem C09_alias_refuted : exists fl argsort h seqn args lY ls h',
  [/\ valid h (seqn :: args), argsort_contract argsort, corr_solver fl argsort h seqn args true = Done (lY, ls) h' &
      ~ consistently_permuted (dim1 (rd h seqn)) h (seqn :: args) h' (lY :: ls)].
Proof.
have v : valid ex_h [:: 0; 1; 1]%N by exact: valid_ex.
have aE : ampl idR ex_Y = fun b s t => Some (ex_y b s t).
  do 3 (apply: functional_extensionality => ?); rewrite /ampl /norm_at ex_norm /ndiv oner_eq0 -ex_ampl /amplitude ex_norm.
  by rewrite divr1.
exists idR, argsort_ex, ex_h, 0%N, [:: 1; 1]%N.
have ag : bins_and_sources_agree ex_h 0%N [:: 1; 1]%N by move=> l; rewrite !inE => /orP[]/eqP ->.
rewrite corr_solverE //; cbv zeta; rewrite [prep _ _ _ _]/=; cbv beta iota.
have -> : argsort_ex (dim0 (rd ex_h 0%N)) (correlation idR (rd ex_h 0%N)) = [:: 0; 1]%N.
  have cE b : correlation idR ex_Y b = Some 2%coqR.
    rewrite /correlation /nsum aE /= /ex_y; congr Some.
    by rewrite ?addn0 ?addn1 /= ; case: (odd b) => /=; toR; lra.
  have kE : key_le (correlation idR (rd ex_h 0%N)) = fun _ _ => true.
    do 2 (apply: functional_extensionality => ?); rewrite /key_le !cE; by apply/RlebP; exact: Rle_refl.
  by rewrite /argsort_ex kE.
rewrite -[rd ex_h 0%N]/ex_Y aE -[dim1 ex_Y]/2%N -[nth 0%N (shape ex_Y) 2]/2%N.
do 3 eexists; split=> //; first exact: argsort_exP.
have pE : best_perm (score 2 2 (fun s t => Some (ex_y 0%N s t)) (fun s t => Some (ex_y 1%N s t))) (permutations 2) = [:: 1; 0]%N.
  rewrite best2 /score /nsum /= /ex_y /=; case: RltbP => // h; exfalso; apply: h; toR; lra.
rewrite [corr_loop _ _ _ _ _ _ _ _]/= pE.
case=> _ [pi [pp rp]].
have [_ /(_ 1%N 0%N 0%N isT isT isT)] := rp 0%N isT; have [_ /(_ 1%N 0%N 0%N isT isT isT)] := rp 1%N isT.
rewrite /=; have := pp 1%N; rewrite -permutations_mem /permutations /= !inE => /orP[]/eqP -> /=.
  by move=> _ /c_inj; rewrite /ex_y /=; toR; lra.
by move=> /c_inj /eqP; rewrite eq_sym oner_eq0.
Qed.

(** three bins, two sources, two frames; the last bin has its sources exchanged *)
Definition sx_y (b s t : nat) : R := if odd (s + t) (+) (b == 2%N) then -1 else 1.
Definition sx_Y : arr := Arr [:: 3; 2; 2]%N (fun b s t => c (sx_y b s t)).
Definition sx_A : arr := Arr [:: 3; 2; 1]%N (fun b s _ => c (s%:R)).
Definition sx_h : heap := [:: sx_Y; sx_A].
Lemma half2 : (2%:R : R)^-1 = (/ 2)%coqR. Proof. by rewrite RinvE //; lra. Qed.
Lemma rmean2 f : rmean 2 f = ((f 0%N + f 1%N) / 2)%coqR.
Proof. rewrite /rmean !big_ord_recl big_ord0 addr0 half2 /= /bump /=; rewrite addn0; toR; lra. Qed.
Lemma sx_mean b s : rmean 2 (sx_y b s) = 0.
Proof. by rewrite rmean2 /sx_y addn0 addn1 /=; case: odd; case: (b == 2%N) => /=; toR; lra. Qed.
Lemma sx_std b s : rstd 2 (sx_y b s) = 1.
Proof.
rewrite /rstd sx_mean rmean2 -[RHS]sqrt_1; congr R_sqrt.sqrt; rewrite /sx_y addn0 addn1 /=.
by case: odd; case: (b == 2%N) => /=; rewrite -!RpowE; toR; lra.
Qed.
Lemma sx_stand b s t : standardised 2 sx_y b s t = sx_y b s t.
Proof. by rewrite /standardised sx_mean sx_std subr0 divr1. Qed.
Lemma third : (3%:R : R)^-1 = (/ 3)%coqR.
Proof. by rewrite -RnatE (_ : INR 3 = 3%coqR); [rewrite RinvE //; lra|rewrite /=; lra]. Qed.
Lemma sx_cen s t : centroid 3 2 sx_y s t = (if odd (s + t) then - / 3 else / 3)%coqR.
Proof.
rewrite /centroid !big_ord_recl big_ord0 addr0 !sx_stand third /sx_y /=.
by case: odd; toR; lra.
Qed.
Lemma sx_cen_std s : rstd 2 (centroid 3 2 sx_y s) = (/ 3)%coqR.
Proof.
rewrite /rstd !rmean2 !sx_cen addn0 addn1 /=.
have e3 : (/ 3 = sqrt (/ 3 * / 3))%coqR by rewrite sqrt_square; lra.
rewrite [RHS]e3.
by congr R_sqrt.sqrt; case: odd => /=; rewrite -!RpowE; toR; lra.
Qed.

(** C11 applies to it: the last bin is exchanged, in the sequence and in the extra argument. *)
Example C11_instance (ow : bool) : exists lY ls h', score_solver idR sx_h 0%N [:: 1]%N 1 0 false ow = Done (lY, ls) h' /\
  forall s t, (s < 2)%N -> (t < 2)%N ->
    get (rd h' lY) 2%N s t = get sx_Y 2%N (1 - s)%N t /\ get (rd h' (nth 0%N ls 0)) 2%N s 0%N = c ((1 - s)%:R).
Proof.
have v : valid sx_h [:: 0; 1]%N by move=> l; rewrite !inE => /orP[]/eqP ->.
have ag : bins_and_sources_agree sx_h 0%N [:: 1]%N by move=> l; rewrite inE => /eqP ->.
have [lY [ls [h' E]]] := @C11_total idR sx_h 0%N [:: 1]%N 1 0 ow isT v (fun _ => isT) (erefl _) ag.
exists lY, ls, h'; split=> //.
have yE b s t : (b < 3)%N -> (s < 2)%N -> (t < 2)%N -> get sx_Y b s t = c (sx_y b s t) by [].
have sd b s : (b < 3)%N -> (s < 2)%N -> rstd 2 (sx_y b s) <> 0.
  by move=> _ _; rewrite sx_std; apply/eqP; exact: oner_neq0.
have fz s : (s < 2)%N -> idR (rstd 2 (centroid 3 2 sx_y s)) <> 0.
  by move=> _; rewrite sx_cen_std /idR; toR; lra.
have [pi [pp rp best]] := C11_choice v (fun _ => isT) (isT : (0 < nth 0%N (shape (rd sx_h 0)) 2)%N) yE sd fz E.
have e3i : ((/ 3)%coqR : R)^-1 = 3%coqR by rewrite -RinvE; [rewrite Rinv_inv|lra].
have sc q : perm_eq q (iota 0 2) -> agreement_score idR 3 2 2 sx_y 2 q = if q == [:: 0; 1]%N then (-4)%coqR else 4%coqR.
  rewrite -permutations_mem /permutations /= !inE => /orP[]/eqP -> /=.
    rewrite /agreement_score !big_ord_recl !big_ord0 !addr0 /= !rmean2 !sx_cen_std !sx_stand !sx_cen /idR /sx_y /=.
    by rewrite !e3i; toR; lra.
  rewrite /agreement_score !big_ord_recl !big_ord0 !addr0 /= !rmean2 !sx_cen_std !sx_stand !sx_cen /idR /sx_y /=.
  by rewrite !e3i; toR; lra.
have p2 : pi 2%N = [:: 1; 0]%N.
  have [] := best 2%N [:: 1; 0]%N isT isT; rewrite !sc //=.
  by have := pp 2%N; rewrite -permutations_mem /permutations /= !inE => /orP[]/eqP -> //= h; exfalso; lra.
move=> s t s2 t2; have [_ /(_ 2%N s t isT s2 t2) /= ->] := rp 0%N isT; have [_ /(_ 2%N s 0%N isT s2 isT) /= ->] := rp 1%N isT.
by rewrite p2; case: s s2 => [|[|//]] _.
Qed.

(** C12 fails for the score-based solver: with [overwrite=True] the given sequence does not hold
    the returned values. *)
Theorem C12_score_overwrite_refuted : exists fl h seqn args lY ls h',
  [/\ valid h (seqn :: args), uniq (seqn :: args), score_solver fl h seqn args 1 0 false true = Done (lY, ls) h' &
      get (rd h' seqn) 2%N 0%N 0%N <> get (rd h' lY) 2%N 0%N 0%N].
Proof.
have [lY [ls [h' [E H]]]] := C11_instance true.
have v : valid sx_h [:: 0; 1]%N by move=> l; rewrite !inE => /orP[]/eqP ->.
exists idR, sx_h, 0%N, [:: 1]%N, lY, ls, h'; split=> //.
have [_ ->] := C12_score_sequence_kept v isT (ltn0Sn 0) E.
have [-> _] := H 0%N 0%N isT isT; move=> /c_inj; rewrite /sx_y /=; toR; lra.
Qed.

Print Assumptions C09_consistent.
Print Assumptions C09_total.
Print Assumptions C09_rejects.
Print Assumptions C09_rejects_ndim.
Print Assumptions C09_alias_refuted.
Print Assumptions C10_greedy.
Print Assumptions C11_consistent.
Print Assumptions C11_total.
Print Assumptions C11_local_only.
Print Assumptions C11_rejects.
Print Assumptions C11_choice.
Print Assumptions C12_score_no_overwrite.
Print Assumptions C12_score_overwrite_args.
Print Assumptions C12_score_sequence_kept.
Print Assumptions C12_corr_no_overwrite.
Print Assumptions C12_corr_overwrite.
Print Assumptions C12_score_overwrite_refuted.
