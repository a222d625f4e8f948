(** Lemmas for PermAlign.v *)
From Coq Require Import Reals Lra FunctionalExtensionality.
From mathcomp Require Import all_ssreflect all_algebra.
From Verif Require Import RStruct MxC CxR NpLin PermAlign.
Import Order.TTheory GRing.Theory Num.Theory.
Set Implicit Arguments.
Unset Strict Implicit.
Unset Printing Implicit Defensive.
Local Open Scope ring_scope.

(** ** permutations *)
Fixpoint lexltb (p q : seq nat) : bool :=
  match p, q with
  | x :: p', y :: q' => (x < y)%N || ((x == y) && lexltb p' q')
  | _, _ => false
  end.

Lemma lexltb_trans : transitive lexltb.
Proof.
move=> q p r; elim: p q r => [|x p IH] [|y q] [|z r] //=.
case/orP => [xy|/andP[/eqP -> pq]] /orP[yz|/andP[/eqP <- qr]].
- by rewrite (ltn_trans xy yz).
- by rewrite xy.
- by rewrite yz.
- by rewrite eqxx (IH _ _ pq qr) orbT.
Qed.

Lemma perms_mem k l p : uniq l -> size l = k -> (p \in perms k l) = perm_eq p l.
Proof.
elim: k l p => [|k IH] l p ul sl /=.
  by move/size0nil: sl => ->; rewrite inE; apply/eqP/idP => [->//|/perm_nilP].
apply/flatten_mapP/idP => [[x xl /mapP[q]]|pl].
  rewrite IH ?rem_uniq // ?size_rem ?sl // => qE ->.
  by rewrite perm_sym (perm_trans (perm_to_rem xl)) // perm_cons perm_sym.
case: p pl => [|x p] pl.
  by have := perm_size pl; rewrite sl.
have xl : x \in l by rewrite -(perm_mem pl) mem_head.
exists x => //; apply/mapP; exists p => //; rewrite IH ?rem_uniq // ?size_rem ?sl //.
have h := perm_to_rem xl; rewrite -(perm_cons x); exact: perm_trans pl h.
Qed.
Lemma permutations_mem n p : (p \in permutations n) = perm_eq p (iota 0 n).
Proof. by apply: perms_mem; rewrite ?iota_uniq ?size_iota. Qed.

Lemma perms_size k l p : size l = k -> p \in perms k l -> size p = k.
Proof.
elim: k l p => [|k IH] l p sl /=; first by rewrite inE => /eqP ->.
case/flatten_mapP => x xl /mapP[q qP ->] /=; congr _.+1.
by apply: IH qP; rewrite size_rem // sl.
Qed.

Lemma rem_sorted x (l : seq nat) : sorted ltn l -> sorted ltn (rem x l).
Proof. by apply: subseq_sorted; [exact: ltn_trans|exact: rem_subseq]. Qed.

Lemma pairwise_flatten T (r : rel T) (ll : seq (seq T)) :
  all (pairwise r) ll -> pairwise (fun a b => all (fun x => all (r x) b) a) ll -> pairwise r (flatten ll).
Proof.
elim: ll => //= a ll IH /andP[pa pll] /andP[al pl].
rewrite pairwise_cat pa IH // !andbT.
elim: ll al {IH pll pl} => [|b ll IH] /= al; first by rewrite allrel0r.
by case/andP: al => ab al; rewrite allrel_catr IH // andbT /allrel.
Qed.
Lemma perms_sorted k l : sorted ltn l -> size l = k -> pairwise lexltb (perms k l).
Proof.
elim: k l => [//|k IH] l sl kl /=; apply: pairwise_flatten.
  apply/allP => _ /mapP[x xl ->]; rewrite pairwise_map.
  have : pairwise lexltb (perms k (rem x l)) by apply: IH; rewrite ?rem_sorted // size_rem // kl.
  by apply: sub_pairwise => p q /= h; rewrite eqxx h orbT.
rewrite pairwise_map; move: sl; rewrite (sorted_pairwise ltn_trans).
apply: sub_pairwise => x y /= xy; apply/allP => _ /mapP[p _ ->]; apply/allP => _ /mapP[q _ ->] /=.
by rewrite xy.
Qed.
Lemma permutations_sorted n : pairwise lexltb (permutations n).
Proof. by apply: perms_sorted; rewrite ?size_iota // iota_ltn_sorted. Qed.
Lemma permutations_nil n : permutations n != [::].
Proof.
have : iota 0 n \in permutations n by rewrite permutations_mem.
by case: (permutations n).
Qed.

(** ** selection of the best permutation *)
Section Best.
Variables (A : Type) (gt : A -> A -> bool) (f : seq nat -> A).
Definition bet (best : option (A * seq nat)) (p : seq nat) : option (A * seq nat) :=
  if best is Some (m, q) then if gt (f p) m then Some (f p, p) else best else Some (f p, p).
Lemma bet_some ps m q : exists r, foldl bet (Some (m, q)) ps = Some r.
Proof. by elim: ps m q => [|p ps IH] m q /=; [eexists|case: ifP]. Qed.
Lemma bet_mem ps m q : if foldl bet (Some (m, q)) ps is Some (_, r) then r \in q :: ps else false.
Proof.
elim: ps m q => [|p ps IH] m q /=; first by rewrite inE.
case: ifP => _.
  by move: (IH (f p) p); case: (foldl _ _ _) => // -[? r]; rewrite !inE => /orP[]->; rewrite ?orbT.
by move: (IH m q); case: (foldl _ _ _) => // -[? r]; rewrite !inE => /orP[]->; rewrite ?orbT.
Qed.
End Best.
Lemma betterE f : better f = bet ngt f. Proof. by []. Qed.
Lemma cbetterE f : cbetter f = bet cgt f. Proof. by []. Qed.

Lemma best_perm_ok n f : perm_eq (best_perm f (permutations n)) (iota 0 n).
Proof.
rewrite -permutations_mem /best_perm betterE; move: (permutations_nil n).
case: (permutations n) => // p ps _ /=; have := bet_mem ngt f ps (f p) p.
by case: (foldl _ _ _) => // -[].
Qed.
Lemma argmax_perm_ok n f : perm_eq (argmax_perm f (permutations n)) (iota 0 n).
Proof.
rewrite -permutations_mem /argmax_perm cbetterE; move: (permutations_nil n).
case: (permutations n) => // p ps _ /=; have := bet_mem cgt f ps (f p) p.
by case: (foldl _ _ _) => // -[].
Qed.

(** over numbers the fold finds the first maximum *)
Lemma best_first (g : seq nat -> R) f ps m q : (forall p, p \in ps -> f p = Some (g p)) -> m = Some (g q) ->
  pairwise lexltb (q :: ps) ->
  if foldl (bet ngt f) (Some (m, q)) ps is Some (_, r) then
    forall p, p \in q :: ps -> (g p <= g r)%coqR /\ (g p = g r -> p = r \/ lexltb r p) else False.
Proof.
elim: ps m q => [|p ps IH] m q fE -> /=.
  by move=> _ p; rewrite inE => /eqP ->; split; [exact: Rle_refl|left].
have fE' p' : p' \in ps -> f p' = Some (g p') by move=> h; apply: fE; rewrite inE h orbT.
have fp := fE p (mem_head _ _).
case/andP => /andP[qp aq] /andP[ap pw]; rewrite fp /=; case: RltbP => h.
  have := IH (Some (g p)) p fE' erefl; rewrite /= ap pw => /(_ isT); case: (foldl _ _ _) => // -[_ r] Hr.
  move=> p'; rewrite inE => /orP[/eqP ->|]; last exact: Hr.
  by have [a b] := Hr p (mem_head _ _); split; [lra|move=> e; lra].
have := IH (Some (g q)) q fE' erefl; rewrite /= aq pw => /(_ isT); case: (foldl _ _ _) => // -[_ r] Hr.
move=> p'; rewrite 2!inE => /or3P[/eqP ->|/eqP ->|i].
- exact: Hr (mem_head _ _).
- have [a b] := Hr q (mem_head _ _); split; first lra.
  move=> e; have e' : g q = g r by lra.
  case: (b e') => [<-|qr]; first by right.
  by right; apply: lexltb_trans qp.
- by apply: Hr; rewrite inE i orbT.
Qed.
Lemma best_perm_first n (g : seq nat -> R) f : (forall p, perm_eq p (iota 0 n) -> f p = Some (g p)) ->
  forall p, perm_eq p (iota 0 n) -> (g p <= g (best_perm f (permutations n)))%coqR /\
    (g p = g (best_perm f (permutations n)) -> p = best_perm f (permutations n) \/ lexltb (best_perm f (permutations n)) p).
Proof.
move=> fE p; rewrite -permutations_mem; rewrite /best_perm betterE.
have := permutations_sorted n; have := permutations_nil n.
have fE' p' : p' \in permutations n -> f p' = Some (g p') by rewrite permutations_mem; exact: fE.
case: (permutations n) fE' => // q ps fE' _ so pq /=.
have h1 p' : p' \in ps -> f p' = Some (g p') by move=> h; apply: fE'; rewrite inE h orbT.
have := @best_first g f ps (f q) q h1 (fE' q (mem_head _ _)) so.
by case: (foldl _ _ _) => // -[_ r]; apply.
Qed.

(** ** heap *)
Lemma size_wr h l a : (l < size h)%N -> size (wr h l a) = size h.
Proof. by move=> lh; rewrite /wr size_set_nth; apply/maxn_idPr. Qed.
Lemma rd_wr h l a l' : rd (wr h l a) l' = if l' == l then a else rd h l'.
Proof. exact: nth_set_nth. Qed.
Lemma rd_rcons h a l : (l < size h)%N -> rd (rcons h a) l = rd h l.
Proof. by move=> lh; rewrite /rd nth_rcons lh. Qed.
Lemma rd_new h a : rd (rcons h a) (size h) = a.
Proof. by rewrite /rd nth_rcons ltnn eqxx. Qed.

Lemma copiesP h ls : all (fun l => l < size h)%N ls -> let: (h', ls') := copies h ls in
  [/\ (size h <= size h')%N, forall l, (l < size h)%N -> rd h' l = rd h l,
      map (rd h') ls' = map (rd h) ls, uniq ls' & all (fun l => size h <= l < size h')%N ls'].
Proof.
elim: ls h => [|l ls IH] h /=; first by split.
case/andP => lh als; have := IH (rcons h (rd h l)).
have als' : all (fun l' => l' < size (rcons h (rd h l)))%N ls.
  by apply: sub_all als => l'; rewrite size_rcons; apply: ltnW.
move/(_ als'); case: (copies _ _) => h' ls' [s1 r1 m1 u1 a1] /=.
rewrite size_rcons in s1.
have r2 l' : (l' < size h)%N -> rd h' l' = rd h l'.
  by move=> hl; rewrite r1 ?rd_rcons // size_rcons ltnW.
split.
- exact: leq_trans (leqnSn _) s1.
- exact: r2.
- rewrite r1 ?size_rcons // rd_new m1; congr (_ :: _).
  by apply/eq_in_map => l' /(allP als) hl; rewrite rd_rcons.
- rewrite u1 andbT; apply/negP => /(allP a1) /andP[]; by rewrite size_rcons ltnn.
- rewrite leqnn s1 /=; apply: sub_all a1 => l'; rewrite size_rcons => /andP[/ltnW-> ->] //.
Qed.

Lemma permute_bins_atP b p h ls : uniq ls -> all (fun l => l < size h)%N ls ->
  size (permute_bins_at b p h ls) = size h /\
  forall l, rd (permute_bins_at b p h ls) l = if l \in ls then permute_bin (rd h l) b p else rd h l.
Proof.
elim: ls h => [|l ls IH] h /=; first by split.
case/andP => lls u /andP[lh als].
have sz : size (permute_bin_at b p h l) = size h by exact: size_wr.
have [|s1 r1] := IH (permute_bin_at b p h l) u; first by rewrite sz.
rewrite -/(permute_bins_at b p _ ls); split; first by rewrite s1.
move=> l'; rewrite r1 inE rd_wr; case: eqP => [->|_] //=.
by rewrite (negbTE lls).
Qed.

(** [a'] is [a] with the sources of every bin [b] rearranged by [pi b] *)
Definition rearranged (n : nat) (pi : nat -> seq nat) (a a' : arr) : Prop :=
  shape a' = shape a /\ forall b s r, (s < n)%N -> get a' b s r = get a b (nth 0%N (pi b) s) r.
Definition all_perms (n : nat) (pi : nat -> seq nat) : Prop := forall b, perm_eq (pi b) (iota 0 n).
Definition then_perm n (pi : nat -> seq nat) b p : nat -> seq nat :=
  fun b' => if b' == b then [seq nth 0%N (pi b) (nth 0%N p s) | s <- iota 0 n] else pi b'.

Lemma perm_nth_lt n p s : perm_eq p (iota 0 n) -> (s < n)%N -> (nth 0%N p s < n)%N.
Proof.
move=> pp sn; have sz : size p = n by rewrite (perm_size pp) size_iota.
by have : nth 0%N p s \in p by [rewrite mem_nth ?sz]; rewrite (perm_mem pp) mem_iota.
Qed.
Lemma comp_perm n p q : perm_eq p (iota 0 n) -> perm_eq q (iota 0 n) ->
  perm_eq [seq nth 0%N p (nth 0%N q s) | s <- iota 0 n] (iota 0 n).
Proof.
move=> pp pq.
have sp : size p = n by rewrite (perm_size pp) size_iota.
have sq : size q = n by rewrite (perm_size pq) size_iota.
have -> : [seq nth 0%N p (nth 0%N q s) | s <- iota 0 n] = [seq nth 0%N p s | s <- q].
  by rewrite (map_comp (nth 0%N p) (nth 0%N q)) -sq map_nth_iota0 // take_size.
apply: perm_trans pp; apply: perm_trans (perm_map (nth 0%N p) pq) _.
by rewrite -sp map_nth_iota0 // take_size.
Qed.
Lemma then_perm_ok n pi b p : all_perms n pi -> perm_eq p (iota 0 n) -> all_perms n (then_perm n pi b p).
Proof. by move=> hp pp b'; rewrite /then_perm; case: ifP => _; [exact: comp_perm|exact: hp]. Qed.
Lemma rearranged_id n a : rearranged n (fun _ => iota 0 n) a a.
Proof. by split=> // b s r sn; rewrite nth_iota. Qed.
Lemma all_perms_id n : all_perms n (fun _ => iota 0 n).
Proof. by []. Qed.
Lemma rearranged_step n pi a a' b p : perm_eq p (iota 0 n) -> rearranged n pi a a' ->
  rearranged n (then_perm n pi b p) a (permute_bin a' b p).
Proof.
move=> pp [sh h]; split=> // b' s r sn /=; rewrite /then_perm; case: eqP => [->|_]; last exact: h.
by rewrite (nth_map 0%N) ?size_iota // nth_iota // add0n h // (perm_nth_lt pp).
Qed.

(** the arrays at the locations [ls] of [h'] are those at [ls0] of [h0], rearranged *)
Definition rearranged_at n pi (h0 : heap) (ls0 : seq loc) (h' : heap) (ls : seq loc) : Prop :=
  size ls = size ls0 /\ forall k, (k < size ls)%N -> rearranged n pi (rd h0 (nth 0%N ls0 k)) (rd h' (nth 0%N ls k)).

Lemma rearranged_at_step n pi h0 ls0 h ls b p : uniq ls -> all (fun l => l < size h)%N ls -> perm_eq p (iota 0 n) ->
  rearranged_at n pi h0 ls0 h ls -> rearranged_at n (then_perm n pi b p) h0 ls0 (permute_bins_at b p h ls) ls.
Proof.
move=> u al pp [sz hr]; split=> // k ks; have [_ ->] := permute_bins_atP b p u al.
by rewrite mem_nth //; apply: rearranged_step => //; apply: hr.
Qed.

(** ** the correlation-based loop *)
Lemma corr_loopP n T P lY ls bins crit h pi h0 ls0 : uniq (lY :: ls) -> all (fun l => l < size h)%N (lY :: ls) ->
  all_perms n pi -> rearranged_at n pi h0 ls0 h (lY :: ls) ->
  let h' := corr_loop n T P lY ls bins crit h in
  exists pi', [/\ all_perms n pi', rearranged_at n pi' h0 ls0 h' (lY :: ls), size h' = size h &
    forall l, l \notin lY :: ls -> rd h' l = rd h l].
Proof.
move=> u; elim: bins crit h pi => [|b bins IH] crit h pi al hp hr /=; first by exists pi.
set p := best_perm _ _; have pp : perm_eq p (iota 0 n) by exact: best_perm_ok.
have [sz rdE] := permute_bins_atP b p u al.
have al' : all (fun l => l < size (permute_bins_at b p h (lY :: ls)))%N (lY :: ls) by rewrite sz.
have [pi' [a1 a2 a3 a4]] := IH (fun s t => nadd (crit s t) (P b (nth 0%N p s) t)) _ _ al'
  (then_perm_ok b hp pp) (rearranged_at_step b u al pp hr).
exists pi'; split=> //; first by rewrite a3.
by move=> l ll; rewrite a4 // rdE (negbTE ll).
Qed.

Lemma nsum_some n f (g : nat -> R) : (forall i, (i < n)%N -> f i = Some (g i)) -> nsum n f = Some (\sum_(i < n) g i).
Proof.
move=> h; rewrite /nsum.
have -> : \sum_(i < n) g i = \sum_(i <- iota 0 n) g i by rewrite -(big_mkord xpredT g) /index_iota subn0.
have hm i : i \in iota 0 n -> f i = Some (g i) by rewrite mem_iota => /andP[_]; exact: h.
have gen (l : seq nat) (z : R) : (forall i, i \in l -> f i = Some (g i)) ->
    foldl nadd (Some z) [seq f i | i <- l] = Some (z + \sum_(i <- l) g i).
  elim: l z => [|i l IH] z hl /=; first by rewrite big_nil addr0.
  rewrite (hl i (mem_head _ _)) IH ?big_cons ?addrA // => i' hi; by apply: hl; rewrite inE hi orbT.
by rewrite gen // add0r.
Qed.

Definition align_val (n T : nat) (ref a : nat -> nat -> R) (p : seq nat) : R :=
  \sum_(s < n) \sum_(t < T) ref s t * a (nth 0%N p s) t.
(** [p] is the lexicographically first among the best permutations *)
Definition first_best (n T : nat) (ref a : nat -> nat -> R) (p : seq nat) : Prop :=
  forall q, perm_eq q (iota 0 n) -> (align_val n T ref a q <= align_val n T ref a p)%coqR /\
    (align_val n T ref a q = align_val n T ref a p -> q = p \/ lexltb p q).

Lemma corr_loop_best n T P lY ls bins crit h pi h0 ls0 (a : nat -> nat -> nat -> R) (ref : nat -> nat -> R) :
  uniq (lY :: ls) -> all (fun l => l < size h)%N (lY :: ls) ->
  all_perms n pi -> rearranged_at n pi h0 ls0 h (lY :: ls) ->
  uniq bins -> (forall b, b \in bins -> pi b = iota 0 n) ->
  (forall b s t, b \in bins -> (s < n)%N -> (t < T)%N -> P b s t = Some (a b s t)) ->
  (forall s t, (s < n)%N -> (t < T)%N -> crit s t = Some (ref s t)) ->
  let h' := corr_loop n T P lY ls bins crit h in
  exists pi', [/\ all_perms n pi', rearranged_at n pi' h0 ls0 h' (lY :: ls),
    forall b, b \notin bins -> pi' b = pi b &
    forall k, (k < size bins)%N -> first_best n T
      (fun s t => ref s t + \sum_(l < k) a (nth 0%N bins l) (nth 0%N (pi' (nth 0%N bins l)) s) t)
      (a (nth 0%N bins k)) (pi' (nth 0%N bins k))].
Proof.
move=> u; elim: bins crit h pi ref => [|b bins IH] crit h pi ref al hp hr ub pid PE cE /=; first by exists pi.
set p := best_perm _ _; have pp : perm_eq p (iota 0 n) by exact: best_perm_ok.
have [sz rdE] := permute_bins_atP b p u al.
have al' : all (fun l => l < size (permute_bins_at b p h (lY :: ls)))%N (lY :: ls) by rewrite sz.
move: ub => /= /andP[bb ub].
have tp b' : b' \in bins -> then_perm n pi b p b' = iota 0 n.
  move=> h'; rewrite /then_perm; case: eqP => [e|_]; first by move: bb; rewrite -e h'.
  by apply: pid; rewrite inE h' orbT.
have PE' b' s t : b' \in bins -> (s < n)%N -> (t < T)%N -> P b' s t = Some (a b' s t).
  by move=> h'; apply: PE; rewrite inE h' orbT.
pose ref' s t := ref s t + a b (nth 0%N p s) t.
have cE' s t : (s < n)%N -> (t < T)%N -> nadd (crit s t) (P b (nth 0%N p s) t) = Some (ref' s t).
  by move=> sn tT; rewrite cE // PE ?mem_head // (perm_nth_lt pp).
have [pi' [a1 a2 a3 a4]] := IH (fun s t => nadd (crit s t) (P b (nth 0%N p s) t)) _ _ ref' al'
  (then_perm_ok b hp pp) (rearranged_at_step b u al pp hr) ub tp PE' cE'.
have pb : pi' b = p.
  rewrite a3 // /then_perm eqxx pid ?mem_head //.
  apply: (@eq_from_nth _ 0%N); first by rewrite size_map size_iota (perm_size pp) size_iota.
  move=> s; rewrite size_map size_iota => sn; rewrite (nth_map 0%N) ?size_iota // [nth 0%N (iota 0 n) s]nth_iota // add0n.
  by rewrite nth_iota // (perm_nth_lt pp).
exists pi'; split=> //.
  move=> b'; rewrite inE negb_or => /andP[ne h']; rewrite a3 // /then_perm (negbTE ne) //.
case=> [_|k ks] /=.
  rewrite pb; have -> : (fun s t => ref s t + \sum_(l < 0) a (nth 0%N (b :: bins) l) (nth 0%N (pi' (nth 0%N (b :: bins) l)) s) t) = ref.
    by do 2 (apply: functional_extensionality => ?); rewrite big_ord0 addr0.
  apply: (@best_perm_first n (align_val n T ref (a b))) => q pq.
  apply: (nsum_some (g := fun s => \sum_(t < T) ref s t * a b (nth 0%N q s) t)) => s sn.
  apply: (nsum_some (g := fun t => ref s t * a b (nth 0%N q s) t)) => t tT.
  by rewrite cE // PE ?mem_head // (perm_nth_lt pq).
have -> : (fun s t => ref s t + \sum_(l < k.+1) a (nth 0%N (b :: bins) l) (nth 0%N (pi' (nth 0%N (b :: bins) l)) s) t) =
   (fun s t => ref' s t + \sum_(l < k) a (nth 0%N bins l) (nth 0%N (pi' (nth 0%N bins l)) s) t).
  do 2 (apply: functional_extensionality => ?); by rewrite big_ord_recl /= pb /ref' addrA.
exact: a4.
Qed.

(** ** the score-based solver *)
Lemma trailE a s r : (r < trail a)%N -> ((s * trail a + r) %/ trail a)%N = s.
Proof. by move=> rt; rewrite divnMDl ?divn_small ?addn0 //; case: (trail a) rt. Qed.
Definition rearranged_in (n : nat) (pi : nat -> seq nat) (a a' : arr) : Prop :=
  shape a' = shape a /\ forall b s r, (s < n)%N -> (r < trail a)%N -> get a' b s r = get a b (nth 0%N (pi b) s) r.
Definition rearranged_in_at n pi (h0 : heap) (ls0 : seq loc) (h' : heap) (ls : seq loc) : Prop :=
  size ls = size ls0 /\ forall k, (k < size ls)%N -> rearranged_in n pi (rd h0 (nth 0%N ls0 k)) (rd h' (nth 0%N ls k)).
Definition then_perms n (pi p : nat -> seq nat) : nat -> seq nat :=
  fun b => [seq nth 0%N (pi b) (nth 0%N (p b) s) | s <- iota 0 n].
Lemma then_perms_ok n pi p : all_perms n pi -> all_perms n p -> all_perms n (then_perms n pi p).
Proof. by move=> hp pp b; apply: comp_perm. Qed.
Lemma rearranged_in_sort n pi a a' p : all_perms n p -> rearranged_in n pi a a' ->
  rearranged_in n (then_perms n pi p) a (parallel_sort a' p).
Proof.
move=> pp [sh h]; split=> // b s r sn rt /=; have tE : trail a' = trail a by rewrite /trail sh.
rewrite trailE ?tE // h // ?(perm_nth_lt (pp b)) //.
by rewrite /then_perms (nth_map 0%N) ?size_iota // nth_iota.
Qed.
Lemma rearranged_in_step n pi a a' b p : perm_eq p (iota 0 n) -> rearranged_in n pi a a' ->
  rearranged_in n (then_perm n pi b p) a (permute_bin a' b p).
Proof.
move=> pp [sh h]; split=> // b' s r sn rt /=; rewrite /then_perm; case: eqP => [->|_]; last exact: h.
by rewrite (nth_map 0%N) ?size_iota // nth_iota // add0n h // (perm_nth_lt pp).
Qed.
Lemma rearranged_in_id n a : rearranged_in n (fun _ => iota 0 n) a a.
Proof. by split=> // b s r sn _; rewrite nth_iota. Qed.

Lemma sort_argsP h ls p : uniq ls -> all (fun l => l < size h)%N ls ->
  size (sort_args h ls p) = size h /\
  forall l, rd (sort_args h ls p) l = if l \in ls then parallel_sort (rd h l) p else rd h l.
Proof.
elim: ls h => [|l ls IH] h /=; first by split.
case/andP => lls u /andP[lh als].
have sz : size (wr h l (parallel_sort (rd h l) p)) = size h by exact: size_wr.
have [|s1 r1] := IH (wr h l (parallel_sort (rd h l) p)) u; first by rewrite sz.
split; first by rewrite s1.
move=> l'; rewrite r1 inE rd_wr; case: eqP => [->|_] //=.
by rewrite (negbTE lls).
Qed.

Section ScoreProofs.
Variable fl : R -> R.
(** invariant: the current sequence and extra arguments are consistent rearrangements *)
Definition good n h0 (l0 : loc) (ls0 ls : seq loc) (st : gstate) : Prop :=
  [/\ uniq (g_seq st :: ls), all (fun l => l < size (g_heap st))%N (g_seq st :: ls) &
      exists pi, all_perms n pi /\ rearranged_in_at n pi h0 (l0 :: ls0) (g_heap st) (g_seq st :: ls)].

Lemma global_stepP F n T ls h0 l0 ls0 st : good n h0 l0 ls0 ls st ->
  let st' := global_step fl F n T ls st in
  [/\ good n h0 l0 ls0 ls st', g_cstd st' <> None, (size (g_heap st) <= g_seq st')%N,
     (size (g_heap st) <= size (g_heap st'))%N &
     forall l, (l < size (g_heap st))%N -> l \notin ls -> rd (g_heap st') l = rd (g_heap st) l].
Proof.
case: st => h lY sn cs [/= /andP[uY u] /andP[aY al] [pi [hp [sz hr]]]].
set p := global_perm _ _ _ _ _ _ _.
have pp : all_perms n p by move=> b; exact: argmax_perm_ok.
set h1 := rcons h _.
have al1 : all (fun l => l < size h1)%N ls by apply: sub_all al => l; rewrite size_rcons; exact: ltnW.
have [sz1 rd1] := sort_argsP p u al1.
have nY : size h \notin ls by apply/negP => /(allP al); rewrite ltnn.
split=> //=.
- split=> /=.
  + by rewrite nY.
  + by rewrite sz1 al1 size_rcons leqnn.
  exists (then_perms n pi p); split; first exact: then_perms_ok.
  split=> // -[_|k ks] /=.
    rewrite rd1 (negbTE nY) rd_new; apply: rearranged_in_sort => //; exact: (hr 0%N).
  rewrite rd1 mem_nth // rd_rcons; last by apply: (allP al); rewrite mem_nth.
  by apply: rearranged_in_sort => //; exact: (hr k.+1).
- by rewrite sz1 size_rcons.
- by move=> l lh ll; rewrite rd1 (negbTE ll) rd_rcons.
Qed.

Lemma local_stepP F n T cstd ls h0 l0 ls0 st b : good n h0 l0 ls0 ls st ->
  let st' := local_step fl F n T cstd ls st b in
  [/\ good n h0 l0 ls0 ls st', g_seq st' = g_seq st, size (g_heap st') = size (g_heap st) &
     forall l, l \notin g_seq st :: ls -> rd (g_heap st') l = rd (g_heap st) l].
Proof.
case: st => h lY sn cs [/= u al [pi [hp [sz hr]]]].
set p := local_perm _ _ _ _ _ _ _; have pp : perm_eq p (iota 0 n) by exact: argmax_perm_ok.
have [sz1 rd1] := @permute_bins_atP b p h (lY :: ls) u al.
rewrite -[permute_bins_at b p (permute_bin_at b p h lY) ls]/(permute_bins_at b p h (lY :: ls)).
split=> //=; last by move=> l ll; rewrite rd1 (negbTE ll).
split=> //=; first by rewrite sz1.
exists (then_perm n pi b p); split; first exact: then_perm_ok.
split=> // k ks; rewrite rd1 mem_nth //; apply: rearranged_in_step => //; exact: hr.
Qed.

Lemma global_iterP F n T ls h0 l0 ls0 st g : good n h0 l0 ls0 ls st ->
  let st' := iter g (global_step fl F n T ls) st in
  [/\ good n h0 l0 ls0 ls st', (0 < g)%N -> g_cstd st' <> None /\ (size (g_heap st) <= g_seq st')%N,
     (size (g_heap st) <= size (g_heap st'))%N &
     forall l, (l < size (g_heap st))%N -> l \notin ls -> rd (g_heap st') l = rd (g_heap st) l].
Proof.
move=> gd; elim: g => [|g [IH1 IH2 IH3 IH4]] /=; first by split.
have [a1 a2 a3 a4 a5] := global_stepP F T IH1.
split=> //.
- by move=> _; split=> //; apply: leq_trans a3.
- exact: leq_trans a4.
- by move=> l lh ll; rewrite a5 ?IH4 // (leq_trans lh).
Qed.
Lemma local_onceP F n T cstd ls h0 l0 ls0 st : good n h0 l0 ls0 ls st ->
  let st' := local_iter_once fl F n T cstd ls st in
  [/\ good n h0 l0 ls0 ls st', g_seq st' = g_seq st, size (g_heap st') = size (g_heap st) &
     forall l, l \notin g_seq st :: ls -> rd (g_heap st') l = rd (g_heap st) l].
Proof.
rewrite /local_iter_once; elim: (iota 0 F) st => [|b bs IH] st gd /=; first by split.
have [a1 a2 a3 a4] := local_stepP F T cstd b gd.
have [b1 b2 b3 b4] := IH _ a1; split=> //; rewrite ?b2 ?b3 //.
by move=> l ll; rewrite b4 ?a2 // a4.
Qed.
Lemma local_iterP F n T cstd ls h0 l0 ls0 st g : good n h0 l0 ls0 ls st ->
  let st' := iter g (local_iter_once fl F n T cstd ls) st in
  [/\ good n h0 l0 ls0 ls st', g_seq st' = g_seq st, size (g_heap st') = size (g_heap st) &
     forall l, l \notin g_seq st :: ls -> rd (g_heap st') l = rd (g_heap st) l].
Proof.
move=> gd; elim: g => [|g [IH1 IH2 IH3 IH4]] /=; first by split.
have [a1 a2 a3 a4] := local_onceP F T cstd IH1.
split=> //; rewrite ?a2 ?a3 //.
by move=> l ll; rewrite a4 ?IH4 // IH2.
Qed.
End ScoreProofs.
