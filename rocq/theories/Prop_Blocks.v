(** C60: the block decomposition of the frequency axis is an ordered partition, and updating the
    blocks one by one puts every bin back where it came from. *)
From mathcomp Require Import all_ssreflect zify.
From Verif Require Import Blocks.
Set Implicit Arguments.
Unset Strict Implicit.
Unset Printing Implicit Defensive.

Definition blocks_of A (p : seq (seq A) * option (seq (seq A))) : seq (seq A) := p.1 ++ odflt [::] p.2.
Definition dims_of (p : seq nat * option (seq nat)) : seq nat := p.1 ++ odflt [::] p.2.

Lemma block_count n_bins n_blocks : 0 < n_blocks ->
  let r := n_remains n_bins n_blocks in let m := n_neighbors n_bins n_blocks in
  [/\ r < n_blocks, n_bins = (n_blocks - r) * m + r * (m + 1) & n_bins = n_blocks * m + r].
Proof.
move=> b0 r m; have hr : r < n_blocks by exact: ltn_pmod.
have e : n_bins = n_blocks * m + r by rewrite mulnC; exact: divn_eq.
split=> //; rewrite {1}e mulnDr muln1 mulnBl addnA subnK //.
by apply: leq_mul => //; exact: ltnW.
Qed.

Lemma split_binsE A n_bins n_blocks (l : seq A) : 0 < n_blocks -> size l = n_bins ->
  let r := n_remains n_bins n_blocks in let m := n_neighbors n_bins n_blocks in
  exists2 p, split_bins n_bins n_blocks l = Some p &
    [/\ flatten p.1 ++ flatten (odflt [::] p.2) = l, shape p.1 = nseq (n_blocks - r) m,
        shape (odflt [::] p.2) = nseq r (m + 1) & isSome p.2 = (0 < r)].
Proof.
move=> b0 sl r m; have [hr e e'] := block_count n_bins b0.
rewrite /split_bins -/r -/m.
rewrite eqn0Ngt b0 /=.
case: ifP => r0.
- have s1 : size (take ((n_blocks - r) * m) l) = (n_blocks - r) * m.
    by rewrite size_takel // sl e; lia.
  have s2 : size (drop ((n_blocks - r) * m) l) = r * (m + 1) by rewrite size_drop sl e; lia.
  rewrite /np_reshape s1 s2 !eqxx /=; eexists; first reflexivity.
  have sh k j : sumn (nseq k j) = k * j by rewrite sumn_nseq mulnC.
  split=> //=.
  + by rewrite !reshapeKr ?sh ?s1 ?s2 // cat_take_drop.
  + by rewrite reshapeKl // sh s1.
  + by rewrite reshapeKl // sh s2.
- have rz : r = 0 by lia.
  have sh k j : sumn (nseq k j) = k * j by rewrite sumn_nseq mulnC.
  have s1 : size l = n_blocks * m by rewrite sl e' -/r rz addn0.
  rewrite /np_reshape s1 eqxx /=; eexists; first reflexivity.
  split=> //=; rewrite ?rz //.
  + by rewrite cats0 reshapeKr // sh s1.
  + by rewrite subn0 reshapeKl // sh s1.
Qed.

(** ** The partition *)
(** For every number of bins and every positive number of blocks the bins are cut, in order and
    without loss, into [n_blocks] blocks whose sizes differ by at most one; the [n_bins mod n_blocks]
    larger blocks come last. *)
Theorem C60_partition A n_bins n_blocks (l : seq A) : 0 < n_blocks -> size l = n_bins ->
  exists2 p, split_bins n_bins n_blocks l = Some p &
    [/\ flatten (blocks_of p) = l, size (blocks_of p) = n_blocks,
        forall b, b \in shape (blocks_of p) -> b = n_bins %/ n_blocks \/ b = (n_bins %/ n_blocks).+1,
        sorted leq (shape (blocks_of p)) &
        count (pred1 (n_bins %/ n_blocks).+1) (shape (blocks_of p)) = n_bins %% n_blocks].
Proof.
move=> b0 sl; have [p e [f s1 s2 _]] := split_binsE b0 sl.
have [hr _ _] := block_count n_bins b0.
set r := n_remains _ _ in s1 s2 hr; set m := n_neighbors _ _ in s1 s2.
have sh : shape (blocks_of p) = nseq (n_blocks - r) m ++ nseq r (m + 1).
  by rewrite /blocks_of /shape map_cat -!/(shape _) s1 s2.
exists p => //; split.
- by rewrite flatten_cat.
- by rewrite -(size_map size) -/(shape _) sh size_cat !size_nseq subnK // ltnW.
- move=> b; rewrite sh mem_cat !mem_nseq => /orP[] /andP[_ /eqP ->]; [by left|right].
  by rewrite addn1.
- rewrite sh; elim: (n_blocks - r) => [|k IH] /=.
    by elim: r {hr s1 s2 sh} => [|[|r] IH] //=; rewrite leqnn /=; exact: IH.
  rewrite path_sortedE; last exact: leq_trans.
  rewrite IH andbT all_cat !all_nseq leqnn /= orbT /= leq_addr orbT //.
- rewrite sh count_cat !count_nseq /= addn1 eqxx mul1n.
  by rewrite (_ : (m == m.+1) = false) ?mul0n //; apply/eqP; lia.
Qed.

(** The basis matrices are allocated with exactly the dimensions of the blocks. *)
Theorem C60_basis_dims A n_bins n_blocks (l : seq A) : 0 < n_blocks -> size l = n_bins ->
  exists p d, [/\ split_bins n_bins n_blocks l = Some p, init_dims n_bins n_blocks = Some d,
    shape p.1 = d.1 & omap (map size) p.2 = d.2].
Proof.
move=> b0 sl; have [p e [f s1 s2 s3]] := split_binsE b0 sl.
exists p; rewrite /init_dims eqn0Ngt b0 /=; eexists; split; [by []|reflexivity|by []|] => /=.
case: (p.2) s2 s3 => [hi|] /=; first by move=> <- <-.
by move=> _ <-.
Qed.

(** no block at all: ZeroDivisionError *)
Theorem C60_no_block A n_bins (l : seq A) : split_bins n_bins 0 l = None /\ init_dims n_bins 0 = None.
Proof. by []. Qed.

(** more blocks than bins: the leading blocks are empty and the remaining ones are single bins *)
Theorem C60_more_blocks_than_bins A n_bins n_blocks (l : seq A) : n_bins < n_blocks -> size l = n_bins ->
  exists2 p, split_bins n_bins n_blocks l = Some p &
    shape (blocks_of p) = nseq (n_blocks - n_bins) 0 ++ nseq n_bins 1.
Proof.
move=> lt sl; have b0 : 0 < n_blocks by lia.
have [p e [f s1 s2 _]] := split_binsE b0 sl; exists p => //.
rewrite /blocks_of /shape map_cat -!/(shape _) s1 s2 /n_remains /n_neighbors.
by rewrite modn_small // divn_small.
Qed.

(** ** The update *)
Lemma foldr_some A B (f : seq A -> option (seq B)) (g : seq A -> seq B) (bs : seq (seq A)) :
  (forall b, b \in map size bs -> forall x, size x = b -> f x = Some (g x)) ->
  foldr (obind2 (fun x xs => Some (x :: xs))) (Some [::]) (map f bs) = Some (map g bs).
Proof.
elim: bs => [|b bs IH] //= h; rewrite IH => [|c' hc x hx]; last by apply: h hx; rewrite inE hc orbT.
by rewrite (h (size b)) // inE eqxx.
Qed.
Lemma size_all A (bs : seq (seq A)) k m : shape bs = nseq k m -> (size bs == k) && all (fun r => size r == m) bs.
Proof.
move=> h; rewrite -(size_map size) -/(shape _) h size_nseq eqxx /=.
by elim: bs k h => [|x bs IH] [|k] //= [-> /IH ->]; rewrite eqxx.
Qed.
Lemma shape_map A B (g : seq A -> seq B) (bs : seq (seq A)) : (forall x, size (g x) = size x) -> shape (map g bs) = shape bs.
Proof. by move=> h; rewrite /shape -map_comp; apply: eq_map => x /=. Qed.

Lemma update_blocksE A B n_bins n_blocks (f : seq A -> option (seq B)) g (l : seq A) : 0 < n_blocks -> size l = n_bins ->
  (forall x, size x = n_bins %/ n_blocks \/ size x = (n_bins %/ n_blocks).+1 -> f x = Some (g x)) ->
  (forall x, size (g x) = size x) ->
  exists2 p, split_bins n_bins n_blocks l = Some p & update_blocks n_bins n_blocks f l = Some (flatten (map g (blocks_of p))).
Proof.
move=> b0 sl hf hg; have [p e [fl s1 s2 s3]] := split_binsE b0 sl; exists p => //.
rewrite /update_blocks e.
have m1 : foldr (obind2 (fun x xs => Some (x :: xs))) (Some [::]) (map f p.1) = Some (map g p.1).
  apply: foldr_some => b; rewrite -/(shape _) s1 mem_nseq => /andP[_ /eqP ->] x hx.
  by apply: hf; left.
case: p e fl s1 s2 s3 m1 => [lo [hi|]] e fl s1 s2 s3 m1 /=; rewrite m1.
  rewrite (@foldr_some _ _ f g hi); last first.
    move=> b; rewrite -/(shape _) s2 mem_nseq => /andP[_ /eqP ->] x hx.
    by apply: hf; right; rewrite hx addn1.
  rewrite /= /merge_bins /= /np_merge !size_all ?shape_map //=.
  by rewrite /blocks_of /= map_cat flatten_cat.
move: s3 s1; rewrite /= /merge_bins /= /np_merge => r0 s1.
have rz : n_remains n_bins n_blocks = 0 by case: (n_remains _ _) r0.
by rewrite size_all ?shape_map //= ?s1 ?rz ?subn0 // /blocks_of /= cats0.
Qed.

(** Position [b] of the result was computed from a run of consecutive bins that contains [b], and
    stands at the same offset in the updated run.  The run depends only on the two numbers. *)
Definition block_start (n_bins n_blocks b : nat) : nat :=
  let m := n_bins %/ n_blocks in let low := (n_blocks - n_bins %% n_blocks) * m in
  if b < low then b %/ m * m else low + (b - low) %/ m.+1 * m.+1.
Definition block_len (n_bins n_blocks b : nat) : nat :=
  let m := n_bins %/ n_blocks in let low := (n_blocks - n_bins %% n_blocks) * m in
  if b < low then m else m.+1.

Lemma nth_flatten_nseq A (d : A) k m (bs : seq (seq A)) b : shape bs = nseq k m -> b < k * m ->
  nth d (flatten bs) b = nth d (nth [::] bs (b %/ m)) (b %% m).
Proof.
elim: bs k b => [|x bs IH] [|k] b //= [sx sh] hb.
rewrite nth_cat sx; case: ifP => bm; first by rewrite divn_small // modn_small.
have m0 : 0 < m by case: m sx hb bm {sh IH} => //; rewrite muln0.
rewrite (IH k) //; last by rewrite mulSn in hb; lia.
have -> : b %/ m = ((b - m) %/ m).+1.
  have {1}-> : b = 1 * m + (b - m) by lia.
  by rewrite divnMDl.
have -> : b %% m = (b - m) %% m.
  have {1}-> : b = 1 * m + (b - m) by lia.
  by rewrite modnMDl.
by [].
Qed.
Lemma block_nth A k m (bs : seq (seq A)) q : shape bs = nseq k m -> q < k ->
  nth [::] bs q = take m (drop (q * m) (flatten bs)).
Proof.
elim: bs k q => [|x bs IH] [|k] q //= [sx sh] hq.
case: q hq => [|q] hq /=; first by rewrite mul0n drop0 take_size_cat.
rewrite (IH k) // mulSn; congr take.
by rewrite drop_cat sx ltnNge leq_addr /= addnC addnK.
Qed.

Theorem C60_update A B n_bins n_blocks (f : seq A -> option (seq B)) (l : seq A) (d : B) : 0 < n_blocks -> size l = n_bins ->
  (forall x, size x = n_bins %/ n_blocks \/ size x = (n_bins %/ n_blocks).+1 ->
     exists2 y, f x = Some y & size y = size x) ->
  exists out, [/\ update_blocks n_bins n_blocks f l = Some out, size out = n_bins &
    forall b, b < n_bins ->
      let s := block_start n_bins n_blocks b in let len := block_len n_bins n_blocks b in
      [/\ s <= b, b < s + len, s + len <= n_bins &
          exists2 y, f (take len (drop s l)) = Some y & nth d out b = nth d y (b - s)]].
Proof.
move=> b0 sl hf.
pose g x := if f x is Some y then if size y == size x then y else nseq (size x) d else nseq (size x) d.
have hg x : size (g x) = size x.
  by rewrite /g; case: (f x) => [y|]; rewrite ?size_nseq //; case: eqP => // _; rewrite size_nseq.
have fg x : size x = n_bins %/ n_blocks \/ size x = (n_bins %/ n_blocks).+1 -> f x = Some (g x).
  by move=> hx; have [y e sy] := hf x hx; rewrite /g e sy eqxx.
have [p e u] := update_blocksE b0 sl fg hg.
have [p' e' [fl s1 s2 _]] := split_binsE b0 sl.
move: e; rewrite e' => -[?]; subst p'.
have [hr en _] := block_count n_bins b0.
set r := n_remains n_bins n_blocks in s1 s2 hr en; set m := n_neighbors n_bins n_blocks in s1 s2 en.
exists (flatten (map g (blocks_of p))); split=> //.
  rewrite size_flatten shape_map // /blocks_of /shape map_cat -!/(shape _) s1 s2 sumn_cat !sumn_nseq.
  by rewrite {1}en mulnC [r * _]mulnC.
move=> b hb; rewrite /block_start /block_len -/(n_remains _ _) -/(n_neighbors _ _) -/r -/m.
have fo : flatten (map g (blocks_of p)) = flatten (map g p.1) ++ flatten (map g (odflt [::] p.2)).
  by rewrite /blocks_of map_cat flatten_cat.
have szl : size (flatten (map g p.1)) = (n_blocks - r) * m.
  by rewrite size_flatten shape_map // s1 sumn_nseq mulnC.
have szl' : size (flatten p.1) = (n_blocks - r) * m.
  by rewrite size_flatten s1 sumn_nseq mulnC.
rewrite fo nth_cat szl; case: ifP => hlow.
- have m0 : 0 < m by case: (m) hlow => //; rewrite muln0.
  have q1 := leq_trunc_div b m; have q2 := ltn_ceil b m0; rewrite mulSn in q2.
  have qk : b %/ m < n_blocks - r by rewrite ltn_divLR.
  have le2 : b %/ m * m + m <= (n_blocks - r) * m by rewrite -mulSnr leq_mul2r qk orbT.
  have tk : take m (drop (b %/ m * m) l) = nth [::] p.1 (b %/ m).
    rewrite (block_nth s1) // -fl; rewrite drop_cat szl'.
    have h3 : b %/ m * m < (n_blocks - r) * m by lia.
    rewrite h3 take_cat size_drop szl'; case: ifP => // h4.
    have h5 : (n_blocks - r) * m - b %/ m * m = m by lia.
    by rewrite h5 subnn take0 cats0 take_oversize // size_drop szl' h5.
  split; [by []|by lia|by rewrite en; lia|].
  have hsz : size (nth [::] p.1 (b %/ m)) = m.
    have lt : b %/ m < size p.1 by rewrite -(size_map size) -/(shape _) s1 size_nseq.
    rewrite -(nth_map _ 0 size) // -/(shape _) s1 nth_nseq qk //.
  exists (g (nth [::] p.1 (b %/ m))); first by rewrite tk; apply: fg; left.
  rewrite (@nth_flatten_nseq _ d (n_blocks - r) m) ?shape_map //.
  rewrite (nth_map [::]); last by rewrite -(size_map size) -/(shape _) s1 size_nseq.
  by congr (nth d _ _); rewrite {2}(divn_eq b m) addKn.
- set low := (n_blocks - r) * m in hlow szl szl' en *.
  set b' := b - low; rewrite -[(b - low) %/ m.+1]/(b' %/ m.+1).
  have hb' : b' < r * (m + 1) by rewrite /b' ltn_subLR; rewrite en in hb; lia.
  have hb2 : b' < r * m.+1 by rewrite addn1 in hb'.
  have q1 := leq_trunc_div b' m.+1; have q2 := ltn_ceil b' (ltn0Sn m); rewrite mulSn in q2.
  have qk : b' %/ m.+1 < r by rewrite ltn_divLR.
  have le2 : b' %/ m.+1 * m.+1 + m.+1 <= r * m.+1 by rewrite -mulSnr leq_mul2r qk orbT.
  have s2' : shape (odflt [::] p.2) = nseq r m.+1 by rewrite s2 addn1.
  have tk : take m.+1 (drop (low + b' %/ m.+1 * m.+1) l) = nth [::] (odflt [::] p.2) (b' %/ m.+1).
    rewrite (block_nth s2') // -fl drop_cat szl'.
    by rewrite ltnNge leq_addr /= addKn.
  have en' : n_bins = low + r * m.+1 by rewrite en addn1.
  have hb0 : b = low + b' by rewrite /b'; lia.
  split; [by lia|by lia|by rewrite en'; lia|].
  have lt : b' %/ m.+1 < size (odflt [::] p.2) by rewrite -(size_map size) -/(shape _) s2' size_nseq.
  have hsz : size (nth [::] (odflt [::] p.2) (b' %/ m.+1)) = m.+1.
    by rewrite -(nth_map _ 0 size) // -/(shape _) s2' nth_nseq qk.
  exists (g (nth [::] (odflt [::] p.2) (b' %/ m.+1))); first by rewrite tk; apply: fg; right.
  rewrite (@nth_flatten_nseq _ d r m.+1) ?shape_map //.
  rewrite (nth_map [::]) //; congr (nth d _ _).
  by rewrite hb0 subnDl {2}(divn_eq b' m.+1) addKn.
Qed.

(** the update fails only if the update of some block fails or changes its size *)
Example C60_instance : update_blocks 7 3 (fun x => Some (rev x)) (iota 0 7) = Some [:: 1; 0; 3; 2; 6; 5; 4].
Proof. by []. Qed.

Print Assumptions C60_partition.
Print Assumptions C60_update.
