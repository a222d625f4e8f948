(** Lemmas about the object model: ownership of the arrays and the value semantics. *)
From Coq Require Import FunctionalExtensionality.
From mathcomp Require Import all_ssreflect.
From Verif Require Import Objects.
Set Implicit Arguments.
Unset Strict Implicit.
Unset Printing Implicit Defensive.

Section Own.
Variables (A L : Type).
Notation pystate := (pystate A L).
Implicit Types (st : pystate) (own : seq attr) (p : seq (stmt A)).

Lemma look_rcons (h : heap A) x l : l < size h -> look (rcons h x) l = look h l.
Proof. by move=> lt; rewrite /look map_rcons nth_rcons size_map lt. Qed.
Lemma look_last (h : heap A) x : look (rcons h x) (size h) = Some x.
Proof. by rewrite /look map_rcons nth_rcons size_map ltnn eqxx. Qed.
Lemma look_lt (h : heap A) l x : look h l = Some x -> l < size h.
Proof. by rewrite /look => e; rewrite ltnNge; apply/negP => le; rewrite nth_default ?size_map in e. Qed.
Lemma look_some (h : heap A) l : l < size h -> exists x, look h l = Some x.
Proof. by elim: h l => // x h IH [|l] /= lt; [exists x|exact: IH]. Qed.
Lemma look_set (h : heap A) w l m : l < size h -> look (set_nth w h l w) m = if m == l then Some w else look h m.
Proof. by elim: h l m => // x h IH [|l] [|m] //= lt; exact: IH. Qed.
Lemma size_set (h : heap A) w l : l < size h -> size (set_nth w h l w) = size h.
Proof. by move=> lt; rewrite size_set_nth; apply/maxn_idPr. Qed.

(** repeated writes *)
Lemma writes_size (ws : seq A) (h : heap A) l : l < size h -> size (foldl (fun h w => set_nth w h l w) h ws) = size h.
Proof. by elim: ws h => //= w ws IH h lt; rewrite IH size_set. Qed.
Lemma writes_other (ws : seq A) (h : heap A) l m : l < size h -> m != l -> look (foldl (fun h w => set_nth w h l w) h ws) m = look h m.
Proof.
elim: ws h => //= w ws IH h lt ml; rewrite IH ?size_set //.
by rewrite look_set // (negbTE ml).
Qed.
Lemma writes_self (ws : seq A) (h : heap A) l x : look h l = Some x -> look (foldl (fun h w => set_nth w h l w) h ws) l = Some (last x ws).
Proof.
elim: ws h x => //= w ws IH h x e; apply: IH.
by rewrite look_set ?eqxx // (look_lt e).
Qed.

(** [base]: number of arrays before the call.  Owned attributes are arrays made by the call; no two attributes
    share such an array. *)
Definition inv base own st : Prop :=
  [/\ base <= size st.1,
      forall a l, a \in own -> slots st.2 a = Arr l -> base <= l,
      forall a l, slots st.2 a = Arr l -> l < size st.1 &
      forall a b l, slots st.2 a = Arr l -> slots st.2 b = Arr l -> base <= l -> a = b].
Definition frame base (st st' : pystate) : Prop := forall l, l < base -> look st'.1 l = look st.1 l.
Lemma frame_refl base st : frame base st st. Proof. by []. Qed.
Lemma frame_trans base st1 st2 st3 : frame base st1 st2 -> frame base st2 st3 -> frame base st1 st3.
Proof. by move=> h1 h2 l lt; rewrite h2 // h1. Qed.

(** what a statement owns afterwards; None when it writes into an array it may not own *)
Definition binds (s : stmt A) : seq attr :=
  match s with
  | Bind bs => map fst bs
  | Init a _ _ | Drop a => [:: a]
  | _ => [::]
  end.
Definition own1 own (s : stmt A) : option (seq attr) :=
  match s with
  | Write a _ => if a \in own then Some own else None
  | _ => Some (binds s ++ own)
  end.
Fixpoint owns own p : option (seq attr) :=
  if p is s :: p' then (if own1 own s is Some o then owns o p' else None) else Some own.

Lemma inv_fresh base own st a x : inv base own st -> inv base (a :: own) (fresh st a x).
Proof.
move=> [h1 h2 h3 h4]; split=> /=.
- by rewrite size_rcons; exact: leqW.
- move=> b l; rewrite inE; case: eqP => [-> _ [<-]|_ /= bo]; first exact: h1.
  exact: h2.
- move=> b l; rewrite size_rcons; case: eqP => [_ [<-] //|_ e]; exact: (leqW (h3 _ _ e)).
- move=> b b' l; case: eqP => [->|nb]; case: eqP => [->|nb'] //.
  + by move=> [<-] /h3; rewrite ltnn.
  + by move=> /h3 lt [e]; move: lt; rewrite e ltnn.
  + exact: h4.
Qed.
Lemma frame_fresh base own st a x : inv base own st -> frame base st (fresh st a x).
Proof. by move=> [h1 _ _ _] l lt; rewrite /fresh /= look_rcons //; exact: leq_trans lt h1. Qed.
Lemma inv_sub base own own' st : {subset own' <= own} -> inv base own st -> inv base own' st.
Proof. by move=> s [h1 h2 h3 h4]; split=> // a l ao; apply: h2; exact: s. Qed.
Lemma inv_freshes base own st xs : inv base own st ->
  inv base (map fst xs ++ own) (freshes st xs) /\ frame base st (freshes st xs).
Proof.
elim: xs own st => [|[a x] xs IH] own st i //=.
have [i' f] := IH _ _ (inv_fresh a x i); split; last exact: frame_trans (frame_fresh a x i) f.
by apply: inv_sub i' => b; rewrite !(inE, mem_cat) orbCA.
Qed.
Lemma evals_attrs st (bs : seq (bind A)) xs : evals st bs = inr xs -> map fst xs = map fst bs.
Proof.
elim: bs xs => [|[b f] bs IH] xs /=; first by move=> [<-].
by case: eval => // x; case: evals IH => // ys IH [<-] /=; rewrite IH.
Qed.
Lemma inv_drop base own st a : inv base own st -> inv base (a :: own) (st.1, set_slot st.2 a PyNone).
Proof.
move=> [h1 h2 h3 h4]; split=> //=.
- by move=> b l; rewrite inE; case: eqP => //= _; exact: h2.
- by move=> b l; case: eqP => // _; exact: h3.
- by move=> b b' l; case: eqP => // _; case: eqP => // _; exact: h4.
Qed.

Lemma exec1_own base own own' s st st' e : own1 own s = Some own' -> inv base own st -> exec1 st s = (st', e) ->
  [/\ inv base own st', e = None -> inv base own' st' & frame base st st'].
Proof.
case: s => [bs|a no f|a f|a f|a] /= o i.
- case E: evals => [ex|xs] [<- <-] //.
  have [i' fr] := inv_freshes xs i; rewrite (evals_attrs E) in i'; case: o => <-; split=> //.
  by apply: inv_sub i' => b bo; rewrite mem_cat bo orbT.
- case: o => <-; case Es: (slots _ _) => [||l].
  + case: eval => [ex|x] [<- <-] //; split=> //; last exact: frame_fresh i.
    * by apply: inv_sub (inv_fresh a x i) => b bo; rewrite inE bo orbT.
    * by move=> _; exact: inv_fresh.
  + case: no => -[<- <-] //; split=> // _.
    move: i => [h1 h2 h3 h4]; split=> // b l; rewrite inE => /orP[/eqP->|]; last exact: h2.
    by rewrite Es.
  + case E: look => [x|] [<- <-] //; split=> //; last exact: frame_fresh i.
    * by apply: inv_sub (inv_fresh a x i) => b bo; rewrite inE bo orbT.
    * by move=> _; exact: inv_fresh.
- case: o => <-; case: (slots _ _) => [||l]; try by move=> [<- <-].
  case: eval => [ex|x] [<- <-] //.
  have i' : inv base own (fresh st a x) by apply: inv_sub (inv_fresh a x i) => b bo; rewrite inE bo orbT.
  by split=> //; exact: frame_fresh i.
- move: o; case: ifP => // ao [<-]; case Es: (slots _ _) => [||l]; try by move=> [<- <-].
  case: read => [ex|xs]; first by move=> [<- <-].
  case: f => rd g /=; case: (g xs) => ws r [<- _].
  have [h1 h2 h3 h4] := i; have lt := h3 _ _ Es; rewrite lt.
  have i' : inv base own (foldl (fun h w => set_nth w h l w) st.1 ws, st.2).
    by split=> /=; rewrite ?writes_size.
  split=> // m mb /=; rewrite writes_other //; apply/eqP => eml.
  by have := h2 _ _ ao Es; rewrite leqNgt -eml mb.
- case: o => <-; move=> [<- <-]; split=> //; last by move=> _; exact: inv_drop.
  by apply: inv_sub (inv_drop a i) => b bo; rewrite inE bo orbT.
Qed.
Lemma own1_sub own own' s : own1 own s = Some own' -> {subset own <= own'}.
Proof.
case: s => [bs|a no f|a f|a f|a] /=; try by move=> [<-] b bo; rewrite ?inE ?mem_cat ?bo ?orbT.
by case: ifP => // _ [<-].
Qed.
Lemma owns_sub own own' p : owns own p = Some own' -> {subset own <= own'}.
Proof.
elim: p own => [|s p IH] own /=; first by move=> [<-].
by case E: own1 => [o|] // /IH h b bo; apply: h; exact: (own1_sub E).
Qed.
Lemma exec_own base own own' p st st' e : owns own p = Some own' -> inv base own st -> exec p st = (st', e) ->
  [/\ inv base own st', e = None -> inv base own' st' & frame base st st'].
Proof.
elim: p own st => [|s p IH] own st /=; first by move=> [<-] i [<- <-].
case E: own1 => [o|] // ow i; case E1: exec1 => [st1 [e1|]].
  by move=> [<- <-]; have [i1 _ f1] := exec1_own E i E1.
have [i1 i1' f1] := exec1_own E i E1.
move=> ex; have [i2 i2' f2] := IH _ _ ow (i1' erefl) ex; split=> //; last exact: frame_trans f1 f2.
by apply: inv_sub i2; exact: own1_sub E.
Qed.
Lemma owns_mono own own2 own' p : {subset own <= own2} -> owns own p = Some own' ->
  exists2 own2', owns own2 p = Some own2' & {subset own' <= own2'}.
Proof.
elim: p own own2 => [|s p IH] own own2 s12 /=; first by move=> [<-]; exists own2.
case E: own1 => [o|] // ow.
have [o2 -> so] : exists2 o2, own1 own2 s = Some o2 & {subset o <= o2}.
  case: s E => [bs|a no f|a f|a f|a] /=; try by move=> [<-]; eexists; [reflexivity|] => b;
    rewrite ?inE ?mem_cat => /orP[->//|/s12 ->]; rewrite ?orbT.
  - by move=> [<-]; exists own2.
  - by case: ifP => // ao [<-]; rewrite s12 //; exists own2.
by apply: IH ow.
Qed.

(** ** Whole calls *)
Variable C : class A L.
Definition reset_p := map (compile C) (c_reset C).
Definition end_p := c_post C ++ if c_tail C then [:: Bind [:: (Output, c_sep C)]] else [::].
Definition safe_own : option (seq attr) :=
  if owns [::] reset_p is Some o1 then
    if (owns o1 (c_update C), owns o1 end_p) is (Some _, Some o2) then Some o2 else None
  else None.
Definition wf st : Prop := forall a l, slots st.2 a = Arr l -> l < size st.1.
Definition wf_kw st (kw : seq (attr * slot)) : bool := all (fun ks => if ks.2 is Arr l then l < size st.1 else true) kw.

Lemma inv_start st x kw : wf st -> wf_kw st kw -> inv (size st.1) [::] (set_kwargs (fresh st Input x) kw).
Proof.
move=> w k; have : inv (size st.1) [::] (fresh st Input x).
  apply: (@inv_sub _ [:: Input]) => //; apply: inv_fresh; split=> // a b l /w lt _.
  by rewrite leqNgt lt.
have -> : fresh st Input x = set_kwargs (fresh st Input x) [::] by [].
have : size (fresh st Input x).1 = (size st.1).+1 by rewrite size_rcons.
rewrite /set_kwargs; move: (fresh st Input x).2 => o; move: (fresh _ _ _).1 => h sh.
elim: kw k o => //= -[a s] kw IH /andP[ks k] o i; apply: IH => //=.
move: i => [h1 h2 h3 h4]; split=> //=.
- by move=> b l; case: eqP => [_ E|_]; [move: ks; rewrite E /= sh; exact: leqW|exact: h3].
- move=> b b' l; case: eqP => [->|nb]; case: eqP => [->|nb'] //.
  + by move=> E; move: ks; rewrite E /= ltnNge => /negbTE ->.
  + by move=> _ E; move: ks; rewrite E /= ltnNge => /negbTE ->.
  + exact: h4.
Qed.

Lemma record_own base own st st' e : inv base own st -> record C st = (st', e) -> inv base own st' /\ frame base st st'.
Proof.
rewrite /record; case: c_loss => [f|]; last by move=> i [<- _].
by case: eval => [ex|l] i [<- _].
Qed.
Lemma loop_own base own own' n st st' e : owns own (c_update C) = Some own' -> inv base own st -> loop C n st = (st', e) ->
  inv base own st' /\ frame base st st'.
Proof.
move=> ow; elim: n st => [|n IH] st i /=; first by move=> [<- _].
rewrite /andthen; case E: exec => [st1 [e1|]] /=.
  by move=> [<- _]; have [] := exec_own ow i E.
have [i1 _ f1] := exec_own ow i E; case E2: record => [st2 [e2|]] /=.
  by move=> [<- _]; have [i2 f2] := record_own i1 E2; split=> //; exact: frame_trans f1 f2.
have [i2 f2] := record_own i1 E2 => /IH [] // i3 f3; split=> //.
exact: frame_trans f1 (frame_trans f2 f3).
Qed.

Theorem call_own o2 st x kw n i st' e : safe_own = Some o2 -> wf st -> wf_kw st kw -> call C st x kw n i = (st', e) ->
  [/\ frame (size st.1) st st', wf st', size st.1 <= size st'.1 & e = None -> inv (size st.1) o2 st'].
Proof.
rewrite /safe_own; case E1: owns => [o1|] //; case E2: owns => [o1'|] //; case E3: owns => [o2'|] // [<-] {o2}.
move=> w k; rewrite /call; case: look => [X|]; last by move=> [<- <-].
have i0 := inv_start X w k.
have f0 : frame (size st.1) st (set_kwargs (fresh st Input X) kw) by move=> l lt; exact: look_rcons.
have fin own st1 e1 : inv (size st.1) own st1 -> frame (size st.1) (set_kwargs (fresh st Input X) kw) st1 -> e1 <> None ->
   [/\ frame (size st.1) st st1, wf st1, size st.1 <= size st1.1 & e1 = None -> inv (size st.1) o2' st1].
  by move=> [h1 h2 h3 h4] f ne; split=> //; exact: frame_trans f0 f.
rewrite /andthen; case Er: exec => [st1 [e1|]] /=.
  by move=> [<- <-]; have [i1 _ f1] := exec_own E1 i0 Er; exact: fin i1 f1 _.
have [_ i1 f1] := exec_own E1 i0 Er; have {}i1 := i1 erefl.
case Ec: (if _ then _ else _) => [st2 e2].
have [i2 f2] : inv (size st.1) o1 st2 /\ frame (size st.1) st1 st2.
  by move: Ec; case: ifP => _; [exact: record_own|move=> [<- _]].
have {}f2 := frame_trans f1 f2.
case: e2 Ec => [e2|] _ /=; first by move=> [<- <-]; exact: fin i2 f2 _.
case El: loop => [st3 e3]; have [i3 f3] := loop_own E2 i2 El; have {}f3 := frame_trans f2 f3.
case: e3 El => [e3|] _ /=; first by move=> [<- <-]; exact: fin i3 f3 _.
move=> Ee; have [i4 i4' f4] := exec_own E3 i3 Ee; have {}f4 := frame_trans f3 f4.
by case: (i4) => h1 h2 h3 h4; split=> //; exact: frame_trans f0 f4.
Qed.
End Own.

(** ** Value semantics: the same program on the contents of the attributes *)
Section Values.
Variables (A L : Type).
Notation pystate := (pystate A L).
Implicit Types (st : pystate).
Inductive val := VUnset | VNone | VArr of A.
Definition vstate := ((attr -> val) * seq L)%type.
Definition vget (h : heap A) (s : slot) : val :=
  match s with Unset => VUnset | PyNone => VNone | Arr l => if look h l is Some x then VArr x else VUnset end.
Definition view (st : pystate) : vstate := (fun a => vget st.1 (slots st.2 a), losses st.2).
Definition vset (v : vstate) a x : vstate := (fun b => if b == a then x else v.1 b, v.2).
Definition vread1 (v : vstate) a : exn + A :=
  match v.1 a with VUnset => inl AttributeError | VNone => inl TypeError | VArr x => inr x end.
Fixpoint vread (v : vstate) (rd : seq attr) : exn + seq A :=
  if rd is a :: rd' then
    match vread1 v a with
    | inl e => inl e
    | inr x => match vread v rd' with inl e => inl e | inr xs => inr (x :: xs) end
    end
  else inr [::].
Definition veval T (v : vstate) (f : routine A T) : exn + T :=
  match vread v f.1 with inl e => inl e | inr xs => if f.2 xs is Some x then inr x else inl OtherError end.
Fixpoint vevals (v : vstate) (bs : seq (bind A)) : exn + seq (attr * A) :=
  if bs is b :: bs' then
    match veval v b.2 with
    | inl e => inl e
    | inr x => match vevals v bs' with inl e => inl e | inr xs => inr ((b.1, x) :: xs) end
    end
  else inr [::].
Definition vsets (v : vstate) (xs : seq (attr * A)) : vstate := foldl (fun v ax => vset v ax.1 (VArr ax.2)) v xs.
Definition vexec1 (v : vstate) (s : stmt A) : vstate * option exn :=
  match s with
  | Bind bs => match vevals v bs with inl e => (v, Some e) | inr xs => (vsets v xs, None) end
  | Init a none_ok f =>
      match v.1 a with
      | VUnset => match veval v f with inl e => (v, Some e) | inr x => (vset v a (VArr x), None) end
      | VNone => if none_ok then (v, None) else (v, Some AttributeError)
      | VArr x => (vset v a (VArr x), None)
      end
  | Keep a f =>
      if v.1 a is VUnset then match veval v f with inl e => (v, Some e) | inr x => (vset v a (VArr x), None) end
      else (v, None)
  | Write a f =>
      match v.1 a with
      | VUnset => (v, Some AttributeError)
      | VNone => (v, Some TypeError)
      | VArr x =>
          match vread v f.1 with
          | inl e => (v, Some e)
          | inr xs => (vset v a (VArr (last x (f.2 xs).1)), if (f.2 xs).2 then Some OtherError else None)
          end
      end
  | Drop a => (vset v a VNone, None)
  end.
Fixpoint vexec (p : seq (stmt A)) (v : vstate) : vstate * option exn :=
  if p is s :: p' then let: (v', e) := vexec1 v s in if e is Some _ then (v', e) else vexec p' v' else (v, None).
Variable C : class A L.
Definition vrecord (v : vstate) : vstate * option exn :=
  if c_loss C is Some f then
    match veval v f with inl e => (v, Some e) | inr l => ((v.1, rcons v.2 l), None) end
  else (v, None).
Definition vthen (r : vstate * option exn) (k : vstate -> vstate * option exn) := if r.2 is Some _ then r else k r.1.
Fixpoint vloop (n : nat) (v : vstate) : vstate * option exn :=
  if n is n'.+1 then vthen (vthen (vexec (c_update C) v) vrecord) (vloop n') else (v, None).
Definition vkwargs (v : vstate) (kw : seq (attr * val)) : vstate := foldl (fun v ks => vset v ks.1 ks.2) v kw.
Definition vcall (v : vstate) (X : A) (kw : seq (attr * val)) (n : nat) (initial : bool) : vstate * option exn :=
  vthen (vexec (reset_p C) (vkwargs (vset v Input (VArr X)) kw)) (fun v =>
  vthen (if initial || c_forced C then vrecord v else (v, None)) (fun v =>
  vthen (vloop n v) (vexec (end_p C)))).

Lemma view_eq (v1 v2 : vstate) : (forall a, v1.1 a = v2.1 a) -> v1.2 = v2.2 -> v1 = v2.
Proof.
case: v1 v2 => f1 l1 [f2 l2] /= h ->; congr (_, _); exact: functional_extensionality.
Qed.
Lemma read_view (st : pystate) rd : wf st -> read st rd = vread (view st) rd.
Proof.
move=> w; elim: rd => //= a rd ->; rewrite /read1 /vread1 /= /vget; case E: (slots st.2 a) => [||l] //.
by have [x ->] := look_some (w _ _ E).
Qed.
Lemma eval_view T (st : pystate) (f : routine A T) : wf st -> eval st f = veval (view st) f.
Proof. by move=> w; rewrite /eval /veval read_view. Qed.
Lemma evals_view (st : pystate) bs : wf st -> evals st bs = vevals (view st) bs.
Proof. by move=> w; elim: bs => //= b bs ->; rewrite eval_view. Qed.
Lemma view_fresh (st : pystate) a x : wf st -> view (fresh st a x) = vset (view st) a (VArr x).
Proof.
move=> w; apply: view_eq => // b /=; case: eqP => [_|_]; first by rewrite /vget look_last.
by rewrite /vget; case E: (slots st.2 b) => [||l] //; rewrite look_rcons //; exact: w E.
Qed.
Lemma wf_fresh (st : pystate) a x : wf st -> wf (fresh st a x).
Proof. by move=> w b l /=; rewrite size_rcons; case: eqP => [_ [<-]|_ /w] //; exact: leqW. Qed.
Lemma view_freshes (st : pystate) xs : wf st -> view (freshes st xs) = vsets (view st) xs.
Proof.
elim: xs st => //= ax xs IH st w; rewrite -view_fresh //; apply: IH; exact: wf_fresh.
Qed.
Lemma inv_wf base own (st : pystate) : inv base own st -> wf st. Proof. by case. Qed.

Lemma exec1_view base own own' s st st' e : own1 own s = Some own' -> inv base own st -> exec1 st s = (st', e) ->
  vexec1 (view st) s = (view st', e).
Proof.
move=> o i; have w := inv_wf i; case: s o => [bs|a no f|a f|a f|a] /= o.
- by rewrite evals_view //; case: vevals => [ex|xs] [<- <-] //; rewrite view_freshes.
- rewrite /vget; case E: (slots st.2 a) => [||l].
  + by rewrite eval_view //; case: veval => [ex|x] [<- <-] //; rewrite view_fresh.
  + by case: no => -[<- <-].
  + by have [x ->] := look_some (w _ _ E); move=> [<- <-]; rewrite view_fresh.
- rewrite /vget; case E: (slots st.2 a) => [||l].
  + by rewrite eval_view //; case: veval => [ex|x] [<- <-] //; rewrite view_fresh.
  + by move=> [<- <-].
  + by have [x ->] := look_some (w _ _ E); move=> [<- <-].
- move: o; case: ifP => // ao _; rewrite /vget; case E: (slots st.2 a) => [||l]; try by move=> [<- <-].
  have lt := w _ _ E; have [x ex] := look_some lt; rewrite ex -read_view //.
  case: read => [e0|xs]; first by move=> [<- <-].
  case: f => rd g /=; case: (g xs) => ws r [<- <-] /=; rewrite lt; congr (_, _).
  apply: view_eq => // b /=; case: eqP => [->|nb]; first by rewrite E /vget /= (writes_self _ ex).
  rewrite /vget; case E': (slots st.2 b) => [||m] //; rewrite writes_other //.
  by apply/eqP => eml; case: i => h1 h2 h3 h4; case: nb; apply: (h4 _ _ l) => //; [rewrite -eml|exact: h2 E].
- by move=> [<- <-]; congr (_, _); apply: view_eq => // b /=; case: eqP.
Qed.
Lemma exec_view base own own' p st st' e : owns own p = Some own' -> inv base own st -> exec p st = (st', e) ->
  vexec p (view st) = (view st', e).
Proof.
elim: p own st => [|s p IH] own st /=; first by move=> _ _ [<- <-].
case E: own1 => [o|] // ow i; case E1: exec1 => [st1 e1]; rewrite (exec1_view E i E1).
case: e1 E1 => [e1|] E1; first by move=> [<- <-].
have [_ i1 _] := exec1_own E i E1; exact: IH ow (i1 erefl).
Qed.
Lemma record_view st st' e : wf st -> record C st = (st', e) -> vrecord (view st) = (view st', e).
Proof.
move=> w; rewrite /record /vrecord; case: c_loss => [f|]; last by move=> [<- <-].
by rewrite eval_view //; case: veval => [ex|l] [<- <-].
Qed.
Lemma loop_view base own own' n st st' e : owns own (c_update C) = Some own' -> inv base own st -> loop C n st = (st', e) ->
  vloop n (view st) = (view st', e).
Proof.
move=> ow; elim: n st => [|n IH] st i /=; first by move=> [<- <-].
rewrite /andthen /vthen; case E: exec => [st1 e1]; rewrite (exec_view ow i E) /=.
have [i1 _ _] := exec_own ow i E; case: e1 E => [e1|] E /=; first by move=> [<- <-].
case E2: record => [st2 e2]; rewrite (record_view (inv_wf i1) E2) /=.
have [i2 _] := record_own i1 E2; case: e2 E2 => [e2|] E2 /=; first by move=> [<- <-].
exact: IH.
Qed.
Lemma view_kwargs st kw : wf_kw st kw ->
  view (set_kwargs st kw) = vkwargs (view st) (map (fun ks => (ks.1, vget st.1 ks.2)) kw).
Proof.
case: st => h o; rewrite /set_kwargs /wf_kw /=; elim: kw o => //= -[a s] kw IH o /andP[_ k].
rewrite IH //; congr vkwargs; apply: view_eq => // b /=; by case: eqP.
Qed.
Lemma vget_rcons h x s : (if s is Arr l then l < size h else true) -> vget (rcons h x) s = vget h s.
Proof. by case: s => //= l lt; rewrite look_rcons. Qed.

Theorem call_view o2 st x X kw n i st' e : safe_own C = Some o2 -> wf st -> wf_kw st kw -> look st.1 x = Some X ->
  call C st x kw n i = (st', e) ->
  vcall (view st) X (map (fun ks => (ks.1, vget st.1 ks.2)) kw) n i = (view st', e).
Proof.
rewrite /safe_own; case E1: owns => [o1|] //; case E2: owns => [o1'|] //; case E3: owns => [o2'|] // _.
move=> w k eX; rewrite /call eX /vcall; have i0 := inv_start X w k.
have -> : vkwargs (vset (view st) Input (VArr X)) (map (fun ks => (ks.1, vget st.1 ks.2)) kw) =
    view (set_kwargs (fresh st Input X) kw).
  rewrite view_kwargs -?view_fresh //=.
    congr vkwargs; elim: kw k {i0} => //= -[a s] kw IH /andP[ks k]; rewrite IH //; congr (_ :: _); congr (_, _).
    by rewrite vget_rcons.
  by move: k; apply: sub_all => -[a []] //= l; rewrite size_rcons; exact: leqW.
rewrite /andthen /vthen; case Er: exec => [st1 e1]; rewrite (exec_view E1 i0 Er) /=.
have [_ i1 _] := exec_own E1 i0 Er; case: e1 Er i1 => [e1|] Er i1 /=; first by move=> [<- <-].
have {}i1 := i1 erefl; case Ec: (if _ then _ else _) => [st2 e2].
have -> : (if i || c_forced C then vrecord (view st1) else (view st1, None)) = (view st2, e2).
  by move: Ec; case: ifP => _; [exact: record_view (inv_wf i1)|move=> [<- <-]].
have i2 : inv (size st.1) o1 st2 by move: Ec; case: ifP => _; [case/(record_own i1)|move=> [<- _]].
case: e2 Ec => [e2|] _ /=; first by move=> [<- <-].
case El: loop => [st3 e3]; rewrite (loop_view E2 i2 El) /=; have [i3 _] := loop_own E2 i2 El.
case: e3 El => [e3|] _ /=; first by move=> [<- <-].
exact: exec_view E3 i3.
Qed.
End Values.

(** ** Continuing a run *)
Section Resume.
Variables (A L : Type).
Notation vstate := (vstate A L).
Implicit Types (v : vstate).
Variable C : class A L.

Definition derived (rs : seq (rst A)) : seq attr := pmap (fun r => if r is RDerive a _ then Some a else None) rs.
Definition targets (rs : seq (rst A)) : seq attr :=
  pmap (fun r => match r with RInit a _ _ | RKeep a _ | RDerive a _ => Some a | RSep => Some Output | ROther _ => None end) rs.
Definition rst_ok (der : seq attr) (r : rst A) : bool :=
  match r with
  | RInit a _ f | RKeep a f => (a \notin [:: Input, Output & der]) && (Output \notin f.1)
  | RDerive a _ => a \notin [:: Input; Output]
  | RSep => true
  | ROther _ => false
  end.
Definition stmt_ok (der : seq attr) (s : stmt A) : bool :=
  match s with
  | Bind bs => all (fun b => (b.1 \notin Input :: der) && (Output \notin b.2.1)) bs
  | Write a f => (a \notin [:: Input, Output & der]) && (Output \notin f.1)
  | _ => false
  end.
Definition resumable : bool :=
  let der := derived (c_reset C) in
  [&& all (rst_ok der) (c_reset C), uniq (targets (c_reset C)), all (stmt_ok der) (c_update C), nilp (c_post C), c_tail C,
      ~~ c_forced C, Output \notin (c_sep C).1 & if c_loss C is Some f then Output \notin f.1 else true].

(** equal up to the attribute [output] *)
Definition agree v v' : Prop := (forall a, a != Output -> v.1 a = v'.1 a) /\ v.2 = v'.2.
Lemma agree_refl v : agree v v. Proof. by []. Qed.
Lemma agree_sym v v' : agree v v' -> agree v' v.
Proof. by move=> [h1 h2]; split=> // a na; rewrite h1. Qed.
Lemma agree_trans v1 v2 v3 : agree v1 v2 -> agree v2 v3 -> agree v1 v3.
Proof. by move=> [h1 h2] [h3 h4]; split=> [a na|]; rewrite ?h1 ?h3 ?h2. Qed.
Lemma agree_read v v' rd : agree v v' -> Output \notin rd -> vread v rd = vread v' rd.
Proof.
move=> [h _]; elim: rd => //= a rd IH; rewrite inE negb_or => /andP[oa /IH ->].
by rewrite /vread1 h // eq_sym.
Qed.
Lemma agree_eval T v v' (f : routine A T) : agree v v' -> Output \notin f.1 -> veval v f = veval v' f.
Proof. by move=> h o; rewrite /veval (agree_read h). Qed.
Lemma agree_evals v v' (bs : seq (bind A)) : agree v v' -> all (fun b => Output \notin b.2.1) bs -> vevals v bs = vevals v' bs.
Proof. by move=> h; elim: bs => //= b bs IH /andP[ob /IH ->]; rewrite (agree_eval h). Qed.
Lemma agree_set v v' a x : agree v v' -> agree (vset v a x) (vset v' a x).
Proof. by move=> [h1 h2]; split=> // b nb /=; case: eqP => // _; exact: h1. Qed.
Lemma agree_sets v v' xs : agree v v' -> agree (vsets v xs) (vsets v' xs).
Proof. by elim: xs v v' => //= ax xs IH v v' h; apply: IH; exact: agree_set. Qed.

Lemma agree_exec1 der s v v' : stmt_ok der s -> agree v v' ->
  (vexec1 v s).2 = (vexec1 v' s).2 /\ agree (vexec1 v s).1 (vexec1 v' s).1.
Proof.
case: s => //= [bs|a f].
  move=> ok h; rewrite (agree_evals h); last by apply: sub_all ok => b /andP[].
  by case: vevals => [e|xs] //=; split=> //; exact: agree_sets.
rewrite !inE !negb_or => /andP[/andP[_ /andP[ao _]] ofr] h; case: (h) => h1 h2; rewrite -(h1 a ao).
case: (v.1 a) => [||x] //; rewrite (agree_read h ofr); case: vread => [e|xs] //=; split=> //.
exact: agree_set.
Qed.
Lemma agree_exec der p v v' : all (stmt_ok der) p -> agree v v' ->
  (vexec p v).2 = (vexec p v').2 /\ agree (vexec p v).1 (vexec p v').1.
Proof.
elim: p v v' => //= s p IH v v' /andP[os op] h; have [] := agree_exec1 os h.
case: (vexec1 v s) => [v1 e1]; case: (vexec1 v' s) => [v1' e1'] /= <- h1; case: e1 => [e1|] //.
exact: IH.
Qed.
Lemma agree_record v v' : (if c_loss C is Some f then Output \notin f.1 else true) -> agree v v' ->
  (vrecord C v).2 = (vrecord C v').2 /\ agree (vrecord C v).1 (vrecord C v').1.
Proof.
rewrite /vrecord; case: c_loss => [f|] // o h; rewrite (agree_eval h o); case: veval => [e|l] //=; split=> //.
by case: h => h1 h2; split=> //=; rewrite h2.
Qed.
Lemma agree_then (r r' : vstate * option exn) k k' : r.2 = r'.2 -> agree r.1 r'.1 ->
  (forall v v', agree v v' -> (k v).2 = (k' v').2 /\ agree (k v).1 (k' v').1) ->
  (vthen r k).2 = (vthen r' k').2 /\ agree (vthen r k).1 (vthen r' k').1.
Proof. by move=> e h hk; rewrite /vthen -e; case E: (r.2) => [x|]; [rewrite -e E|exact: hk]. Qed.
Lemma agree_loop der n v v' : all (stmt_ok der) (c_update C) -> (if c_loss C is Some f then Output \notin f.1 else true) ->
  agree v v' -> (vloop C n v).2 = (vloop C n v').2 /\ agree (vloop C n v).1 (vloop C n v').1.
Proof.
move=> oku okl; elim: n v v' => [|n IH] v v' h //=.
have [e1 h1] := agree_exec oku h.
have [e2 h2] := agree_then e1 h1 (fun v v' => @agree_record v v' okl).
exact: agree_then e2 h2 IH.
Qed.
Lemma vloop_add a b v : vloop C (a + b) v = vthen (vloop C a v) (vloop C b).
Proof. by elim: a v => [|a IH] v //=; rewrite {1 3}/vthen; case: (vthen (vexec _ _) _) => v1 [e|] /=; rewrite ?IH. Qed.

(** what the reset establishes *)
Variable X : A.
Definition set_up v (r : rst A) : Prop :=
  match r with
  | RInit a no _ => (exists x, v.1 a = VArr x) \/ (v.1 a = VNone A /\ no)
  | RKeep a _ => v.1 a <> VUnset A
  | RDerive a f => exists2 y, f [:: X] = Some y & v.1 a = VArr y
  | _ => True
  end.
Fixpoint set_ups v (rs : seq (rst A)) : Prop := if rs is r :: rs' then set_up v r /\ set_ups v rs' else True.
Lemma vset_same v a x : v.1 a = x -> vset v a x = v.
Proof. by move=> e; apply: view_eq => // b /=; case: eqP => [->|]. Qed.

Lemma reset_sets der rs v v' : all (rst_ok der) rs -> uniq (targets rs) -> v.1 Input = VArr X ->
  vexec (map (compile C) rs) v = (v', None) ->
  [/\ v'.1 Input = VArr X, set_ups v' rs & forall a, a \notin targets rs -> v'.1 a = v.1 a].
Proof.
elim: rs v => [|r rs IH] v /=; first by move=> _ _ h [<-].
move=> /andP[okr ok].
case: r okr => [a no f|a f|a f||s] //=.
- rewrite !inE !negb_or => /andP[/and3P[ai _ _] _] /andP[nt un] vi.
  case E: (match v.1 a with VUnset => _ | _ => _ end) => [v1 [e|]] // Ev.
  have [h1 h2] : ((exists x, v1.1 a = VArr x) \/ v1.1 a = VNone A /\ no) /\ forall b, b != a -> v1.1 b = v.1 b.
    case Ea: (v.1 a) E => [||x].
    - case: veval => [e|x] // [<-] /=; split; first by left; exists x; rewrite eqxx.
      by move=> b /negbTE ->.
    - by case: no => // -[<-]; split=> //; right.
    - move=> [<-] /=; split; first by left; exists x; rewrite eqxx.
      by move=> b /negbTE ->.
  have vi1 : v1.1 Input = VArr X by rewrite h2 // eq_sym.
  have [i1 s1 o1] := IH _ ok un vi1 Ev; split=> //; first by rewrite o1.
  by move=> b; rewrite inE negb_or => /andP[ba bt]; rewrite o1 // h2.
- rewrite !inE !negb_or => /andP[/and3P[ai _ _] _] /andP[nt un] vi.
  case E: (match v.1 a with VUnset => _ | _ => _ end) => [v1 [e|]] // Ev.
  have [h1 h2] : v1.1 a <> VUnset A /\ forall b, b != a -> v1.1 b = v.1 b.
    case Ea: (v.1 a) E => [||x]; try by move=> [<-]; rewrite Ea.
    by case: veval => [e|x] // [<-] /=; split; [rewrite eqxx|move=> b /negbTE ->].
  have vi1 : v1.1 Input = VArr X by rewrite h2 // eq_sym.
  have [i1 s1 o1] := IH _ ok un vi1 Ev; split=> //; first by rewrite o1.
  by move=> b; rewrite inE negb_or => /andP[ba bt]; rewrite o1 // h2.
- rewrite !inE negb_or => /andP[ai ao] /andP[nt un] vi.
  rewrite /veval /= /vread1 vi; case Ef: (f [:: X]) => [y|] // Ev.
  have vi1 : (vset v a (VArr y)).1 Input = VArr X by rewrite /= eq_sym (negbTE ai).
  have [i1 s1 o1] := IH _ ok un vi1 Ev; split=> //; first by split=> //; exists y; rewrite // o1 //= eqxx.
  by move=> b; rewrite inE negb_or => /andP[ba bt]; rewrite o1 //= (negbTE ba).
- move=> _ /andP[nt un] vi; case: veval => [e|y] // Ev.
  have vi1 : (vset v Output (VArr y)).1 Input = VArr X by [].
  have [i1 s1 o1] := IH _ ok un vi1 Ev; split=> //.
  by move=> b; rewrite inE negb_or => /andP[ba bt]; rewrite o1 //= (negbTE ba).
Qed.

(** the updates keep it *)
Definition later (der : seq attr) v v' : Prop :=
  forall a, v'.1 a = v.1 a \/ (a \notin Input :: der /\ exists x, v'.1 a = VArr x).
Lemma later_refl der v : later der v v. Proof. by move=> a; left. Qed.
Lemma later_trans der v1 v2 v3 : later der v1 v2 -> later der v2 v3 -> later der v1 v3.
Proof. by move=> h1 h2 a; case: (h2 a) => [->|]; [exact: h1|right]. Qed.
Lemma later_set der v a x : a \notin Input :: der -> later der v (vset v a (VArr x)).
Proof. by move=> na b /=; case: eqP => [->|_]; [right; split=> //; exists x|left]. Qed.
Lemma later_sets der v xs : all (fun ax => ax.1 \notin Input :: der) xs -> later der v (vsets v xs).
Proof.
elim: xs v => [|[a x] xs IH] v /=; first by move=> _; exact: later_refl.
by move=> /andP[na h]; apply: later_trans (IH _ h); exact: later_set.
Qed.
Lemma vevals_attrs v (bs : seq (bind A)) xs : vevals v bs = inr xs -> map fst xs = map fst bs.
Proof.
elim: bs xs => [|[b f] bs IH] xs /=; first by move=> [<-].
by case: veval => // x; case: vevals IH => // ys IH [<-] /=; rewrite IH.
Qed.
Lemma later_exec1 der s v : stmt_ok der s -> later der v (vexec1 v s).1.
Proof.
case: s => //= [bs|a f].
  move=> ok; case E: vevals => [e|xs] /=; first exact: later_refl.
  apply: later_sets; rewrite -(all_map fst (fun a => a \notin Input :: der)) (vevals_attrs E) all_map.
  by apply: sub_all ok => b /andP[].
move=> /andP[]; rewrite inE negb_or => /andP[ai]; rewrite inE negb_or => /andP[ao ad] ofr.
case: (v.1 a) => [||x]; try exact: later_refl.
case: vread => [e|xs] /=; first exact: later_refl.
by apply: later_set; rewrite inE negb_or ai.
Qed.
Lemma later_exec der p v : all (stmt_ok der) p -> later der v (vexec p v).1.
Proof.
elim: p v => [|s p IH] v /=; first by move=> _; exact: later_refl.
move=> /andP[os op]; have := later_exec1 v os; case: vexec1 => [v1 [e|]] //= h.
exact: later_trans h (IH _ op).
Qed.
Lemma later_record der v : later der v (vrecord C v).1.
Proof. by rewrite /vrecord; case: c_loss => [f|] a; [case: veval => [e|l]|]; left. Qed.
Lemma later_loop der n v : all (stmt_ok der) (c_update C) -> later der v (vloop C n v).1.
Proof.
move=> ok; elim: n v => [|n IH] v /=; first exact: later_refl.
rewrite /vthen; have := later_exec v ok; case: vexec => [v1 [e|]] //= h1.
have := later_record der v1; case: vrecord => [v2 [e|]] //= h2; first exact: later_trans h1 h2.
exact: later_trans h1 (later_trans h2 (IH _)).
Qed.
Lemma set_ups_later der rs v v' : {subset derived rs <= der} -> later der v v' -> set_ups v rs -> set_ups v' rs.
Proof.
move=> sd h; elim: rs sd => //= r rs IH sd [h1 h2]; split; last first.
  by apply: IH h2 => a ad; apply: sd; move: ad; case: (r) => [||||] *; rewrite ?inE //= ?inE; apply/orP; right.
case: r sd h1 => [a no f|a f|a f||s] sd //=.
- by case: (h a) => [->//|[_ [x ->]]] _; left; exists x.
- by case: (h a) => [->//|[_ [x ->]]].
- case: (h a) => [->//|[]]; by rewrite inE negb_or sd ?andbF // inE eqxx.
Qed.
Lemma set_ups_agree der rs v v' : all (rst_ok der) rs -> agree v v' -> set_ups v rs -> set_ups v' rs.
Proof.
move=> ok [h _]; elim: rs ok => //= r rs IH /andP[okr /IH ok] [h1 h2]; split; last exact: ok.
by case: r okr h1 => [a no f|a f|a f||s] //=; rewrite !inE !negb_or => /andP[]; [move=> /and3P[_ ao _] _|move=> /and3P[_ ao _] _|move=> _ ao]; rewrite h.
Qed.

(** resetting again changes nothing but the output *)
Lemma reset_again der rs v y : all (rst_ok der) rs -> v.1 Input = VArr X -> set_ups v rs ->
  Output \notin (c_sep C).1 -> veval v (c_sep C) = inr y ->
  exists2 v', vexec (map (compile C) rs) v = (v', None) & agree v v'.
Proof.
move=> ok; elim: rs v ok => [|r rs IH] v /=; first by move=> _ *; exists v.
move=> /andP[okr ok] vi [sr srs] os ev.
have [v1 e1 a1] : exists2 v1, vexec1 v (compile C r) = (v1, None) & agree v v1.
  case: r okr sr => [a no f|a f|a f||s] //= okr sr.
  - by case: sr => [[x e]|[e n]]; rewrite e ?n; [rewrite vset_same //|]; exists v.
  - by case: (v.1 a) sr => // [|x]; exists v.
  - by case: sr => y' ef e; rewrite /veval /= /vread1 vi ef /= vset_same //; exists v.
  - rewrite ev; exists (vset v Output (VArr y)) => //; split=> // a ao /=; by rewrite (negbTE ao).
rewrite e1; have vi1 : v1.1 Input = VArr X by case: a1 => <-.
have ev1 : veval v1 (c_sep C) = inr y by rewrite -(agree_eval a1 os).
have [v' e' a'] := IH v1 ok vi1 (set_ups_agree ok a1 srs) os ev1.
by exists v' => //; exact: agree_trans a1 a'.
Qed.

Lemma no_output der rs : all (rst_ok der) rs -> Output \notin derived rs.
Proof.
elim: rs => //= r rs IH /andP[okr /IH h].
by case: r okr => [a no f|a f|a f||s] //=; rewrite !inE negb_or => /andP[_ ao]; rewrite negb_or eq_sym ao.
Qed.

(** running [a] iterations and then [b] more, against running [a + b] *)
Theorem vresume v kw a b i v1 : resumable -> all (fun ks => ks.1 != Input) kw ->
  vcall C v X kw a i = (v1, None) ->
  let r := vcall C v1 X [::] b false in let l := vcall C v X kw (a + b) i in
  [/\ r.2 = l.2, agree r.1 l.1 & r.2 = None -> r.1 = l.1].
Proof.
move=> /and5P[okr un oku /nilP po /and4P[ta fo os ol]] kwi H r l.
have vi0 : (vkwargs (vset v Input (VArr X)) kw).1 Input = VArr X.
  have : (vset v Input (VArr X)).1 Input = VArr X by [].
  elim: kw kwi (vset _ _ _) {H l} => //= -[k s] kw IH /andP[nk kwi] w wi; apply: IH => //=.
  by rewrite eq_sym (negbTE nk).
have El : l = vthen (vexec (reset_p C) (vkwargs (vset v Input (VArr X)) kw)) (fun v =>
  vthen (if i || c_forced C then vrecord C v else (v, None)) (fun v =>
  vthen (vloop C (a + b) v) (vexec (end_p C)))) by [].
clearbody l; move: H El; rewrite /vcall; case Er: (vexec _ (vkwargs _ _)) => [w1 [e|]] //.
rewrite {1 4}/vthen /=.
have [i1 s1 _] := reset_sets okr un vi0 Er.
case Ec: (if _ then _ else _) => [w2 [e|]] //; rewrite {1 3}/vthen /=.
have l12 : later (derived (c_reset C)) w1 w2.
  by move: Ec; case: ifP => _ E; [have := later_record (derived (c_reset C)) w1; rewrite E|case: E => <-; exact: later_refl].
rewrite vloop_add; case El: vloop => [w3 [e|]] //; rewrite {1 3}/vthen /=.
have l23 : later (derived (c_reset C)) w2 w3 by have := later_loop a w2 oku; rewrite El.
rewrite /end_p po ta /=; case Es: veval => [e|y] //= [ew4].
set w4 := vset w3 Output (VArr y).
have dn : Output \notin Input :: derived (c_reset C) by rewrite inE /= (no_output okr).
have l34 : later (derived (c_reset C)) w3 w4 by exact: later_set.
have s4 : set_ups w4 (c_reset C).
  exact: set_ups_later (fun _ h => h) (later_trans l12 (later_trans l23 l34)) s1.
have i4 : w4.1 Input = VArr X.
  have := later_trans l12 (later_trans l23 l34) Input; case=> [->//|[]]; by rewrite inE eqxx.
have a34 : agree w3 w4 by split=> // b' nb' /=; rewrite (negbTE nb').
have e4 : veval w4 (c_sep C) = inr y by rewrite -(agree_eval a34 os).
have [w5 E5 a45] := reset_again okr i4 s4 os e4.
have -> : r = vthen (vloop C b w5) (vexec (end_p C)).
  by rewrite /r -ew4 /vcall /= (vset_same i4) /reset_p E5 /= (negbTE fo).
move=> ->.
have [e6 h6] := agree_loop b oku ol (agree_sym (agree_trans a34 a45)).
move: e6 h6; case: (vloop C b w5) => [w6 e6]; case: (vloop C b w3) => [w6' e6'] /= <- h6.
rewrite /end_p po ta /vthen /=; case: e6 => [e|] //=.
rewrite (agree_eval h6 os); case: veval => [e|z] //=; split=> //; first exact: agree_set.
move=> _; apply: view_eq; last by case: h6.
by move=> c /=; case: eqP => // /eqP nc; case: h6 => h6 _; exact: h6.
Qed.
End Resume.

(** ** Attributes kept by the reset *)
Section Retain.
Variables (A L : Type) (C : class A L).
Lemma reset_retains der rs (v v' : vstate A L) a : all (rst_ok der) rs -> {subset derived rs <= der} -> a != Output -> a \notin der ->
  v.1 a <> VUnset A -> vexec (map (compile C) rs) v = (v', None) -> v'.1 a = v.1 a.
Proof.
move=> ok sd ao ad; elim: rs v ok sd => [|r rs IH] v /=; first by move=> _ _ _ [<-].
move=> /andP[okr ok] sd va; case E: (vexec1 v _) => [v1 [e|]] //.
have h1 : v1.1 a = v.1 a.
  case: r okr sd E => [b no f|b f|b f||s] //= okr sd.
  - case Eb: (v.1 b) => [||x].
    + by case: veval => [e|x] // [<-] /=; case: eqP => // ab; case: va; rewrite ab.
    + by case: no => // -[<-].
    + by move=> [<-] /=; case: eqP => // ->.
  - case Eb: (v.1 b) => [||x]; try by move=> [<-].
    by case: veval => [e|x] // [<-] /=; case: eqP => // ab; case: va; rewrite ab.
  - case: veval => [e|x] // [<-] /=; case: eqP => // ab; case/negP: ad; apply: sd; by rewrite ab inE eqxx.
  - by case: veval => [e|x] // [<-] /=; rewrite (negbTE ao).
move=> Ev; rewrite -h1; apply: IH Ev => //; last by rewrite h1.
by move=> b bd; apply: sd; move: bd; case: (r) => [||||] *; rewrite ?inE //= ?inE; apply/orP; right.
Qed.
End Retain.

(** ** Dependence on the earlier state of the object *)
Section Depend.
Variables (A L : Type).
Notation vstate := (vstate A L).
Implicit Types (v : vstate) (S : seq attr).
(** [deps S p]: starting with the attributes of [S] known, the attributes known after [p]; None when [p] may look at
    another one *)
Definition dep1 S (s : stmt A) : option (seq attr) :=
  match s with
  | Bind bs => if all (fun b => all (mem S) b.2.1) bs then Some (map fst bs ++ S) else None
  | Init a _ f | Keep a f => if (a \in S) && all (mem S) f.1 then Some S else None
  | Write a f => if (a \in S) && all (mem S) f.1 then Some S else None
  | Drop a => Some (a :: S)
  end.
Fixpoint deps S (p : seq (stmt A)) : option (seq attr) :=
  if p is s :: p' then (if dep1 S s is Some S' then deps S' p' else None) else Some S.
Definition known S v v' : Prop := forall a, a \in S -> v.1 a = v'.1 a.
Lemma known_read S v v' rd : known S v v' -> all (mem S) rd -> vread v rd = vread v' rd.
Proof. by move=> h; elim: rd => //= a rd IH /andP[aS /IH ->]; rewrite /vread1 h. Qed.
Lemma known_eval T S v v' (f : routine A T) : known S v v' -> all (mem S) f.1 -> veval v f = veval v' f.
Proof. by move=> h o; rewrite /veval (known_read h). Qed.
Lemma known_evals S v v' (bs : seq (bind A)) : known S v v' -> all (fun b => all (mem S) b.2.1) bs -> vevals v bs = vevals v' bs.
Proof. by move=> h; elim: bs => //= b bs IH /andP[ob /IH ->]; rewrite (known_eval h). Qed.
Lemma known_set S v v' a x : known S v v' -> known (a :: S) (vset v a x) (vset v' a x).
Proof. by move=> h b; rewrite inE /=; case: eqP => //= _; exact: h. Qed.
Lemma known_sub S S' v v' : {subset S' <= S} -> known S v v' -> known S' v v'.
Proof. by move=> s h a /s; exact: h. Qed.
Lemma known_sets S v v' xs : known S v v' -> known (map fst xs ++ S) (vsets v xs) (vsets v' xs).
Proof.
elim: xs S v v' => //= -[a x] xs IH S v v' h; refine (known_sub _ (IH _ _ _ (@known_set S v v' a (VArr x) h))) => b.
by rewrite !(inE, mem_cat) orbCA.
Qed.
Definition losses_new v (v1 : vstate) ls : Prop := v1.2 = v.2 ++ ls.

Lemma vexec1_losses v (s : stmt A) : (vexec1 v s).1.2 = v.2.
Proof.
have vs xs w : (vsets w xs).2 = w.2 :> seq L by elim: xs w => //= ax xs IH w; rewrite IH.
case: s => [bs|a no f|a f|a f|a] //=.
- by case: vevals => [e|xs] //=.
- by case: (v.1 a) => [||x] //; [case: veval|case: no].
- by case: (v.1 a) => [||x] //; case: veval.
- by case: (v.1 a) => [||x] //; case: vread.
Qed.
Lemma vexec_losses v (p : seq (stmt A)) : (vexec p v).1.2 = v.2.
Proof.
elim: p v => //= s p IH v; have := vexec1_losses v s; case: vexec1 => [v1 [e|]] //= <-; exact: IH.
Qed.

Lemma dep_exec1 S S' s v v' : dep1 S s = Some S' -> known S v v' ->
  [/\ (vexec1 v s).2 = (vexec1 v' s).2, known S (vexec1 v s).1 (vexec1 v' s).1 &
      (vexec1 v s).2 = None -> known S' (vexec1 v s).1 (vexec1 v' s).1].
Proof.
move=> d h; case: s d => [bs|a no f|a f|a f|a] /= d.
- move: d; case: ifP => // ok [<-]; rewrite -(known_evals h ok); case E: vevals => [e|xs] //=.
  have := @known_sets S v v' xs h; rewrite (vevals_attrs E) => h'; split=> //.
  by apply: known_sub h' => b bS; rewrite mem_cat bS orbT.
- move: d; case: ifP => // /andP[aS ok] [<-]; rewrite -(h _ aS); case: (v.1 a) => [||x].
  + rewrite -(known_eval h ok); case: veval => [e|x] //=.
    have k : known S (vset v a (VArr x)) (vset v' a (VArr x)) by refine (known_sub _ (known_set _ h)) => b bS; rewrite inE bS orbT.
    by split.
  + by case: no.
  + have k : known S (vset v a (VArr x)) (vset v' a (VArr x)) by refine (known_sub _ (known_set _ h)) => b bS; rewrite inE bS orbT.
    by split.
- move: d; case: ifP => // /andP[aS ok] [<-]; rewrite -(h _ aS); case: (v.1 a) => [||x] //.
  rewrite -(known_eval h ok); case: veval => [e|x] //=.
  have k : known S (vset v a (VArr x)) (vset v' a (VArr x)) by refine (known_sub _ (known_set _ h)) => b bS; rewrite inE bS orbT.
  by split.
- move: d; case: ifP => // /andP[aS ok] [<-]; rewrite -(h _ aS); case: (v.1 a) => [||x] //.
  rewrite -(known_read h ok); case: vread => [e|xs] //=.
  set y := last _ _.
  have k : known S (vset v a (VArr y)) (vset v' a (VArr y)) by refine (known_sub _ (known_set _ h)) => b bS; rewrite inE bS orbT.
  by split.
- case: d => <-; have k := @known_set S v v' a (VNone A) h; split=> //.
  by refine (known_sub _ k) => b bS; rewrite inE bS orbT.
Qed.
Lemma dep1_sub S S' s : dep1 S s = Some S' -> {subset S <= S'}.
Proof.
case: s => [bs|a no f|a f|a f|a] /=; try by case: ifP => // _ [<-] b bS; rewrite ?mem_cat ?bS ?orbT.
by move=> [<-] b bS; rewrite inE bS orbT.
Qed.
Lemma dep_exec S S' p v v' : deps S p = Some S' -> known S v v' ->
  [/\ (vexec p v).2 = (vexec p v').2, known S (vexec p v).1 (vexec p v').1 &
      (vexec p v).2 = None -> known S' (vexec p v).1 (vexec p v').1].
Proof.
elim: p S v v' => [|s p IH] S v v' /=; first by move=> [<-].
case E: dep1 => [S1|] // d h; have [] := dep_exec1 E h.
case: (vexec1 v s) => [v1 e1]; case: (vexec1 v' s) => [v1' e1'] /= <-; case: e1 => [e1|] //= k k'.
have [h1 h2 h3] := IH _ _ _ d (k' erefl); split=> //.
by refine (known_sub _ h2); exact: dep1_sub E.
Qed.

Variable C : class A L.
(** the attributes a call needs from outside *)
Definition self_contained (S : seq attr) : bool :=
  if deps S (reset_p C) is Some S1 then
    if (deps S1 (c_update C), deps S1 (end_p C)) is (Some _, Some S2) then
      (Output \in S2) && (if c_loss C is Some f then all (mem S1) f.1 else true)
    else false
  else false.
Lemma dep_record S v v' : (if c_loss C is Some f then all (mem S) f.1 else true) -> known S v v' ->
  [/\ (vrecord C v).2 = (vrecord C v').2, known S (vrecord C v).1 (vrecord C v').1 &
      exists ls, (vrecord C v).1.2 = v.2 ++ ls /\ (vrecord C v').1.2 = v'.2 ++ ls].
Proof.
rewrite /vrecord; case: c_loss => [f|] ok h; last by split=> //; exists [::]; rewrite !cats0.
rewrite -(known_eval h ok); case: veval => [e|l] /=; split=> //; first by exists [::]; rewrite !cats0.
by exists [:: l]; rewrite !cats1.
Qed.
Lemma dep_loop S S' n v v' : deps S (c_update C) = Some S' -> (if c_loss C is Some f then all (mem S) f.1 else true) -> known S v v' ->
  [/\ (vloop C n v).2 = (vloop C n v').2, known S (vloop C n v).1 (vloop C n v').1 &
      exists ls, (vloop C n v).1.2 = v.2 ++ ls /\ (vloop C n v').1.2 = v'.2 ++ ls].
Proof.
move=> d ok; elim: n v v' => [|n IH] v v' h; first by split=> //; exists [::]; rewrite !cats0.
rewrite /= /vthen; have := vexec_losses v (c_update C); have := vexec_losses v' (c_update C).
have [] := dep_exec d h; case: (vexec _ v) => [v1 e1]; case: (vexec _ v') => [v1' e1'] /= <- k1 _ l1' l1.
case: e1 => [e1|] /=; first by split=> //; exists [::]; rewrite !cats0.
have [] := dep_record ok k1; case: (vrecord C v1) => [v2 e2]; case: (vrecord C v1') => [v2' e2'] /= <- k2 [ls [e e']].
case: e2 => [e2|] /=; first by split=> //; exists ls; rewrite e e' l1 l1'.
have [h1 h2 [ls' [f f']]] := IH _ _ k2; split=> //; exists (ls ++ ls').
by rewrite f f' e e' l1 l1' -!catA.
Qed.

Theorem vcall_self_contained v v' X kw n i : self_contained (Input :: map fst kw) ->
  let r := vcall C v X kw n i in let r' := vcall C v' X kw n i in
  [/\ r.2 = r'.2, r.2 = None -> r.1.1 Output = r'.1.1 Output &
      exists ls, r.1.2 = v.2 ++ ls /\ r'.1.2 = v'.2 ++ ls].
Proof.
rewrite /self_contained; case E1: deps => [S1|] //; case E2: deps => [S1'|] //; case E3: deps => [S2|] //.
move=> /andP[oS ok]; rewrite /vcall.
have k0 : known (Input :: map fst kw) (vkwargs (vset v Input (VArr X)) kw) (vkwargs (vset v' Input (VArr X)) kw).
  have : known [:: Input] (vset v Input (VArr X)) (vset v' Input (VArr X)) by move=> a; rewrite inE => /eqP->.
  rewrite -[Input :: map _ _]cat1s; elim: kw [:: Input] (vset v _ _) (vset v' _ _) {E1} => [|[a x] kw IH] S w w' h /=.
    by rewrite cats0.
  refine (known_sub _ (IH _ _ _ (@known_set S w w' a x h))) => b; rewrite !(inE, mem_cat) => /or3P[] ->; by rewrite ?orbT.
have lk w : (vkwargs w kw).2 = w.2 :> seq L.
  by elim: kw w {E1 k0} => //= ks kw IH w; rewrite IH.
have := vexec_losses (vkwargs (vset v Input (VArr X)) kw) (reset_p C).
have := vexec_losses (vkwargs (vset v' Input (VArr X)) kw) (reset_p C).
have [] := dep_exec E1 k0; case: (vexec _ (vkwargs (vset v _ _) _)) => [v1 e1].
case: (vexec _ (vkwargs _ _)) => [v1' e1'] /= <- _ k1 l1' l1; rewrite lk /= in l1; rewrite lk /= in l1'.
rewrite /vthen /=; case: e1 k1 => [e1|] k1 /=; first by split=> //; exists [::]; rewrite !cats0.
have {}k1 := k1 erefl.
have [] : [/\ (if i || c_forced C then vrecord C v1 else (v1, None)).2 = (if i || c_forced C then vrecord C v1' else (v1', None)).2,
  known S1 (if i || c_forced C then vrecord C v1 else (v1, None)).1 (if i || c_forced C then vrecord C v1' else (v1', None)).1 &
  exists ls, (if i || c_forced C then vrecord C v1 else (v1, None)).1.2 = v1.2 ++ ls /\
             (if i || c_forced C then vrecord C v1' else (v1', None)).1.2 = v1'.2 ++ ls].
  by case: ifP => _; [exact: dep_record|split=> //; exists [::]; rewrite !cats0].
case: (if _ then vrecord C v1 else _) => [v2 e2]; case: (if _ then _ else _) => [v2' e2'] /= <- k2 [ls [l2 l2']].
case: e2 => [e2|] /=; first by split=> //; exists ls; rewrite l2 l2' l1 l1'.
have [] := dep_loop n E2 ok k2; case: (vloop C n v2) => [v3 e3]; case: (vloop C n v2') => [v3' e3'] /= <- k3 [ls' [l3 l3']].
case: e3 => [e3|] /=; first by split=> //; exists (ls ++ ls'); rewrite l3 l3' l2 l2' l1 l1' !catA.
have [h1 h2 h3] := dep_exec E3 k3; split=> //; first by move=> /h3; apply.
by exists (ls ++ ls'); rewrite !vexec_losses l3 l3' l2 l2' l1 l1' !catA.
Qed.
End Depend.

(** ** Attributes a program does not assign *)
Section Untouched.
Variables (A L : Type) (a : attr).
Definition spares (s : stmt A) : bool :=
  match s with Bind bs => a \notin map fst bs | Init b _ _ | Keep b _ | Write b _ | Drop b => a != b end.
Lemma vsets_spares (v : vstate A L) xs : a \notin map fst xs -> (vsets v xs).1 a = v.1 a.
Proof.
elim: xs v => //= -[b x] xs IH v /=; rewrite inE negb_or => /andP[ab nx]; rewrite IH //=.
by rewrite (negbTE ab).
Qed.
Lemma vexec1_spares (v : vstate A L) s : spares s -> (vexec1 v s).1.1 a = v.1 a.
Proof.
case: s => [bs|b no f|b f|b f|b] /= sp; try have nb := negbTE sp.
- by case E: vevals => [e|xs] //=; rewrite vsets_spares // (vevals_attrs E).
- by case: (v.1 b) => [||x] /=; [case: veval => [e|x] /=|case: no|]; rewrite ?nb.
- by case: (v.1 b) => [||x] //=; case: veval => [e|x] /=; rewrite ?nb.
- by case: (v.1 b) => [||x] //=; case: vread => [e|xs] /=; rewrite ?nb.
- by rewrite nb.
Qed.
Lemma vexec_spares (v : vstate A L) p : all spares p -> (vexec p v).1.1 a = v.1 a.
Proof.
elim: p v => //= s p IH v /andP[ss sp]; have := vexec1_spares v ss; case: vexec1 => [v1 [e|]] //= <-; exact: IH.
Qed.
Lemma vloop_spares (C : class A L) n (v : vstate A L) : all spares (c_update C) -> (vloop C n v).1.1 a = v.1 a.
Proof.
move=> sp; elim: n v => //= n IH v; rewrite /vthen; have := vexec_spares v sp; case: vexec => [v1 [e|]] //= <-.
have : (vrecord C v1).1.1 a = v1.1 a by rewrite /vrecord; case: c_loss => [f|] //; case: veval.
by case: vrecord => [v2 [e|]] //= <-; exact: IH.
Qed.
End Untouched.
