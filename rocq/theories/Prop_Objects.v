(** C04, C05: re-use of separation objects and ownership of the arrays. *)
From mathcomp Require Import all_ssreflect.
From Verif Require Import Objects ObjectsProofs.
Set Implicit Arguments.
Unset Strict Implicit.
Unset Printing Implicit Defensive.

Section C05.
Variables (A L : Type).
Implicit Types (C : class A L) (st : pystate A L).

(** every attribute refers to an existing array *)
Definition valid st : Prop := forall a l, slots st.2 a = Arr l -> l < size st.1.
(** so do the keyword arguments *)
Definition valid_kw st (kw : seq (attr * slot)) : bool := all (fun ks => if ks.2 is Arr l then l < size st.1 else true) kw.

Lemma class_safe C : ssspy_class C -> exists2 o, safe_own C = Some o & Output \in o.
Proof.
case; rewrite /grad_iva /aux_iva_filter => *;
repeat match goal with
| p : option (_ * _ * _ * _) |- _ => case: p => [[[[? ?] ?] ?]|]
| p : option (_ * _ * _) |- _ => case: p => [[[? ?] ?]|]
| p : option (_ * _) |- _ => case: p => [[? ?]|]
| p : option (seq A -> option A) |- _ => case: p => [?|]
| p : bool |- _ => case: p
end; by eexists; [reflexivity|].
Qed.

(** No array that exists when a call starts is changed by it, whether the call succeeds or raises: neither the
    mixture, nor the arrays given as keyword arguments (aliased or not), nor the arrays returned by earlier calls. *)
Theorem C05_unmodified C st x kw n i l : ssspy_class C -> valid st -> valid_kw st kw -> l < size st.1 ->
  look (call C st x kw n i).1.1 l = look st.1 l.
Proof.
move=> /class_safe[o so _] v k lt; case E: call => [st' e]; have [f _ _ _] := call_own so v k E; exact: f.
Qed.
(** the object stays valid *)
Theorem C05_valid C st x kw n i : ssspy_class C -> valid st -> valid_kw st kw ->
  valid (call C st x kw n i).1 /\ size st.1 <= size (call C st x kw n i).1.1.
Proof. by move=> /class_safe[o so _] v k; case E: call => [st' e]; have [_ w s _] := call_own so v k E. Qed.
(** the returned array is a new one *)
Theorem C05_result C st x kw n i l : ssspy_class C -> valid st -> valid_kw st kw ->
  result (call C st x kw n i) = Some l -> size st.1 <= l /\ l < size (call C st x kw n i).1.1.
Proof.
move=> /class_safe[o so oo] v k; case E: call => [st' e]; have [_ w _ h] := call_own so v k E.
rewrite /result /=; case: st' E h w => h' o' E h w; case: e E h => [e|] // E /(_ erefl) [_ h2 _ _].
by case Es: (slots o' Output) => [||m] // [<-]; split; [exact: h2 oo Es|exact: (w _ _ Es)].
Qed.

(** the keyword arguments of a sequence of calls refer to arrays that exist when they are passed *)
Fixpoint valid_calls C st (cs : seq args) : Prop :=
  if cs is c :: cs' then
    valid_kw st (a_kw c) /\ valid_calls C (call C st (a_input c) (a_kw c) (a_iter c) (a_initial c)).1 cs'
  else True.
Theorem C05_history C st cs l : ssspy_class C -> valid st -> valid_calls C st cs -> l < size st.1 ->
  look (calls C st cs).1 l = look st.1 l.
Proof.
move=> sc; elim: cs st => //= c cs IH st v [k ks] lt.
have [v' s] := C05_valid (a_input c) (a_iter c) (a_initial c) sc v k.
by rewrite IH //; [exact: C05_unmodified|exact: leq_trans lt s].
Qed.

(** the attributes a method computes with *)
Definition stmt_reads (s : stmt A) : seq attr :=
  match s with
  | Bind bs => flatten (map (fun b => b.2.1) bs)
  | Init a _ f | Keep a f => a :: f.1
  | Write a f => a :: f.1
  | Drop _ => [::]
  end.
Definition used C : seq attr :=
  (c_sep C).1 ++ flatten (map stmt_reads (c_update C)) ++ (if c_loss C is Some f then f.1 else [::]).
Definition is_fast_mnmf C : Prop := exists a b c d e f g h i j k l, C = fast_mnmf a b c d e f g h i j k l.

(** After a successful call no attribute a method computes with refers to an array of the caller, so that changing
    those arrays later does not change the object; FastGaussMNMF is the exception. *)
Theorem C05_not_retained C st x kw n i st' a l : ssspy_class C -> ~ is_fast_mnmf C -> valid st -> valid_kw st kw ->
  a \in used C -> call C st x kw n i = (st', None) -> slots st'.2 a = Arr l -> a = Input \/ size st.1 <= l.
Proof.
move=> sc nf v k au E; have [o so h] : exists2 o, safe_own C = Some o & {subset used C <= Input :: o}.
  case: sc nf {au E}; rewrite /grad_iva /aux_iva_filter => *;
  try (match goal with nf : ~ is_fast_mnmf _ |- _ => case: nf; do 12 eexists; reflexivity end);
  match goal with nf : ~ is_fast_mnmf _ |- _ => clear nf end;
  repeat match goal with
  | p : option (_ * _ * _ * _) |- _ => case: p => [[[[? ?] ?] ?]|]
  | p : option (_ * _ * _) |- _ => case: p => [[[? ?] ?]|]
  | p : option (_ * _) |- _ => case: p => [[? ?]|]
  | p : option (seq A -> option A) |- _ => case: p => [?|]
  | p : option (seq A -> option L) |- _ => case: p => [?|]
  | p : bool |- _ => case: p
  end; by eexists; [reflexivity|]; apply/allP.
move=> es; have := h _ au; rewrite inE => /orP[/eqP|ao]; first by left.
by right; have [_ _ _ /(_ erefl) [_ h2 _ _]] := call_own so v k E; exact: h2 ao es.
Qed.
End C05.

(** FastGaussMNMF keeps a reference to the [spatial] array it is given when no iteration is run (mnmf.py:594-600). *)
Definition one (xs : seq nat) : option nat := Some (sumn xs).
Definition inc (xs : seq nat) : seq nat * bool := ([:: (sumn xs).+1], false).
Definition incr (xs : seq nat) : option nat := Some (sumn xs).+1.
Theorem C05_retained_refuted : exists (C : class nat nat) st x kw st' l,
  [/\ ssspy_class C, valid st, valid_kw st kw, call C st x kw 0 true = (st', None) &
      Spatial \in used C /\ slots st'.2 Spatial = Arr l /\ l < size st.1].
Proof.
exists (fast_mnmf one one one one one one one one one inc None None), ([:: 3; 4], new_obj nat), 0, [:: (Spatial, Arr 1)].
eexists; exists 1; split; [constructor| | |reflexivity|by []] => //.
by move=> [].
Qed.

(** ** Callbacks that keep a reference *)
(** a method whose update only binds new arrays leaves the arrays seen by a callback unchanged *)
Definition no_write (A L : Type) (C : class A L) : bool := all (fun s => if s is Write _ _ then false else true) (c_update C).
Theorem C05_callback (A L : Type) (C : class A L) st n l : no_write C -> valid st -> l < size st.1 ->
  look (loop C n st).1.1 l = look st.1 l.
Proof.
move=> nw v lt; have [o ow] : exists o, owns [::] (c_update C) = Some o.
  move: nw; rewrite /no_write; elim: (c_update C) [::] => [|s p IH] own /=; first by exists own.
  by case: s => //= *; apply: IH.
case E: loop => [st' e]; have [] := @loop_own _ _ C (size st.1) [::] o n st st' e ow _ E; last by move=> _; exact.
by split=> // a b k /v lk _; rewrite leqNgt lk.
Qed.
(** The updates in place do not: the filter a callback stored after the first iteration is overwritten by the second. *)
Theorem C05_callback_refuted : exists (C : class nat nat) st st1 st2 l,
  [/\ ssspy_class C, valid st, loop C 1 st = (st1, None) & slots st1.2 Demix = Arr l /\
      loop C 1 st1 = (st2, None) /\ look st2.1 l <> look st1.1 l].
Proof.
exists (aux_iva_filter one one inc None None), ([:: 3; 4], set_slot (set_slot (new_obj nat) Input (Arr 0)) Demix (Arr 1)).
do 2 eexists; exists 1; split; [constructor| |reflexivity|] => //.
by move=> [] l //= [<-].
Qed.

(** ** C04 *)
Section C04.
Variables (A L : Type).
Implicit Types (C : class A L) (st : pystate A L).

(** what an attribute holds: nothing, None or an array with these contents *)
Definition contents st (a : attr) : val A := vget st.1 (slots st.2 a).

(** the methods that keep their filter or parameters, without permutation alignment and scale restoration *)
Inductive continuable : class A L -> Prop :=
| CGradIca a b c d e : continuable (grad_ica a b c d e)
| CFastIca a b c d e f : continuable (fast_ica a b c d e f)
| CGradFdica a b c d e : continuable (grad_fdica a b c d None None e)
| CAuxFdica a b c d : continuable (aux_fdica a b c None None d)
| CGradIva a b c d e : continuable (grad_iva a b c d None e)
| CAuxIva a b c d : continuable (aux_iva_filter a b c None d)
| CIlrma a b c d e f g h i j k l : continuable (ilrma_filter a b c d e f g h i j k None l)
| CGaussMnmf a b c d e f g h i j k l m : continuable (gauss_mnmf a b c d e f g h i j k l m)
| CFastMnmf a b c d e f g h i j k l : continuable (fast_mnmf a b c d e f g h i j k l)
| CPds a b c d e f : continuable (pds a b c d e None f)
| CAdmm a b c d e f g h i j k l : continuable (admm a b c d e f g h i j k None l).
Lemma continuable_class C : continuable C -> ssspy_class C.
Proof. by case=> *; constructor. Qed.
Lemma continuable_ok C : continuable C -> resumable C.
Proof.
case; rewrite /grad_iva /aux_iva_filter => *;
repeat match goal with
| p : option (_ * _ * _) |- _ => case: p => [[[? ?] ?]|]
| p : option (_ * _) |- _ => case: p => [[? ?]|]
| p : option (seq A -> option L) |- _ => case: p => [?|]
| p : bool |- _ => case: p
end; by [].
Qed.

(** Calling the object for [a] iterations and calling it again on the same mixture for [b] iterations with
    initial_call=False is the same as one call with [a + b] iterations: the same exception if any, the same loss
    list, the same contents of every attribute ([output] included when nothing is raised). *)
Theorem C04_continue C st x X kw a b i st1 x' : continuable C -> valid st -> valid_kw st kw ->
  all (fun ks => ks.1 != Input) kw -> look st.1 x = Some X -> call C st x kw a i = (st1, None) -> look st1.1 x' = Some X ->
  let r := call C st1 x' [::] b false in let l := call C st x kw (a + b) i in
  [/\ r.2 = l.2, losses r.1.2 = losses l.1.2, forall at', at' <> Output -> contents r.1 at' = contents l.1 at' &
      r.2 = None -> contents r.1 Output = contents l.1 Output].
Proof.
move=> cc v k ki eX e1 eX' r l; have sc := continuable_class cc; have ro := continuable_ok cc.
have [o so _] := class_safe sc; have [_ v1 _ _] := call_own so v k e1.
have E1 := call_view so v k eX e1.
have ki' : all (fun ks => ks.1 != Input) (map (fun ks => (ks.1, vget st.1 ks.2)) kw) by rewrite all_map.
have [] := @vresume _ _ C X (view st) _ a b i (view st1) ro ki' E1.
case Er: r => [st2 e2]; case El: l => [stl el].
have -> := @call_view _ _ C o st1 x' X [::] b false st2 e2 so v1 isT eX' Er.
have -> := call_view so v k eX El.
move=> /= -> [h1 h2] h3; split=> //; first by move=> at' /eqP /h1.
by move=> /h3 h; rewrite /contents -[LHS]/((view st2).1 Output) h.
Qed.

(** The filter left by one call is what the next one starts from, also on another mixture: with no iteration it is
    still there afterwards. *)
Theorem C04_restart C st x X a : continuable C -> valid st -> look st.1 x = Some X -> a \in [:: Demix; Basis; Activ; Diag; Dual] ->
  contents st a <> VUnset A -> (call C st x [::] 0 false).2 = None -> contents (call C st x [::] 0 false).1 a = contents st a.
Proof.
move=> cc v eX aI ca; have sc := continuable_class cc; have [o so _] := class_safe sc.
case E: call => [st' e] /= e0; rewrite e0 in E; have := @call_view _ _ C o st x X [::] 0 false st' None so v isT eX E.
have /and5P[okr un oku /nilP po /and4P[ta fo os ol]] := continuable_ok cc.
rewrite /vcall /= (negbTE fo) /vthen; case Er: vexec => [v1 [e1|]] //=.
rewrite /end_p po ta /=; case: veval => [e1|y] // ev.
have ad : a \notin derived (c_reset C).
  by case: (cc) => *; repeat match goal with p : bool |- _ => case: p end; case: (a) aI.
have ao : a != Output by case: (a) aI.
have ai : a != Input by case: (a) aI.
have := reset_retains okr (fun _ h => h) ao ad _ Er; rewrite /= (negbTE ai) => /(_ ca) h.
by have := congr1 (fun r => r.1.1 a) ev; rewrite /= (negbTE ao) h /contents => ->.
Qed.
End C04.

(** ** The algorithms that drop the filter *)
Section C04Drop.
Variables (A L : Type).
Implicit Types (C : class A L) (st : pystate A L).

(** AuxIVA and ILRMA with ISS, ISS1, ISS2 or IPA *)
Inductive dropping : class A L -> Prop :=
| DAuxIva a b c d e : dropping (aux_iva_output a b c d e)
| DIlrma a b c d e f g h i j k l m : dropping (ilrma_output a b c d e f g h i j k l m).
Lemma dropping_class C : dropping C -> ssspy_class C.
Proof. by case=> *; constructor. Qed.

Lemma dropped C v X kw n i v1 : dropping C -> vcall C v X kw n i = (v1, None) -> v1.1 Demix = VNone A.
Proof.
move=> d; rewrite /vcall /vthen; case Er: vexec => [w1 [e|]] //=.
have d1 : w1.1 Demix = VNone A.
  have [p ep] : exists p, reset_p C = p ++ [:: Drop Demix].
    exists (take (size (reset_p C)).-1 (reset_p C)).
    by case: (d) => *; repeat match goal with p : bool |- _ => case: p end.
  move: Er; rewrite ep; elim: p (vkwargs _ _) {ep} => [|s p IH] w /=; first by move=> [<-].
  by case: vexec1 => [w' [e|]] //; exact: IH.
have : (if i || c_forced C then vrecord C w1 else (w1, None)).1.1 Demix = VNone A.
  by case: ifP => // _; rewrite /vrecord; case: c_loss => [f|] //; case: veval.
case: (if _ then _ else _) => [w2 [e|]] //= d2.
have [su se] : all (spares Demix) (c_update C) /\ all (spares Demix) (end_p C).
  by case: (d) => *; repeat match goal with
  | p : option (_ * _ * _) |- _ => case: p => [[[? ?] ?]|]
  | p : option (seq A -> option A) |- _ => case: p => [?|]
  | p : bool |- _ => case: p
  end.
have := vloop_spares n w2 su; case: vloop => [w3 [e|]] //= d3 ev.
by have := vexec_spares w3 se; rewrite ev /= d3 d2.
Qed.

(** After a successful call every further call that does not pass [demix_filter] raises TypeError, whatever the
    mixture and the number of iterations (0 included). *)
Theorem C04_dropped C st x kw n i st1 : dropping C -> valid st -> valid_kw st kw -> call C st x kw n i = (st1, None) ->
  forall x' kw' n' i', look st1.1 x' <> None -> valid_kw st1 kw' -> all (fun ks => (ks.1 != Demix) && (ks.1 != Input)) kw' ->
  (call C st1 x' kw' n' i').2 = Some TypeError.
Proof.
move=> d v k E x' kw' n' i' eX k' nd; have sc := dropping_class d; have [o so _] := class_safe sc.
have [_ v1 _ _] := call_own so v k E.
case El: (look st1.1 x') eX => [X'|] // _; case E2: call => [st2 e2] /=.
have : exists X, look st.1 x = Some X by move: E; rewrite /call; case: look => [X|] // _; exists X.
case=> X eX; have := dropped d (call_view so v k eX E).
have := call_view so v1 k' El E2.
move: (view st1) => w; set kv := map _ kw' => ec wd.
have wd' : (vkwargs (vset w Input (VArr X')) kv).1 Demix = VNone A /\ (vkwargs (vset w Input (VArr X')) kv).1 Input = VArr X'.
  have : (vset w Input (VArr X')).1 Demix = VNone A /\ (vset w Input (VArr X')).1 Input = VArr X' by [].
  rewrite /kv; elim: kw' nd (vset _ _ _) {k' E2 kv ec} => //= -[b s] kw' IH /andP[/andP[nb nb'] nd] w' [h1 h2]; apply: IH => //=.
  by rewrite eq_sym (negbTE nb) eq_sym (negbTE nb').
case: wd' => d1 d2; move: ec; rewrite /vcall.
suff -> : vexec (reset_p C) (vkwargs (vset w Input (VArr X')) kv) = (vkwargs (vset w Input (VArr X')) kv, Some TypeError).
  by rewrite /vthen /= => -[_ <-].
by case: d {sc so E E2} => * /=; rewrite d1 /= /veval /= /vread1 d1 d2.
Qed.
End C04Drop.

(** the property as stated fails: re-using the object is not well defined *)
Theorem C04_dropped_refuted : exists (C : class nat nat) st x st1,
  [/\ ssspy_class C, call C st x [::] 2 true = (st1, None), look st1.1 x = look st.1 x & (call C st1 x [::] 2 false).2 = Some TypeError].
Proof.
exists (aux_iva_output one one incr None None), ([:: 3], new_obj nat), 0; eexists; split; [constructor|reflexivity|by []|by []].
Qed.
(** With scale restoration (the default) the retained filter is the rescaled one: two calls are not one long call. *)
Theorem C04_scale_refuted : exists (C : class nat nat) st x,
  let r1 := call C st x [::] 1 true in let r2 := call C r1.1 x [::] 1 false in let r := call C st x [::] 2 true in
  [/\ ssspy_class C, r1.2 = None, r2.2 = None, r.2 = None & contents r2.1 Output <> contents r.1 Output].
Proof.
exists (aux_iva_filter one one inc (Some (incr, incr)) None), ([:: 3], new_obj nat), 0.
by split; [constructor|vm_compute..].
Qed.
(** GaussIPSDTA and TIPSDTA take no [initial_call]: it is swallowed by the keyword arguments, the initial loss is
    recorded again and the loss list of two calls is longer than that of one (ipsdta.py:96-115). *)
Theorem C04_ipsdta_refuted : exists (C : class nat nat) st x,
  let r1 := call C st x [::] 1 true in let r2 := call C r1.1 x [::] 1 false in let r := call C st x [::] 2 true in
  [/\ ssspy_class C, r1.2 = None, r2.2 = None, r.2 = None & size (losses r2.1.2) = (size (losses r.1.2)).+1].
Proof.
pose z := fun _ : seq nat => Some 0.
exists (ipsdta z z z z z z inc None None (Some z)), ([:: 3], new_obj nat), 0.
by split; [constructor|vm_compute..].
Qed.

(** ** Independence of the history *)
Section C04Fresh.
Variables (A L : Type).
Implicit Types (C : class A L) (st : pystate A L).
Definition part_attrs (part : bool) : seq attr := (if part then [:: Latent] else [::]) ++ [:: Basis; Activ].
(** the initial values that have to be passed for the history of the object not to matter *)
Inductive needs : class A L -> seq attr -> Prop :=
| NGradIca a b c d e : needs (grad_ica a b c d e) [:: Demix]
| NFastIca a b c d e f : needs (fast_ica a b c d e f) [:: Demix]
| NGradFdica a b c d e f g : needs (grad_fdica a b c d e f g) [:: Demix]
| NAuxFdica a b c d e f : needs (aux_fdica a b c d e f) [:: Demix]
| NGradIva a b c d e f : needs (grad_iva a b c d e f) [:: Demix]
| NFastIva a b c d e f g : needs (fast_iva a b c d e f g) [:: Demix]
| NAuxIvaFilter a b c d e : needs (aux_iva_filter a b c d e) [:: Demix]
| NAuxIvaOutput a b c d e : needs (aux_iva_output a b c d e) [:: Demix]
| NIlrmaFilter a b c d e f g h i j k l m : needs (ilrma_filter a b c d e f g h i j k l m) (Demix :: part_attrs j)
| NIlrmaOutput a b c d e f g h i j k l m : needs (ilrma_output a b c d e f g h i j k l m) (Demix :: part_attrs j)
| NGaussMnmf a b c d e f g h i j k l m : needs (gauss_mnmf a b c d e f g h i j k l m) (Spatial :: part_attrs k)
| NFastMnmf a b c d e f g h i j k l : needs (fast_mnmf a b c d e f g h i j k l) [:: Basis; Activ; Diag; Spatial]
| NIpsdta a b c d e f g h i j : needs (ipsdta a b c d e f g h i j) [:: Demix; Basis; Activ]
| NPds a b c d e f g : needs (pds a b c d e f g) [:: Demix; Dual]
| NAdmm a b c d e f g h i j k l m : needs (admm a b c d e f g h i j k l m) [:: Demix; Aux1; Aux2; Dual1; Dual2]
| NCacgmm a b c d e f g h i j : needs (cacgmm a b c d e f g h i j) [::].
Lemma needs_class C S : needs C S -> ssspy_class C.
Proof. by case=> *; constructor. Qed.

(** A call that passes the initial value of all the parameters (in any order, possibly with others) gives the same
    output, the same exception and the same new losses on every object, whatever was done with it before. *)
Theorem C04_fresh C S st st' x x' X kw n i : needs C S -> valid st -> valid st' ->
  map fst kw = S -> valid_kw st kw -> valid_kw st' kw -> look st.1 x = Some X -> look st'.1 x' = Some X ->
  (forall a l, List.In (a, Arr l) kw -> look st.1 l = look st'.1 l) ->
  let r := call C st x kw n i in let r' := call C st' x' kw n i in
  [/\ r.2 = r'.2, r.2 = None -> contents r.1 Output = contents r'.1 Output &
      exists ls, losses r.1.2 = losses st.2 ++ ls /\ losses r'.1.2 = losses st'.2 ++ ls].
Proof.
move=> ne v v' ek k k' eX eX' same r r'; have sc := needs_class ne; have [o so _] := class_safe sc.
have sel : self_contained C (Input :: S).
  by case: ne {ek}; rewrite /grad_iva /aux_iva_filter => *;
  repeat match goal with
  | p : option (_ * _ * _ * _) |- _ => case: p => [[[[? ?] ?] ?]|]
  | p : option (_ * _ * _) |- _ => case: p => [[[? ?] ?]|]
  | p : option (_ * _) |- _ => case: p => [[? ?]|]
  | p : option (seq A -> option A) |- _ => case: p => [?|]
  | p : option (seq A -> option L) |- _ => case: p => [?|]
  | p : bool |- _ => case: p
  end.
have ekv : map (fun ks => (ks.1, vget st.1 ks.2)) kw = map (fun ks => (ks.1, vget st'.1 ks.2)) kw.
  elim: kw same {ek k k' r r'} => //= -[a s] kw IH same; congr (_ :: _); last by apply: IH => b l h; apply: (same b); right.
  by congr (_, _); case: s same => //= l same; rewrite (same a l) //; left.
have ek' : map fst (map (fun ks => (ks.1, vget st.1 ks.2)) kw) = S by rewrite -map_comp -ek.
rewrite -ek' in sel; have [] := vcall_self_contained (view st) (view st') X n i sel.
case Er: r => [s2 e2]; case Er': r' => [s2' e2'].
rewrite (call_view so v k eX Er) ekv (call_view so v' k' eX' Er') /=.
by move=> -> h [ls hl]; split=> //; exists ls.
Qed.
End C04Fresh.

(** concrete cases *)
Definition st0 : pystate nat nat := ([:: 3; 4], new_obj nat).
Lemma st0_valid : valid st0. Proof. by move=> []. Qed.
Definition auxiva_ex : class nat nat := aux_iva_filter one one inc None (Some one).
Lemma auxiva_ex_class : ssspy_class auxiva_ex. Proof. exact: IsAuxIvaFilter. Qed.
Lemma auxiva_ex_cont : continuable auxiva_ex. Proof. exact: CAuxIva. Qed.
Local Opaque call.
Example C05_instance : look (call auxiva_ex st0 0 [:: (Demix, Arr 1)] 3 true).1.1 1 = Some 4.
Proof. by rewrite C05_unmodified //; [constructor|exact: st0_valid]. Qed.
(** while the filter itself was overwritten three times *)
Example C05_instance_written : contents (call auxiva_ex st0 0 [:: (Demix, Arr 1)] 3 true).1 Demix = VArr 16.
Proof. by vm_compute. Qed.
Example C05_result_instance : exists2 l, result (call auxiva_ex st0 0 [:: (Demix, Arr 1)] 3 true) = Some l & 2 <= l.
Proof.
case E: result => [l|]; last by move: E; vm_compute.
exists l; first by [].
have [h _] := @C05_result nat nat auxiva_ex st0 0 [:: (Demix, Arr 1)] 3 true l auxiva_ex_class st0_valid isT E.
exact: h.
Qed.
Example C05_history_instance :
  look (calls auxiva_ex st0 [:: Args 0 [:: (Demix, Arr 1)] 2 true; Args 1 [::] 1 false]).1 1 = Some 4.
Proof. by rewrite C05_history //; [constructor|exact: st0_valid]. Qed.
Example C05_not_retained_instance : let r := call auxiva_ex st0 0 [:: (Demix, Arr 1)] 0 true in
  r.2 = None /\ exists2 l, slots r.1.2 Demix = Arr l & 2 <= l.
Proof.
move=> r; have e0 : r.2 = None by vm_compute.
split=> //; case E: (slots r.1.2 Demix) => [||l]; try by move: E; vm_compute.
exists l; first reflexivity.
have Er : call auxiva_ex st0 0 [:: (Demix, Arr 1)] 0 true = (r.1, None) by rewrite -e0 -surjective_pairing.
have nf : ~ is_fast_mnmf auxiva_ex.
  move=> [a [b [c [d [e [f [g [h [k [m [n [o eq]]]]]]]]]]]].
  by have := congr1 (fun C => (c_sep C).1) eq.
have k : valid_kw st0 [:: (Demix, Arr 1)] by [].
have u : Demix \in used auxiva_ex by [].
case: (C05_not_retained auxiva_ex_class nf st0_valid k u Er E) => [e|h]; [discriminate e|exact: h].
Qed.
Example C05_callback_instance :
  look (loop (grad_iva one one incr one None None) 5 ([:: 3; 4], set_slot (set_slot (new_obj nat) Input (Arr 0)) Demix (Arr 1))).1.1 1 = Some 4.
Proof.
by rewrite C05_callback // => -[] l //= [<-].
Qed.
Lemma run_ex n (C : class nat nat) st kw i : (call C st 0 kw n i).2 = None -> call C st 0 kw n i = ((call C st 0 kw n i).1, None).
Proof. by case: call => st' e /= ->. Qed.
Example C04_continue_instance : let st1 := (call auxiva_ex st0 0 [::] 2 true).1 in
  (call auxiva_ex st1 0 [::] 3 false).2 = None /\ size (losses (call auxiva_ex st1 0 [::] 3 false).1.2) = 6 /\
  losses (call auxiva_ex st1 0 [::] 3 false).1.2 = losses (call auxiva_ex st0 0 [::] 5 true).1.2.
Proof.
move=> st1; split; [by vm_compute|split; [by vm_compute|]].
have E : (call auxiva_ex st0 0 [::] 2 true).2 = None by vm_compute.
have k : valid_kw st0 [::] by [].
have ki : all (fun ks : attr * slot => ks.1 != Input) [::] by [].
have eX : look st0.1 0 = Some 3 by [].
have eX1 : look st1.1 0 = Some 3 by vm_compute.
by case: (@C04_continue _ _ _ _ _ _ _ _ 3 _ _ _ auxiva_ex_cont st0_valid k ki eX (run_ex E) eX1).
Qed.
Example C04_restart_instance :
  contents (call auxiva_ex (call auxiva_ex st0 0 [::] 2 true).1 1 [::] 0 false).1 Demix = VArr 11.
Proof.
set st1 := (call auxiva_ex st0 0 [::] 2 true).1.
have v1 : valid st1.
  have [h _] := @C05_valid nat nat auxiva_ex st0 0 [::] 2 true auxiva_ex_class st0_valid (erefl : valid_kw st0 [::]).
  exact: h.
have eX : look st1.1 1 = Some 4 by vm_compute.
have di : Demix \in [:: Demix; Basis; Activ; Diag; Dual] by [].
have ne : contents st1 Demix <> VUnset nat by vm_compute.
have e0 : (call auxiva_ex st1 1 [::] 0 false).2 = None by vm_compute.
by rewrite (C04_restart auxiva_ex_cont v1 eX di ne e0); vm_compute.
Qed.
Definition iss_ex : class nat nat := aux_iva_output one one incr None None.
Lemma iss_ex_drop : dropping iss_ex. Proof. exact: DAuxIva. Qed.
Lemma iss_ex_class : ssspy_class iss_ex. Proof. exact: IsAuxIvaOutput. Qed.
Lemma iss_ex_needs : needs iss_ex [:: Demix]. Proof. exact: NAuxIvaOutput. Qed.
Example C04_dropped_instance : (call iss_ex st0 0 [::] 2 true).2 = None /\
  (call iss_ex (call iss_ex st0 0 [::] 2 true).1 1 [::] 0 true).2 = Some TypeError.
Proof.
have E : (call iss_ex st0 0 [::] 2 true).2 = None by vm_compute.
split; first exact: E.
have k : valid_kw st0 [::] by [].
have lo : look (call iss_ex st0 0 [::] 2 true).1.1 1 <> None by vm_compute.
apply: (C04_dropped iss_ex_drop st0_valid k (run_ex E) 0 true lo); by vm_compute.
Qed.
(** a used object and a new one, the filter given *)
Example C04_fresh_instance : let st1 := (call iss_ex st0 0 [::] 2 true).1 in
  contents (call iss_ex st1 0 [:: (Demix, Arr 1)] 3 true).1 Output = contents (call iss_ex st0 0 [:: (Demix, Arr 1)] 3 true).1 Output.
Proof.
move=> st1; have v1 : valid st1.
  have [h _] := @C05_valid nat nat iss_ex st0 0 [::] 2 true iss_ex_class st0_valid (erefl : valid_kw st0 [::]).
  exact: h.
have k0 : valid_kw st0 [:: (Demix, Arr 1)] by [].
have k1 : valid_kw st1 [:: (Demix, Arr 1)] by vm_compute.
have e0 : look st0.1 0 = Some 3 by [].
have e1 : look st1.1 0 = Some 3 by vm_compute.
have s01 a l : List.In (a, Arr l) [:: (Demix, Arr 1)] -> look st1.1 l = look st0.1 l by move=> [[_ <-]|[]]; vm_compute.
have [_ h _] := @C04_fresh _ _ _ _ _ _ _ _ _ [:: (Demix, Arr 1)] 3 true iss_ex_needs v1 st0_valid erefl k1 k0 e1 e0 s01.
apply: h; by vm_compute.
Qed.

Print Assumptions C04_continue.
Print Assumptions C04_restart.
Print Assumptions C04_dropped.
Print Assumptions C04_dropped_refuted.
Print Assumptions C04_scale_refuted.
Print Assumptions C04_ipsdta_refuted.
Print Assumptions C04_fresh.
Print Assumptions C05_unmodified.
Print Assumptions C05_valid.
Print Assumptions C05_result.
Print Assumptions C05_history.
Print Assumptions C05_not_retained.
Print Assumptions C05_retained_refuted.
Print Assumptions C05_callback.
Print Assumptions C05_callback_refuted.
