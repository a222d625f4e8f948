(** Property C59: which options the constructors accept, and what a call then does. *)
From Coq Require Import String.
From mathcomp Require Import all_ssreflect all_algebra.
From Verif Require Import Options.
Set Implicit Arguments.
Unset Strict Implicit.
Unset Printing Implicit Defensive.
Local Open Scope string_scope.
Local Open Scope seq_scope.

Lemma isinP s l : reflect (List.In s l) (isin s l).
Proof.
  elim: l => [|x l IH] /=; first by constructor.
  case: (String.eqb_spec s x) => [->|h] /=; first by constructor; left.
  apply: (iffP IH) => [|[/esym //|//]]; by right.
Qed.

(** the documented requirements on the options *)
Definition documented (k : kind) (o : opts) : Prop :=
  [/\ List.In (o_spatial o) (match k with
        | AuxIVA | GaussILRMA => [:: "IP"; "IP1"; "IP2"; "ISS"; "ISS1"; "ISS2"; "IPA"]
        | TILRMA | GGDILRMA => [:: "IP"; "IP1"; "IP2"; "ISS"; "ISS1"; "ISS2"]
        | AuxFDICA | FastGaussMNMF => [:: "IP"; "IP1"; "IP2"]
        | GaussIPSDTA | TIPSDTA => [:: "FPI"; "VCD"] end),
      match k with
        | GaussILRMA | TILRMA => (o_source o = "MM" /\ (0 < o_domain o <= 2%:R)%R) \/ (o_source o = "ME" /\ o_domain o = 2%:R%R)
        | GGDILRMA => [/\ o_source o = "MM", (0 < o_domain o <= 2%:R)%R & (0 < o_beta o < 2%:R)%R]
        | GaussIPSDTA | TIPSDTA => o_source o = "EM" \/ o_source o = "MM"
        | FastGaussMNMF => o_part o = false
        | AuxFDICA => o_contrast o = true
        | AuxIVA => True end,
      k = FastGaussMNMF \/ o_ref o <> None \/ truthy (o_scale o) = false &
      forall s, List.In s (o_kwargs o) ->
        [/\ k = AuxIVA \/ k = GaussILRMA, o_spatial o = "IPA" & s = "newton_iter" \/ s = "lqpqm_normalization"]].

Lemma check_ok b e T (r : exn + T) a : check b e r = inr a <-> b /\ r = inr a.
Proof. rewrite /check; case: b; split=> //; by case. Qed.
Lemma check_ex b e T (r : exn + T) : (exists a, check b e r = inr a) <-> b /\ exists a, r = inr a.
Proof. rewrite /check; case: b; split=> h //; by case: h. Qed.
Lemma ex_inr T (x : T) : (exists a, inr x = inr a :> exn + T) <-> True.
Proof. by split=> // _; exists x. Qed.
Lemma ref_ok (r : option nat) b : ~~ ((r == None) && b) <-> r <> None \/ b = false.
Proof. by case: r => [r|]; case: b; split=> // h; try (by left); try (by right); by case: h. Qed.
Lemma keys_ok (l keys : seq string) : all (fun s => isin s keys) l <-> forall s, List.In s l -> List.In s keys.
Proof.
  elim: l => [|x l IH] /=; first by split.
  split=> [/andP[/isinP h /IH h2] s [<-//|/h2//]|h]. apply/andP; split; first by apply/isinP/h; left.
  by apply/IH => s hs; apply: h; right.
Qed.
Lemma nil_ok T (l : seq T) (P : T -> Prop) : (forall s, ~ P s) -> nilp l <-> forall s, List.In s l -> P s.
Proof. by move=> n; case: l => [|x l] /=; split=> // h; case: (n x); apply: h; left. Qed.


Lemma not_ipa s : List.In s [:: "IP"; "IP1"; "IP2"; "ISS"; "ISS1"; "ISS2"; "IPA"] /\ ~~ String.eqb s "IPA" <->
  List.In s [:: "IP"; "IP1"; "IP2"; "ISS"; "ISS1"; "ISS2"].
Proof. 
  split=> [[h n]|h]; last by move: h => /=; intuition subst.
  by move: h n => /=; intuition subst.
Qed.
Lemma source_me s (d : rat) : [/\ List.In s [:: "MM"; "ME"], (0 < d)%R && (d <= 2%:R)%R & (if String.eqb s "ME" then d == 2%:R%R else true)] <->
  (s = "MM" /\ (0 < d <= 2%:R)%R) \/ (s = "ME" /\ d = 2%:R%R).
Proof.
  split=> [[/= [<-|[<-|//]] h1 h2]|[[-> h]|[-> ->]]].
  - by left.
  - by right; split=> //; apply/eqP.
  - by split=> //=; left.
  - by split=> //=; right; left.
Qed.
(** The constructors accept exactly the documented options. *)
Theorem C59_accepts k o : (exists a, init k o = inr a) <-> documented k o.
Proof.
  have kw : forall k, k = AuxIVA \/ k = GaussILRMA -> all (fun s => isin s (valid_keys k o)) (o_kwargs o) <->
      forall s, List.In s (o_kwargs o) -> [/\ k = AuxIVA \/ k = GaussILRMA, o_spatial o = "IPA" & s = "newton_iter" \/ s = "lqpqm_normalization"].
    move=> k' hk; have -> : valid_keys k' o = if String.eqb (o_spatial o) "IPA" then ipa_keys else [::] by case: hk => ->.
    rewrite keys_ok; case: (String.eqb_spec (o_spatial o) "IPA") => [e|e] /=; split=> h s /h.
    - by case=> [<-|[<-|//]]; split=> //; [right|left].
    - by case=> _ _ [->|->]; [right; left|left].
    - by [].
    - by case.
  have nk k' : ~ (k' = AuxIVA \/ k' = GaussILRMA) -> nilp (o_kwargs o) <->
      forall s, List.In s (o_kwargs o) -> [/\ k' = AuxIVA \/ k' = GaussILRMA, o_spatial o = "IPA" & s = "newton_iter" \/ s = "lqpqm_normalization"].
    by move=> n; apply: nil_ok => s [].
  have sp l : isin (o_spatial o) l <-> List.In (o_spatial o) l by split=> /isinP.
  have so l : isin (o_source o) l <-> List.In (o_source o) l by split=> /isinP.
  have bk k' (P : Prop) : ~ (k' = FastGaussMNMF) -> P <-> k' = FastGaussMNMF \/ P by move=> n; split=> [|[]] //; right.
  have n4 (a b c d : Prop) : [/\ a, b, c & d] <-> a /\ b /\ c /\ d by split=> [[]|[? [? []]]].
  have n3 (a b c : Prop) : [/\ a, b & c] <-> a /\ b /\ c by split=> [[]|[? []]].
  rewrite /init /base_init /documented n4; case: k.
  - rewrite !check_ex ex_inr ref_ok sp kw -?bk //; last by left. by split=> [[_ [h1 [h2 [h3 _]]]]|[h1 [_ [h2 h3]]]].
  - rewrite !check_ex ex_inr ref_ok sp (nk AuxFDICA) -?bk //; last by case.
    by split=> [[h1 [h2 [h3 [h4 _]]]]|[h1 [h2 [h3 h4]]]].
  - rewrite !check_ex ex_inr ref_ok sp so kw -?bk -?source_me ?n3 //; last by right.
    by split=> [[_ [h1 [h2 [h3 [h4 [h5 [h6 _]]]]]]]|[h1 [[h2 [h3 h4]] [h5 h6]]]].
  - rewrite !check_ex ex_inr ref_ok sp so (nk TILRMA) -?bk -?source_me -?not_ipa ?n3 //; last by case.
    by split=> [[h0 [_ [h1 [h2 [h3 [h4 [h5 [h6 _]]]]]]]]|[[h1 h1'] [[h2 [h3 h4]] [h5 h6]]]].
  - rewrite !check_ex ex_inr ref_ok sp so (nk GGDILRMA) -?bk -?not_ipa ?n3 //; last by case.
    split=> [[h0 [_ [h1 [h2 [h3 [h4 [h5 [h6 _]]]]]]]]|[[h1 h1'] [[h2 [h3 h4]] [h5 h6]]]].
      by case: h4 => // <-.
    by do !split=> //; left.
  - rewrite !check_ex ex_inr sp (nk FastGaussMNMF) //; last by case.
    split=> [[h0 [_ [_ [h1 [h2 _]]]]]|[h1 [-> [_ h3]]]]; last by [].
    by do !split=> //; [apply/negbTE|left].
  - rewrite !check_ex ex_inr ref_ok sp so (nk GaussIPSDTA) -?bk //; last by case.
    split=> [[h0 [_ [h1 [h2 [h3 _]]]]]|[h1 [h2 [h3 h4]]]].
      by do !split=> //; case: h2 => [<-|[<-|//]]; [left|right].
    by do !split=> //; case: h2 => ->; [left|right; left].
  - rewrite !check_ex ex_inr ref_ok sp so (nk TIPSDTA) -?bk //; last by case.
    split=> [[h0 [_ [h1 [h2 [h3 _]]]]]|[h1 [h2 [h3 h4]]]].
      by do !split=> //; case: h2 => [<-|[<-|//]]; [left|right].
    by do !split=> //; case: h2 => ->; [left|right; left].
Qed.

(** Scale restoration without a reference channel is rejected with ValueError whatever the other options are, except
    that an unknown keyword argument may be reported first. *)
Theorem C59_reference k o : k <> FastGaussMNMF -> o_ref o = None -> truthy (o_scale o) -> o_kwargs o = [::] ->
  init k o = inl ValueError.
Proof.
  move=> hk hr hs hw; rewrite /init /base_init hr hs hw /check /=.
  by case: k hk => // _; rewrite ?if_same //.
Qed.
(** Otherwise an algorithm name that is not in the class' list fails with AssertionError *)
Theorem C59_names k o : (o_ref o <> None \/ truthy (o_scale o) = false) -> o_kwargs o = [::] -> (k = AuxFDICA -> o_contrast o) ->
  ~ List.In (o_spatial o) (spatial_algorithms k) -> init k o = inl AssertionError.
Proof.
  move=> /ref_ok hr hw hc /isinP/negbTE hs. rewrite /init /base_init hw hs.
  by case: k hc {hs} => hc; rewrite ?hc //= /check ?hr //= ?if_same //.
Qed.

(** ** What a call does *)
Definition okstep (s : step) : bool := if s is inr _ then true else false.
Definition routine_of (s : step) : option routine := if s is inr r then Some r else None.
Lemma go_ok l : all okstep l -> go l = (pmap routine_of l, None).
Proof. by elim: l => [|[e|r] l IH] //= h; rewrite IH. Qed.
Lemma go_none l : (go l).2 = None <-> all okstep l.
Proof.
  split=> [|h]; last by rewrite go_ok.
  elim: l => [|[e|r] l IH] //=. by case: (go l) IH => t e /= IH /IH.
Qed.
Lemma all_flatten_nseq T (p : pred T) n l : all p (flatten (nseq n l)) = (n == 0%N) || all p l.
Proof. elim: n => [|n IH] //=. by rewrite all_cat IH /=; case: (all p l); rewrite ?orbT. Qed.

Definition known_scale (p : pyopt) : Prop := truthy p = false \/ p = PBool true \/
  exists2 s, p = PStr s & List.In s [:: "projection_back"; "projection-back"; "PB";
    "minimal_distortion_principle"; "minimal-distortion-principle"; "MDP"].
(** the options for which a call with at least one iteration can finish *)
Definition usable (k : kind) (o : opts) : Prop :=
  [/\ match k with
        | AuxIVA => o_dcontrast o = true /\ (o_record o = true -> o_contrast o = true)
        | AuxFDICA => o_dcontrast o = true
        | GaussIPSDTA | TIPSDTA => o_spatial o = "VCD" /\ o_source o = "MM"
        | _ => True end,
      match k with
        | GaussILRMA | TILRMA | GGDILRMA => truthy (o_norm o) = false \/ o_norm o = PBool true \/ o_norm o = PStr "power" \/
            (o_norm o = PStr "projection_back" /\ o_part o = false)
        | FastGaussMNMF => truthy (o_norm o) = false \/ o_norm o = PBool true \/ o_norm o = PStr "power"
        | _ => True end,
      k = AuxFDICA -> truthy (o_perm o) = false \/ o_perm o = PBool true \/ o_perm o = PStr "spectrogram_correlation" &
      k <> FastGaussMNMF -> known_scale (o_scale o)].

Lemma scale_ok k o : all okstep (scale_steps k o) <-> (k <> FastGaussMNMF -> known_scale (o_scale o)).
Proof.
  have h : all okstep (if truthy (o_scale o) then let name := if o_scale o is PStr s then s else "projection_back" in
    [:: if isin name pb_keywords then inr ProjBack else if isin name mdp_keywords then inr MinDist else inl ValueError : step] else [::])
    <-> known_scale (o_scale o).
    rewrite /known_scale; case: (o_scale o) => [|[]|s]; try (by split=> // _; left); first by split=> // _; right; left.
    cbv zeta; rewrite /truthy.
    case: ifP => e; last by split=> // _; left.
    split=> [|[//|[//|[s' [<-]]]]].
      case: (isinP s pb_keywords) => [h _|_]; first by right; right; exists s => //; move: h => /=; tauto.
      case: (isinP s mdp_keywords) => [h _|_]; last by [].
      by right; right; exists s => //; move: h => /=; tauto.
    case: (isinP s pb_keywords) => // n1; case: (isinP s mdp_keywords) => // n2; move: n1 n2 => /=; tauto.
  rewrite /scale_steps; case: k; try (by rewrite h; split=> // g; apply: g); by split.
Qed.
Lemma perm_ok k o : all okstep (perm_steps k o) <->
  (k = AuxFDICA -> truthy (o_perm o) = false \/ o_perm o = PBool true \/ o_perm o = PStr "spectrogram_correlation").
Proof.
  case: k; try (by split); rewrite /perm_steps; case: (o_perm o) => [|[]|s] /=; try (by split=> // _ _; left);
    first by split=> // _ _; right; left.
  case: ifP => e; last by split=> // _ _; left.
  case: (String.eqb_spec s "spectrogram_correlation") => [->|n] /=; first by split=> // _ _; right; right.
  by split=> // /(_ erefl) [|[|[]]].
Qed.
Lemma norm_ok k o : all okstep (norm_steps k o) <-> match k with
        | GaussILRMA | TILRMA | GGDILRMA => truthy (o_norm o) = false \/ o_norm o = PBool true \/ o_norm o = PStr "power" \/
            (o_norm o = PStr "projection_back" /\ o_part o = false)
        | FastGaussMNMF => truthy (o_norm o) = false \/ o_norm o = PBool true \/ o_norm o = PStr "power"
        | _ => True end.
Proof.
  case e: (truthy (o_norm o)); last first.
    have -> : norm_steps k o = [::] by rewrite /norm_steps e orbT.
    by case: k; split=> // _; left.
  move: e; rewrite /norm_steps; case en: (o_norm o) => [|b|s] // e; rewrite e.
    by case: b e {en} => // _; case: k => //=; split=> // _; right; left.
  case: (String.eqb_spec s "power") => [->|n1].
    by case: k => //=; split=> // _; right; right; try left.
  case: (String.eqb_spec s "projection_back") => [->|n2].
    case: k => //=; try (by split=> // -[|[|]]);
    case: (o_part o) => /=; split=> //; try (by move=> [|[|[|[]]]]); by move=> _; right; right; right.
  by case: k => //=; split=> //; try (by move=> [|[|[|[]]]] // [] //); move=> [|[|]] // [].
Qed.
Lemma source_ok k o a : init k o = inr a -> all okstep (source_steps k o) <->
  (if is_ipsdta k then o_source o = "MM" else True).
Proof.
  move=> h; have: documented k o by apply/C59_accepts; exists a.
  case=> _ h2 _ _; move: h2; rewrite /source_steps; case: k h => h /=; try (by split).
  - by case=> -[-> h2] /=; rewrite ?h2 ?eqxx /=; case: (o_part o).
  - by case=> -[-> h2] /=; rewrite ?h2 ?eqxx /=; case: (o_part o).
  - by case=> -> /= _ _; case: (o_part o).
  - by case=> ->; case: (truthy _).
  - by case=> ->; case: (truthy _).
Qed.
(** the algorithm a name stands for *)
Definition requested (s : string) : sp :=
  if isin s [:: "IP"; "IP1"] then IP1 else if isin s [:: "IP2"] then IP2
  else if isin s [:: "ISS"; "ISS1"] then ISS1 else if isin s [:: "ISS2"] then ISS2
  else if isin s [:: "IPA"] then IPA else VCD.
Lemma spatial_ok k o a : init k o = inr a ->
  spatial_step k o a = match k with
    | AuxIVA | AuxFDICA => if o_dcontrast o then inr (Spatial (requested (o_spatial o))) else inl TypeError
    | GaussIPSDTA | TIPSDTA => if String.eqb (o_spatial o) "VCD" then inr (Spatial VCD) else inl NotImplementedError
    | _ => inr (Spatial (requested (o_spatial o))) end.
Proof.
  move=> h; have: documented k o by apply/C59_accepts; exists a.
  case=> h1 h2 _ _.
  have ->: a = Attrs (sets_pair k o) (valid_keys k o).
    by move: h; rewrite /init /base_init; case: k {h1 h2} => h; move: h; do !(move/check_ok=> [_]); case.
  move: h1 {h2 h}; rewrite /spatial_step /sets_pair /valid_keys; case: k => /=; intuition;
    match goal with e : _ = o_spatial o |- _ => rewrite -e /= ?orbT //; case: (o_dcontrast o) => // end.
Qed.


Lemma calls_ok k o a : init k o = inr a ->
  [&& all okstep (reset_steps k o), all okstep (loss_steps k o), all okstep (source_steps k o) & okstep (spatial_step k o a)] <->
  match k with
        | AuxIVA => o_dcontrast o = true /\ (o_record o = true -> o_contrast o = true)
        | AuxFDICA => o_dcontrast o = true
        | GaussIPSDTA | TIPSDTA => o_spatial o = "VCD" /\ o_source o = "MM"
        | _ => True end.
Proof.
  move=> h; have hs := source_ok h; have h' := h; move/spatial_ok: h' => ->.
  have sE : all okstep (source_steps k o) = (~~ is_ipsdta k || String.eqb (o_source o) "MM").
    apply/idP/idP; first by move/hs; case: (is_ipsdta k) => //= ->.
    by move=> g; apply/hs; case: (is_ipsdta k) g => //= /String.eqb_eq.
  rewrite sE /reset_steps /loss_steps; case: k {h hs sE} => /=.
  - by case: (o_record o); case: (o_contrast o); case: (o_dcontrast o); split=> // -[] // _ /(_ erefl).
  - by case: (o_record o); case: (o_dcontrast o); split.
  - by case: (o_record o); split.
  - by case: (o_record o); split.
  - by case: (o_record o); split.
  - by case: (o_record o); split.
  - have -> : all okstep (if o_record o then [:: inr Loss] else [::]) by case: (o_record o).
    case: (String.eqb_spec (o_spatial o) "VCD") => [->|n] /=; last by rewrite !andbF; split=> // -[].
    by case: (String.eqb_spec (o_source o) "MM") => [->|n] /=; split=> // -[].
  - have -> : all okstep (if o_record o then [:: inr Loss] else [::]) by case: (o_record o).
    case: (String.eqb_spec (o_spatial o) "VCD") => [->|n] /=; last by rewrite !andbF; split=> // -[].
    by case: (String.eqb_spec (o_source o) "MM") => [->|n] /=; split=> // -[].
Qed.
(** A constructed object finishes a call with at least one iteration exactly for these options. *)
Theorem C59_runs k o a n : init k o = inr a -> (0 < n)%N -> ((call k o a n).2 = None <-> usable k o).
Proof.
  move=> h hn; rewrite /call go_none /call_steps !all_cat all_flatten_nseq -[n == 0%N]negbK -lt0n hn all_cat.
  rewrite /iteration !all_cat /usable.
  have h1 := calls_ok h; have h2 := norm_ok k o; have h3 := perm_ok k o; have h4 := scale_ok k o.
  rewrite [all okstep [:: spatial_step k o a]]andbT orFb.
  split.
    case/andP=> g1 /andP[g2 /andP[/andP[/andP[g3 /andP[g4 g5]] _] /andP[g6 g7]]].
    by split; [apply/h1; rewrite g1 g2 g3 g4|apply/h2|apply/h3|apply/h4].
  case=> /h1/and4P[-> -> -> ->] /h2 -> /h3 -> /h4 -> //.
Qed.
Definition is_spatial (r : routine) : bool := if r is Spatial _ then true else false.
Definition is_source (r : routine) : bool :=
  match r with LatentMM | BasisMM | ActivMM | LatentME | BasisME | ActivME | SourceMM | MnmfSource => true | _ => false end.
Definition requested_source k (o : opts) : seq routine :=
  match k with
  | AuxIVA | AuxFDICA => [::]
  | FastGaussMNMF => [:: MnmfSource]
  | GaussIPSDTA | TIPSDTA => [:: SourceMM]
  | _ => if String.eqb (o_source o) "ME" then (if o_part o then [:: LatentME] else [::]) ++ [:: BasisME; ActivME]
         else (if o_part o then [:: LatentMM] else [::]) ++ [:: BasisMM; ActivMM]
  end.
Lemma filter_flatten_nseq T (p : pred T) n l : filter p (flatten (nseq n l)) = flatten (nseq n (filter p l)).
Proof. by elim: n => //= n IH; rewrite filter_cat IH. Qed.
Lemma pmap_flatten_nseq S T (f : S -> option T) n l : pmap f (flatten (nseq n l)) = flatten (nseq n (pmap f l)).
Proof. by elim: n => //= n IH; rewrite pmap_cat IH. Qed.

Definition neutral (l : seq step) : bool := all (fun s => if s is inr r then ~~ is_spatial r && ~~ is_source r else true) l.
Lemma neutral_filter l : neutral l -> [seq r <- pmap routine_of l | is_spatial r] = [::] /\ [seq r <- pmap routine_of l | is_source r] = [::].
Proof.
  elim: l => [|[e|r] l IH] //=.
  by case/andP=> /andP[/negbTE -> /negbTE ->] /IH.
Qed.
Lemma neutral_steps k o : [&& neutral (reset_steps k o), neutral (loss_steps k o), neutral (norm_steps k o), neutral (perm_steps k o) & neutral (scale_steps k o)].
Proof.
  rewrite /reset_steps /loss_steps /norm_steps /perm_steps /scale_steps.
  apply/and5P; split.
  - by case: ifP.
  - by case: (o_record o) => //; case: k => //; case: (o_contrast o).
  - case: ifP => // _; cbv zeta; rewrite /neutral /= andbT. by case: ifP => // _; case: ifP => // _; case: ifP.
  - by case: k => //; case: ifP => // _; rewrite /neutral /= andbT; case: ifP.
  - by case: ifP => // _; cbv zeta; rewrite /neutral [all _ _]andbT; case: ifP => // _; case: ifP.
Qed.
(** Every iteration of a call that finishes runs the spatial algorithm that was asked for, once, and the updates of the
    source model that was asked for; nothing else is ever dispatched to. *)
Theorem C59_dispatch k o a n t : init k o = inr a -> call k o a n = (t, None) ->
  [seq r <- t | is_spatial r] = nseq n (Spatial (requested (o_spatial o))) /\
  [seq r <- t | is_source r] = flatten (nseq n (requested_source k o)).
Proof.
  move=> h hc; have hd : documented k o by apply/C59_accepts; exists a.
  have hk : all okstep (call_steps k o a n) by apply/go_none; rewrite -/(call k o a n) hc.
  have hu : (0 < n)%N -> usable k o by move=> hn; apply/(C59_runs h hn); rewrite hc.
  have -> : t = pmap routine_of (call_steps k o a n) by move: hc; rewrite /call go_ok // => -[].
  have /and5P[/neutral_filter[r1 r2] /neutral_filter[l1 l2] /neutral_filter[n1 n2] /neutral_filter[p1 p2] /neutral_filter[s1 s2]] :=
    neutral_steps k o.
  rewrite /call_steps !pmap_cat !filter_cat r1 r2 l1 l2 p1 p2 s1 s2 !cats0 !cat0s !pmap_flatten_nseq !filter_flatten_nseq.
  case: n hu {hk hc} => [//|n] /(_ isT) [hu1 _ _ _].
  have eS : spatial_step k o a = inr (Spatial (requested (o_spatial o))).
    rewrite (spatial_ok h); case: k h hu1 {hd r1 r2 l1 l2 n1 n2 p1 p2 s1 s2} => h //=; first by case=> ->.
    - by move=> ->.
    - by case=> ->.
    - by case=> ->.
  have eo : [seq r <- pmap routine_of (source_steps k o) | is_spatial r] = [::] /\
    [seq r <- pmap routine_of (source_steps k o) | is_source r] = requested_source k o.
    case: hd => _ + _ _; rewrite /source_steps /requested_source.
    case: k h hu1 {eS r1 r2 l1 l2 n1 n2 p1 p2 s1 s2} => h //= hu1.
    - by case=> -[-> hm] /=; rewrite ?hm /=; case: (o_part o).
    - by case=> -[-> hm] /=; rewrite ?hm /=; case: (o_part o).
    - by case=> -> _ _ /=; case: (o_part o).
    - by case: hu1 => _ -> _; case: (truthy _).
    - by case: hu1 => _ -> _; case: (truthy _).
  have -> : pmap routine_of (iteration k o a ++ loss_steps k o) =
    pmap routine_of (source_steps k o) ++ Spatial (requested (o_spatial o)) :: pmap routine_of (norm_steps k o) ++ pmap routine_of (loss_steps k o).
    by rewrite /iteration eS !pmap_cat /= -!catA.
  rewrite !filter_cat /= !filter_cat n1 n2 l1 l2 eo.1 eo.2 !cats0 cat0s; split=> //.
  by congr cons; elim: n => //= m ->.
Qed.

(** ** Disagreements with the documentation *)
Definition options_default : opts := Opts "IP" "MM" 2%:R%R 1%R false (PBool true) (PBool true) (PBool true) (Some 0) [::] true true false true.
(** The fixed point iteration is accepted by GaussIPSDTA although every call raises, even without iterations; TIPSDTA
    accepts it and fails in its first update, after the source model has been updated.  The EM algorithm is accepted and
    fails in the first update. *)
Theorem C59_ipsdta_refuted :
  let o s m := Opts s m 2%:R%R 1%R false (PBool true) (PBool true) (PBool true) (Some 0) [::] true true false true in
  (exists a, init GaussIPSDTA (o "FPI" "MM") = inr a /\ forall n, call GaussIPSDTA (o "FPI" "MM") a n = ([::], Some NotImplementedError)) /\
  (exists a, init TIPSDTA (o "FPI" "MM") = inr a /\
     forall n, call TIPSDTA (o "FPI" "MM") a n.+1 = ([:: Reset; Loss; SourceMM; NormTrace], Some NotImplementedError)) /\
  (exists a, init GaussIPSDTA (o "VCD" "EM") = inr a /\
     forall n, call GaussIPSDTA (o "VCD" "EM") a n.+1 = ([:: Reset; Loss], Some NotImplementedError)).
Proof. by move=> o; split; [|split]; eexists; split. Qed.
Lemma go_cat l l' t : go l = (t, None) -> go (l ++ l') = (t ++ (go l').1, (go l').2).
Proof.
  elim: l t => [|[e|r] l IH] t //=; first by move=> [<-]; case: (go l').
  by case: (go l) IH => t' e IH [<- he]; rewrite (IH t') ?he.
Qed.
Definition set_scale (o : opts) (p : pyopt) : opts :=
  Opts (o_spatial o) (o_source o) (o_domain o) (o_beta o) (o_part o) (o_norm o) p (o_perm o) (o_ref o) (o_kwargs o)
    (o_contrast o) (o_dcontrast o) (o_pair o) (o_record o).
Definition set_perm (o : opts) (p : pyopt) : opts :=
  Opts (o_spatial o) (o_source o) (o_domain o) (o_beta o) (o_part o) (o_norm o) (o_scale o) p (o_ref o) (o_kwargs o)
    (o_contrast o) (o_dcontrast o) (o_pair o) (o_record o).
(** An unknown keyword for the scale restoration is accepted by every class; a call then does everything it would do with
    scale restoration switched off, and raises ValueError instead of returning the result. *)
Theorem C59_scale k o a n t : k <> FastGaussMNMF -> init k o = inr a -> ~ known_scale (o_scale o) ->
  call k (set_scale o PNone) a n = (t, None) -> call k o a n = (t, Some ValueError).
Proof.
  move=> hk h hs hc.
  have eS : scale_steps k o = [:: inl ValueError].
    have : ~ all okstep (scale_steps k o) by move/scale_ok => /(_ hk).
    rewrite /scale_steps; case: ifP => // _; cbv zeta; rewrite [all _ _]andbT.
    by case: ifP => // _; case: ifP.
  have e : call_steps k o a n = call_steps k (set_scale o PNone) a n ++ [:: inl ValueError].
    have e' : scale_steps k (set_scale o PNone) = [::] by rewrite /scale_steps; case: (k).
    by rewrite /call_steps e' eS cats0 -!catA; case: (k).
  by rewrite /call e (go_cat _ hc) /= cats0.
Qed.
Lemma accepts_scale k o s : documented k o -> o_ref o <> None -> documented k (set_scale o (PStr s)).
Proof. by case=> h1 h2 h3 h4 hr; split=> //; right; left. Qed.
(** For AuxFDICA the same holds for an unknown permutation alignment: it is reported after the last iteration. *)
Theorem C59_perm o a n t s : init AuxFDICA o = inr a -> o_perm o = PStr s -> s <> "" -> s <> "spectrogram_correlation" ->
  call AuxFDICA (set_perm (set_scale o PNone) PNone) a n = (t, None) -> call AuxFDICA o a n = (t, Some NotImplementedError).
Proof.
  move=> h hp h0 h1 hc.
  have eP : perm_steps AuxFDICA o = [:: inl NotImplementedError].
    rewrite /perm_steps hp /truthy; case: (String.eqb_spec s "") => //= _.
    by case: (String.eqb_spec s "spectrogram_correlation").
  have e : call_steps AuxFDICA o a n = call_steps AuxFDICA (set_perm (set_scale o PNone) PNone) a n ++
      [:: inl NotImplementedError] ++ scale_steps AuxFDICA o.
    by rewrite [in LHS]/call_steps eP /call_steps -!catA.
  by rewrite /call e (go_cat _ hc) /= cats0.
Qed.
(** For the ILRMA classes an unknown normalisation, or projection back with the partitioning function, is reported in the
    first update, after the source model and the demixing filter have been updated. *)
Theorem C59_normalization k o a n : is_ilrma k -> init k o = inr a -> truthy (o_norm o) ->
  o_norm o <> PBool true -> o_norm o <> PStr "power" -> (o_norm o = PStr "projection_back" -> o_part o) ->
  call k o a n.+1 = (Reset :: (if o_record o then [:: Loss] else [::]) ++ requested_source k o ++ [:: Spatial (requested (o_spatial o))],
                     Some NotImplementedError).
Proof.
  move=> hk h ht hb hp hpb.
  have eN : norm_steps k o = [:: inl NotImplementedError].
    rewrite /norm_steps hk ht /=; case: (o_norm o) ht hb hp hpb => [|[]|s] //= _ _ hp hpb.
    case: (String.eqb_spec s "power") => [e|_]; first by case: hp; rewrite e.
    by case: (String.eqb_spec s "projection_back") => [e|_] //; rewrite hpb ?e.
  have eS : spatial_step k o a = inr (Spatial (requested (o_spatial o))) by rewrite (spatial_ok h); case: k hk {h eN}.
  have eo : source_steps k o = [seq inr r | r <- requested_source k o].
    have [_ + _ _] : documented k o by apply/C59_accepts; exists a.
    rewrite /source_steps /requested_source; case: k hk h {eN eS} => // _ h.
    - by case=> -[-> hm] /=; rewrite ?hm /=; case: (o_part o).
    - by case=> -[-> hm] /=; rewrite ?hm /=; case: (o_part o).
    - by case=> -> _ _ /=; case: (o_part o).
  have eL : loss_steps k o = [seq inr r | r <- if o_record o then [:: Loss] else [::]].
    by rewrite /loss_steps; case: (o_record o) => //; case: (k) hk.
  have eR : reset_steps k o = [:: inr Reset] by rewrite /reset_steps; case: (k) hk.
  have gm l : go [seq inr r | r <- l] = (l, None) by elim: l => //= r l ->.
  rewrite /call; have -> : call_steps k o a n.+1 = [seq inr r | r <- Reset :: (if o_record o then [:: Loss] else [::]) ++ requested_source k o ++
     [:: Spatial (requested (o_spatial o))]] ++ inl NotImplementedError :: (loss_steps k o ++ flatten (nseq n (iteration k o a ++ loss_steps k o))) ++ perm_steps k o ++ scale_steps k o.
    rewrite /call_steps eR [flatten _]/= {1}/iteration {1}eN {1}eS eo {1}eL /=.
    by rewrite !map_cat -!catA.
  by rewrite (go_cat _ (gm _)) /= cats0.
Qed.
(** AuxIVA can be constructed without its contrast functions, which are optional arguments, and cannot be used then *)
Theorem C59_contrast o a n : init AuxIVA o = inr a -> o_dcontrast o = false -> (0 < n)%N -> (call AuxIVA o a n).2 = Some TypeError.
Proof.
  move=> h hd; case: n => // n _.
  have eS : spatial_step AuxIVA o a = inl TypeError by rewrite (spatial_ok h) hd.
  by rewrite /call /call_steps /reset_steps /loss_steps /= /iteration eS; case: (o_record o) => //=; case: (o_contrast o).
Qed.

(** AuxIVA with ISS2, GaussILRMA with IPA and its keywords, t-ILRMA with ME: accepted, and calls run *)
Example C59_instance :
  let o1 := Opts "ISS2" "MM" 2%:R%R 1%R false PNone (PStr "MDP") PNone (Some 0) [::] true true false true in
  let o2 := Opts "IPA" "ME" 2%:R%R 1%R true (PStr "power") (PBool true) PNone (Some 0) [:: "newton_iter"] true true false true in
  let o3 := Opts "IP1" "MM" 1%R 1%R true (PStr "projection_back") (PBool false) PNone None [::] true true false false in
  [/\ documented AuxIVA o1 /\ usable AuxIVA o1, documented GaussILRMA o2 /\ usable GaussILRMA o2,
      documented TILRMA o3 /\ ~ usable TILRMA o3 &
      exists a, init GaussILRMA o2 = inr a /\ call GaussILRMA o2 a 1 =
        ([:: Reset; Loss; LatentME; BasisME; ActivME; Spatial IPA; Power; Loss; ProjBack], None)].
Proof.
  have ok k o : init k o = inr (Attrs (sets_pair k o) (valid_keys k o)) -> documented k o by move=> h; apply/C59_accepts; eexists; exact: h.
  have us k o a : init k o = inr a -> (call k o a 1).2 = None -> usable k o by move=> h /(C59_runs h (ltn0Sn 0)).
  move=> o1 o2 o3.
  have e1 : init AuxIVA o1 = inr (Attrs true [::]) by [].
  have e2 : init GaussILRMA o2 = inr (Attrs false ipa_keys) by [].
  have e3 : init TILRMA o3 = inr (Attrs false [::]) by [].
  split; [split; [exact: ok|exact: us e1 _]|split; [exact: ok|exact: us e2 _]|split; [exact: ok|]|by eexists; split].
  by move/(C59_runs e3 (ltn0Sn 0)).
Qed.
(** the hypotheses of the theorems about late failures *)
Example C59_instance_late :
  let o := set_perm (set_scale options_default (PStr "PJ")) (PStr "abc") in
  [/\ exists a, init AuxFDICA o = inr a /\ call AuxFDICA (set_perm (set_scale o PNone) PNone) a 2 =
        ([:: Reset; Loss; Spatial IP1; Loss; Spatial IP1; Loss], None),
      ~ known_scale (o_scale o) &
      exists a, init AuxIVA o = inr a /\ call AuxIVA (set_scale o PNone) a 1 = ([:: Reset; Loss; Spatial IP1; Loss], None)].
Proof.
  move=> o; split; try by eexists; split.
  by case=> [|[|[s [<-] /=]]] //; intuition discriminate.
Qed.
Print Assumptions C59_accepts.
Print Assumptions C59_reference.
Print Assumptions C59_names.
Print Assumptions C59_runs.
Print Assumptions C59_dispatch.
Print Assumptions C59_ipsdta_refuted.
Print Assumptions C59_scale.
Print Assumptions C59_perm.
Print Assumptions C59_normalization.
Print Assumptions C59_contrast.
