(** Constructor options and the dispatch of the updates (C59).

    Modelled: the checks of the constructors of AuxIVA, AuxFDICA, GaussILRMA, TILRMA, GGDILRMA, FastGaussMNMF,
    GaussIPSDTA and TIPSDTA in the order they are made, the attributes they set that the updates rely on, and which
    routine each step of a call is dispatched to.  The routines themselves are names (their numerical behaviour is
    modelled elsewhere) and are taken not to fail here.  Options of the wrong Python type are not modelled. *)
From Coq Require Import String.
From mathcomp Require Import all_ssreflect all_algebra.
Set Implicit Arguments.
Unset Strict Implicit.
Unset Printing Implicit Defensive.
Local Open Scope string_scope.
Local Open Scope seq_scope.

Inductive exn := AssertionError | ValueError | NotImplementedError | TypeError | AttributeError.
(** Union[bool, str] or None *)
Inductive pyopt := PNone | PBool of bool | PStr of string.
Definition truthy (p : pyopt) : bool :=
  match p with PNone => false | PBool b => b | PStr s => ~~ String.eqb s "" end.
(** [s in [...]] *)
Definition isin (s : string) (l : seq string) : bool := has (String.eqb s) l.

Inductive kind := AuxIVA | AuxFDICA | GaussILRMA | TILRMA | GGDILRMA | FastGaussMNMF | GaussIPSDTA | TIPSDTA.
Definition is_ilrma k := match k with GaussILRMA | TILRMA | GGDILRMA => true | _ => false end.
Definition is_mnmf k := match k with FastGaussMNMF => true | _ => false end.
Definition is_ggd k := match k with GGDILRMA => true | _ => false end.
Definition is_gipsdta k := match k with GaussIPSDTA => true | _ => false end.
Definition is_ipsdta k := match k with GaussIPSDTA | TIPSDTA => true | _ => false end.

(** [o_spatial] is diagonalizer_algorithm for FastGaussMNMF, [o_norm] is source_normalization for the IPSDTA classes;
    [o_contrast], [o_dcontrast] and [o_pair] tell whether contrast_fn, d_contrast_fn and pair_selector are given *)
Record opts := Opts {
  o_spatial : string; o_source : string; o_domain : rat; o_beta : rat; o_part : bool; o_norm : pyopt; o_scale : pyopt;
  o_perm : pyopt; o_ref : option nat; o_kwargs : seq string; o_contrast : bool; o_dcontrast : bool; o_pair : bool;
  o_record : bool }.
(** what the updates look for *)
Record attrs := Attrs { has_pair : bool; has_keys : seq string }.

(** iva.py:44, ilrma.py:27-28, fdica.py:28, mnmf.py:17, ipsdta.py:21-22 *)
Definition spatial_algorithms k : seq string :=
  match k with
  | AuxFDICA | FastGaussMNMF => [:: "IP"; "IP1"; "IP2"]
  | GaussIPSDTA | TIPSDTA => [:: "FPI"; "VCD"]
  | _ => [:: "IP"; "IP1"; "IP2"; "ISS"; "ISS1"; "ISS2"; "IPA"]
  end.
Definition source_algorithms k : seq string :=
  match k with
  | GaussILRMA | TILRMA => [:: "MM"; "ME"]
  | GGDILRMA => [:: "MM"]
  | GaussIPSDTA | TIPSDTA => [:: "EM"; "MM"]
  | _ => [::]
  end.
(** iva.py:1579, ilrma.py:749 *)
Definition ipa_keys : seq string := [:: "lqpqm_normalization"; "newton_iter"].

Definition check (b : bool) (e : exn) T (r : exn + T) : exn + T := if b then r else inl e.
(** the base class: iva.py:95-98, fdica.py:81-98, ilrma.py:94-97, ipsdta.py:86-89 *)
Definition base_init k (o : opts) T (r : exn + T) : exn + T :=
  check (if k is AuxFDICA then o_contrast o else true) ValueError
  (check (if k is FastGaussMNMF then true else ~~ ((o_ref o == None) && truthy (o_scale o))) ValueError r).
(** iva.py:1613-1617, ilrma.py:796-800, 2193-2197, 3536-3540, fdica.py:977-981, mnmf.py:1149-1153 *)
Definition sets_pair k (o : opts) : bool := o_pair o ||
  isin (o_spatial o) (match k with AuxFDICA | FastGaussMNMF => [:: "IP2"] | _ => [:: "IP2"; "ISS2"] end).
(** iva.py:1619-1635, ilrma.py:802-818 *)
Definition valid_keys k (o : opts) : seq string :=
  match k with AuxIVA | GaussILRMA => if String.eqb (o_spatial o) "IPA" then ipa_keys else [::] | _ => [::] end.

(** iva.py:1599-1635, fdica.py:963-981, ilrma.py:773-818, 2166-2197, 3511-3540, mnmf.py:1130-1153,
    ipsdta.py:765-781, 1298-1315; unknown keyword arguments of the classes without **kwargs raise TypeError *)
Definition init k (o : opts) : exn + attrs :=
  let done := inr (Attrs (sets_pair k o) (valid_keys k o)) in
  let spat T := @check (isin (o_spatial o) (spatial_algorithms k)) AssertionError T in
  let sour T := @check (isin (o_source o) (source_algorithms k)) AssertionError T in
  let dom T := @check ((0 < o_domain o)%R && (o_domain o <= 2%:R)%R) AssertionError T in
  let me T := @check (if String.eqb (o_source o) "ME" then o_domain o == 2%:R%R else true) AssertionError T in
  let keys T := @check (all (fun s => isin s (valid_keys k o)) (o_kwargs o)) AssertionError T in
  let nokw T := @check (nilp (o_kwargs o)) TypeError T in
  let noipa T := @check (~~ String.eqb (o_spatial o) "IPA") ValueError T in
  match k with
  | AuxIVA => base_init k o (spat _ (keys _ done))
  | AuxFDICA => nokw _ (base_init k o (spat _ done))
  | GaussILRMA => base_init k o (spat _ (sour _ (dom _ (me _ (keys _ done)))))
  | TILRMA => nokw _ (base_init k o (spat _ (sour _ (dom _ (noipa _ (me _ done))))))
  | GGDILRMA => nokw _ (base_init k o
      (check ((0 < o_beta o)%R && (o_beta o < 2%:R)%R) AssertionError (spat _ (sour _ (dom _ (noipa _ done))))))
  | FastGaussMNMF => nokw _ (base_init k o (spat _ (check (~~ o_part o) AssertionError done)))
  | GaussIPSDTA | TIPSDTA => nokw _ (base_init k o (sour _ (spat _ done)))
  end.

(** ** Dispatch *)
Inductive sp := IP1 | IP2 | ISS1 | ISS2 | IPA | VCD.
Inductive routine := Reset | Loss | LatentMM | BasisMM | ActivMM | LatentME | BasisME | ActivME | SourceMM | Spatial of sp
  | Power | NormPB | NormTrace | MnmfSource | Align | ProjBack | MinDist.
Definition step := (exn + routine)%type.

(** iva.py:1723-1734, fdica.py:1058-1063, ilrma.py:1427-1438, 2852-2861, 3930-3939, mnmf.py:1442-1447,
    ipsdta.py:1053-1056, 1652-1655; the routines read self.pair_selector, self.newton_iter, self.d_contrast_fn *)
Definition spatial_step k (o : opts) (a : attrs) : step :=
  let s := o_spatial o in
  let contrast (r : step) : step := match k with AuxIVA | AuxFDICA => if o_dcontrast o then r else inl TypeError | _ => r end in
  let pair (r : step) : step := if has_pair a then r else inl AttributeError in
  let iss := match k with AuxFDICA | FastGaussMNMF => false | _ => true end in
  let ipa := match k with AuxIVA | GaussILRMA => true | _ => false end in
  if is_ipsdta k then (if String.eqb s "VCD" then inr (Spatial VCD) else inl NotImplementedError)
  else if isin s [:: "IP"; "IP1"] then contrast (inr (Spatial IP1))
  else if isin s [:: "IP2"] then pair (contrast (inr (Spatial IP2)))
  else if iss && isin s [:: "ISS"; "ISS1"] then contrast (inr (Spatial ISS1))
  else if iss && isin s [:: "ISS2"] then contrast (pair (inr (Spatial ISS2)))
  else if ipa && isin s [:: "IPA"] then
    contrast (if all (fun key => isin key (has_keys a)) ipa_keys then inr (Spatial IPA) else inl AttributeError)
  else inl NotImplementedError.
(** ilrma.py:945-1005, 2325-2382, 3665-3696, ipsdta.py:860-866, 1374-1380, mnmf.py:1297-1298 *)
Definition source_steps k (o : opts) : seq step :=
  match k with
  | AuxIVA | AuxFDICA => [::]
  | FastGaussMNMF => [:: inr MnmfSource]
  | GaussIPSDTA | TIPSDTA =>
      (if String.eqb (o_source o) "MM" then inr SourceMM else inl NotImplementedError) ::
      (if truthy (o_norm o) then [:: inr NormTrace] else [::])
  | _ =>
      if String.eqb (o_source o) "MM" then (if o_part o then [:: inr LatentMM] else [::]) ++ [:: inr BasisMM; inr ActivMM]
      else if is_ggd k || ~~ String.eqb (o_source o) "ME" then [:: inl ValueError]
      else if o_domain o == 2%:R%R then (if o_part o then [:: inr LatentME] else [::]) ++ [:: inr BasisME; inr ActivME]
      else [:: inl ValueError]
  end.
(** ilrma.py:352-363, 480-483, mnmf.py:621-630 *)
Definition norm_steps k (o : opts) : seq step :=
  if ~~ (is_ilrma k || is_mnmf k) || ~~ truthy (o_norm o) then [::] else
  let name := if o_norm o is PStr s then s else "power" in
  [:: if String.eqb name "power" then inr Power
      else if is_ilrma k && String.eqb name "projection_back" then (if o_part o then inl NotImplementedError else inr NormPB)
      else inl NotImplementedError].
(** fdica.py:244-255 *)
Definition perm_steps k (o : opts) : seq step :=
  if k is AuxFDICA then
    if truthy (o_perm o) then
      [:: if String.eqb (if o_perm o is PStr s then s else "spectrogram_correlation") "spectrogram_correlation"
          then inr Align else inl NotImplementedError]
    else [::]
  else [::].
(** algorithm/__init__.py:7-12 *)
Definition pb_keywords : seq string := [:: "projection_back"; "projection-back"; "PB"].
Definition mdp_keywords : seq string := [:: "minimal_distortion_principle"; "minimal-distortion-principle"; "MDP"].
(** iva.py:247-257, fdica.py:292-302, ilrma.py:545-555, ipsdta.py:348-358 *)
Definition scale_steps k (o : opts) : seq step :=
  if (if k is FastGaussMNMF then false else truthy (o_scale o)) then
    let name := if o_scale o is PStr s then s else "projection_back" in
    [:: if isin name pb_keywords then inr ProjBack else if isin name mdp_keywords then inr MinDist else inl ValueError]
  else [::].
(** base.py:60-73; AuxIVA accepts contrast_fn=None (iva.py:606) *)
Definition loss_steps k (o : opts) : seq step :=
  if o_record o then [:: if k is AuxIVA then (if o_contrast o then inr Loss else inl TypeError) else inr Loss] else [::].
(** ipsdta.py:809-818 *)
Definition reset_steps k (o : opts) : seq step :=
  [:: if is_gipsdta k && String.eqb (o_spatial o) "FPI" then inl NotImplementedError else inr Reset].
Definition iteration k o a : seq step := source_steps k o ++ [:: spatial_step k o a] ++ norm_steps k o.

(** run the steps up to the first exception *)
Fixpoint go (l : seq step) : seq routine * option exn :=
  match l with
  | [::] => ([::], None)
  | inl e :: _ => ([::], Some e)
  | inr r :: l' => let: (t, e) := go l' in (r :: t, e)
  end.
(** __call__(input, n_iter=n): iva.py:1657-1672, fdica.py:1003-1022, ilrma.py:840-855, ipsdta.py:111-122 *)
Definition call_steps k o a n : seq step :=
  reset_steps k o ++ loss_steps k o ++ flatten (nseq n (iteration k o a ++ loss_steps k o)) ++ perm_steps k o ++ scale_steps k o.
Definition call k o a n : seq routine * option exn := go (call_steps k o a n).
