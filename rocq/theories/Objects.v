(** Object state, aliasing and re-use of the separation objects.

    Every frequency-domain method of ssspy.bss has the same life cycle: [__call__] copies the mixture,
    [_reset] sets the keyword arguments as attributes and initialises the missing ones, the loop of
    IterativeMethodBase runs [update_once] (some updates write into an attribute in place, the others
    bind a new array), then permutation alignment / scale restoration, and the output is returned.
    This file models that life cycle with a heap of arrays.  The contents of the arrays are abstract
    ([A]) and so are the numerical routines (arbitrary functions of the contents, which may fail), so
    a statement about this model holds whatever is computed; what is modelled is which array is
    allocated, read, written or bound by which statement.

    Not modelled: callbacks (they can do anything with the object), shapes, keyword arguments that
    are not arrays, and views ([transpose]) which are identified with the array they belong to. *)
From mathcomp Require Import all_ssreflect.
Set Implicit Arguments.
Unset Strict Implicit.
Unset Printing Implicit Defensive.

(** the array-valued attributes *)
Inductive attr := Input | Whitened | UnitInput | InstCov | Demix | Output | Basis | Activ | Latent | Spatial | Diag
  | Dual | Aux1 | Aux2 | Dual1 | Dual2 | Mixing | Covar | Posterior.
Definition attr_eqb (a b : attr) : bool :=
  match a, b with
  | Input, Input | Whitened, Whitened | UnitInput, UnitInput | InstCov, InstCov | Demix, Demix | Output, Output
  | Basis, Basis | Activ, Activ | Latent, Latent | Spatial, Spatial | Diag, Diag | Dual, Dual | Aux1, Aux1
  | Aux2, Aux2 | Dual1, Dual1 | Dual2, Dual2 | Mixing, Mixing | Covar, Covar | Posterior, Posterior => true
  | _, _ => false
  end.
Lemma attr_eqP : Equality.axiom attr_eqb.
Proof. by do 2 case; constructor. Qed.
Canonical attr_eqType := Eval hnf in EqType attr (EqMixin attr_eqP).

Section Objects.
Variables (A L : Type).

(** an attribute of the Python object: missing, None or a reference to an array *)
Inductive slot := Unset | PyNone | Arr of nat.
Definition heap := seq A.
Definition look (h : heap) (l : nat) : option A := nth None (map Some h) l.
Record obj := Obj { slots : attr -> slot; losses : seq L }.
Definition pystate := (heap * obj)%type.

(** [OtherError]: raised by a numerical routine *)
Inductive exn := AttributeError | TypeError | OtherError.
Definition outcome := (pystate * option exn)%type.

Definition set_slot (o : obj) a s : obj := Obj (fun b => if b == a then s else slots o b) (losses o).
Definition add_loss (o : obj) l : obj := Obj (slots o) (rcons (losses o) l).

(** reading attributes as arrays: a missing attribute is an AttributeError, arithmetic on None a TypeError *)
Definition read1 (st : pystate) a : exn + A :=
  match slots st.2 a with
  | Unset => inl AttributeError
  | PyNone => inl TypeError
  | Arr l => if look st.1 l is Some x then inr x else inl OtherError
  end.
Fixpoint read (st : pystate) (rd : seq attr) : exn + seq A :=
  if rd is a :: rd' then
    match read1 st a with
    | inl e => inl e
    | inr x => match read st rd' with inl e => inl e | inr xs => inr (x :: xs) end
    end
  else inr [::].
(** evaluating a routine on attributes *)
Definition routine (T : Type) := (seq attr * (seq A -> option T))%type.
Definition eval T (st : pystate) (f : routine T) : exn + T :=
  match read st f.1 with
  | inl e => inl e
  | inr xs => if f.2 xs is Some x then inr x else inl OtherError
  end.

(** [self.a, self.b = ...]: all right-hand sides are evaluated before the attributes are bound *)
Definition bind := (attr * routine A)%type.
Fixpoint evals (st : pystate) (bs : seq bind) : exn + seq (attr * A) :=
  if bs is b :: bs' then
    match eval st b.2 with
    | inl e => inl e
    | inr x => match evals st bs' with inl e => inl e | inr xs => inr ((b.1, x) :: xs) end
    end
  else inr [::].
Definition fresh (st : pystate) a x : pystate := (rcons st.1 x, set_slot st.2 a (Arr (size st.1))).
Definition freshes (st : pystate) (xs : seq (attr * A)) : pystate := foldl (fun st ax => fresh st ax.1 ax.2) st xs.

Inductive stmt :=
| Bind of seq bind                                  (* self.a = <new array> *)
| Init (a : attr) (none_ok : bool) (f : routine A)   (* if not hasattr(self, a): new; elif None; else self.a.copy() *)
| Keep (a : attr) (f : routine A)                    (* if not hasattr(self, a): new; else as it is *)
| Write (a : attr) (f : seq attr * (seq A -> seq A * bool))
    (* successive in-place assignments to self.a[...]; the flag tells whether the routine raised afterwards *)
| Drop (a : attr).                                   (* self.a = None *)

Definition exec1 (st : pystate) (s : stmt) : outcome :=
  match s with
  | Bind bs => match evals st bs with inl e => (st, Some e) | inr xs => (freshes st xs, None) end
  | Init a none_ok f =>
      match slots st.2 a with
      | Unset => match eval st f with inl e => (st, Some e) | inr x => (fresh st a x, None) end
      | PyNone => if none_ok then (st, None) else (st, Some AttributeError)
      | Arr l => if look st.1 l is Some x then (fresh st a x, None) else (st, Some OtherError)
      end
  | Keep a f =>
      if slots st.2 a is Unset then
        match eval st f with inl e => (st, Some e) | inr x => (fresh st a x, None) end
      else (st, None)
  | Write a f =>
      match slots st.2 a with
      | Unset => (st, Some AttributeError)
      | PyNone => (st, Some TypeError)
      | Arr l =>
          match read st f.1 with
          | inl e => (st, Some e)
          | inr xs =>
              let: (ws, raised) := f.2 xs in
              ((if l < size st.1 then foldl (fun h w => set_nth w h l w) st.1 ws else st.1, st.2),
               if raised then Some OtherError else None)
          end
      end
  | Drop a => ((st.1, set_slot st.2 a PyNone), None)
  end.
Fixpoint exec (p : seq stmt) (st : pystate) : outcome :=
  if p is s :: p' then
    let: (st', e) := exec1 st s in if e is Some _ then (st', e) else exec p' st'
  else (st, None).

(** statements of [_reset] *)
Inductive rst :=
| RInit (a : attr) (none_ok : bool) (f : routine A)
| RKeep (a : attr) (f : routine A)
| RDerive (a : attr) (f : seq A -> option A)   (* self.a computed from self.input *)
| RSep                                          (* self.output = self.separate(...) *)
| ROther of stmt.
Record class := Class {
  c_sep : routine A;            (* what [separate] reads and returns *)
  c_reset : seq rst;
  c_update : seq stmt;          (* update_once *)
  c_post : seq stmt;            (* permutation alignment, scale restoration *)
  c_tail : bool;                (* self.output = self.separate(...) at the end of __call__ *)
  c_loss : option (routine L);  (* compute_loss, when record_loss=True *)
  c_forced : bool               (* initial_call is ignored (ipsdta.py:96, 115) *)
}.
Definition compile (C : class) (r : rst) : stmt :=
  match r with
  | RInit a n f => Init a n f
  | RKeep a f => Keep a f
  | RDerive a f => Bind [:: (a, ([:: Input], f))]
  | RSep => Bind [:: (Output, c_sep C)]
  | ROther s => s
  end.

(** base.py:60-62, 71-73 *)
Definition record (C : class) (st : pystate) : outcome :=
  if c_loss C is Some f then
    match eval st f with inl e => (st, Some e) | inr l => ((st.1, add_loss st.2 l), None) end
  else (st, None).
Definition andthen (r : outcome) (k : pystate -> outcome) : outcome :=
  if r.2 is Some _ then r else k r.1.
(** base.py:68-73 *)
Fixpoint loop (C : class) (n : nat) (st : pystate) : outcome :=
  if n is n'.+1 then andthen (andthen (exec (c_update C) st) (record C)) (loop C n') else (st, None).

(** setattr for every keyword argument *)
Definition set_kwargs (st : pystate) (kw : seq (attr * slot)) : pystate :=
  (st.1, foldl (fun o ks => set_slot o ks.1 ks.2) st.2 kw).
(** __call__(input, n_iter, initial_call, **kwargs); [x] is the array passed as input *)
Definition call (C : class) (st : pystate) (x : nat) (kw : seq (attr * slot)) (n : nat) (initial : bool) : outcome :=
  if look st.1 x is Some X then
    andthen (exec (map (compile C) (c_reset C)) (set_kwargs (fresh st Input X) kw)) (fun st =>
    andthen (if initial || c_forced C then record C st else (st, None)) (fun st =>
    andthen (loop C n st) (fun st =>
    exec (c_post C ++ if c_tail C then [:: Bind [:: (Output, c_sep C)]] else [::]) st)))
  else (st, Some OtherError).
(** the returned array *)
Definition result (r : outcome) : option nat :=
  if r is ((_, o), None) then (if slots o Output is Arr l then Some l else None) else None.

(** a sequence of calls on one object, ignoring (catching) exceptions *)
Record args := Args { a_input : nat; a_kw : seq (attr * slot); a_iter : nat; a_initial : bool }.
Definition calls (C : class) (st : pystate) (cs : seq args) : pystate :=
  foldl (fun st a => (call C st (a_input a) (a_kw a) (a_iter a) (a_initial a)).1) st cs.
(** a newly constructed object: no array attribute except [self.input = None] *)
Definition new_obj : obj := Obj (fun a => if a == Input then PyNone else Unset) [::].

End Objects.
Arguments Unset. Arguments PyNone.
Arguments RSep {A}.
Arguments Drop {A} a.

(** ** The classes *)
Section Classes.
Variables (A L : Type).
Notation class := (class A L).
Notation fn := (seq A -> option A).
Notation wr := (seq A -> seq A * bool).
Notation lossfn := (option (seq A -> option L)).
Definition loss_on (rd : seq attr) (f : lossfn) : option (routine A L) := omap (fun g => (rd, g)) f.
Definition opt (b : bool) T (s : seq T) : seq T := if b then s else [::].

(** scale_restoration: False, or projection back / minimal distortion principle.  With a filter both the
    filter and the output are replaced ([pf], [po]); without, only the output ([po]). *)
Definition rescale_filter (rd : seq attr) (sc : option (fn * fn)) : seq (stmt A) :=
  if sc is Some (pf, po) then [:: Bind [:: (Output, (rd, po)); (Demix, (rd, pf))]] else [::].
Definition rescale_output (sc : option fn) : seq (stmt A) :=
  if sc is Some po then [:: Bind [:: (Output, ([:: Input; Output], po))]] else [::].

(** ica.py:59-127, 620-707: GradICA, NaturalGradICA *)
Definition grad_ica (eye sep upd out : fn) (loss : lossfn) : class := {|
  c_sep := ([:: Input; Demix], sep);
  c_reset := [:: RInit Demix true ([:: Input], eye); RSep];
  c_update := [:: Bind [:: (Demix, ([:: Input; Demix], upd)); (Output, ([:: Input; Demix], out))]];
  c_post := [::]; c_tail := true; c_loss := loss_on [:: Input; Demix] loss; c_forced := false |}.
(** ica.py:248-321, 801-841: FastICA writes the rows of the filter in place *)
Definition fast_ica (eye wh sep out : fn) (upd : wr) (loss : lossfn) : class := {|
  c_sep := ([:: Whitened; Demix], sep);
  c_reset := [:: RDerive Whitened wh; RInit Demix true ([:: Input], eye); RSep];
  c_update := [:: Write Demix ([:: Whitened; Demix], upd); Bind [:: (Output, ([:: Whitened; Demix], out))]];
  c_post := [::]; c_tail := true; c_loss := loss_on [:: Whitened; Demix] loss; c_forced := false |}.
(** fdica.py:141-172, 239-326, 402-437: gradient FDICA; [perm] are the aligned output and filter *)
Definition align (perm : option (fn * wr)) : seq (stmt A) :=
  if perm is Some (po, pf) then
    [:: Bind [:: (Output, ([:: Input; Demix], po))]; Write Demix ([:: Input; Demix], pf)] else [::].
Definition grad_fdica (eye sep upd out : fn) (perm : option (fn * wr)) (sc : option (fn * fn)) (loss : lossfn) : class := {|
  c_sep := ([:: Input; Demix], sep);
  c_reset := [:: RInit Demix true ([:: Input], eye); RSep];
  c_update := [:: Bind [:: (Demix, ([:: Input; Demix], upd)); (Output, ([:: Input; Demix], out))]];
  c_post := align perm ++ rescale_filter [:: Input; Demix] sc; c_tail := true;
  c_loss := loss_on [:: Input; Demix] loss; c_forced := false |}.
(** fdica.py:1003-1022, 1038-1245: AuxFDICA (IP, IP1, IP2) writes the filter in place *)
Definition aux_fdica (eye sep : fn) (upd : wr) (perm : option (fn * wr)) (sc : option (fn * fn)) (loss : lossfn) : class := {|
  c_sep := ([:: Input; Demix], sep);
  c_reset := [:: RInit Demix true ([:: Input], eye); RSep];
  c_update := [:: Write Demix ([:: Input; Demix], upd)];
  c_post := align perm ++ rescale_filter [:: Input; Demix] sc; c_tail := true;
  c_loss := loss_on [:: Input; Demix] loss; c_forced := false |}.
(** iva.py:359-392, 764-1000: GradIVA, NaturalGradIVA *)
Definition grad_iva (eye sep upd out : fn) (sc : option (fn * fn)) (loss : lossfn) : class :=
  grad_fdica eye sep upd out None sc loss.
(** iva.py:466-550, 1102-1400: FastIVA, FasterIVA; [sep] whitens its input, [sepw] does not *)
Definition fast_iva (eye wh sep sepw upd : fn) (sc : option (fn * fn)) (loss : lossfn) : class := {|
  c_sep := ([:: Whitened; Demix], sepw);
  c_reset := [:: RInit Demix true ([:: Input], eye); ROther (Bind [:: (Output, ([:: Input; Demix], sep))]);
                 RDerive Whitened wh; RSep];
  c_update := [:: Bind [:: (Demix, ([:: Whitened; Demix], upd))]];
  c_post := rescale_filter [:: Input; Whitened; Demix] sc; c_tail := true;
  c_loss := loss_on [:: Whitened; Demix] loss; c_forced := false |}.
(** iva.py:1657-1915 (and _update_spatial_model.py:17-143): AuxIVA with IP, IP1, IP2, in place *)
Definition aux_iva_filter (eye sep : fn) (upd : wr) (sc : option (fn * fn)) (loss : lossfn) : class :=
  aux_fdica eye sep upd None sc loss.
(** iva.py:1687-1697, 1917-2216: AuxIVA with ISS, ISS1, ISS2, IPA drops the filter and updates the output *)
Definition aux_iva_output (eye sep upd : fn) (sc : option fn) (loss : lossfn) : class := {|
  c_sep := ([:: Input; Demix], sep);
  c_reset := [:: RInit Demix true ([:: Input], eye); RSep; ROther (Drop Demix)];
  c_update := [:: Bind [:: (Output, ([:: Output], upd))]];
  c_post := rescale_output sc; c_tail := false;
  c_loss := loss_on [:: Input; Output] loss; c_forced := false |}.

(** ilrma.py:151-270: _reset of ILRMABase *)
Definition init_nmf (part : bool) (z t v : fn) : seq (rst A) :=
  opt part [:: RInit Latent false ([:: Input], z)] ++
  [:: RInit Basis false ([:: Input], t); RInit Activ false ([:: Input], v)].
Definition nmf_attrs (part : bool) : seq attr := opt part [:: Latent] ++ [:: Basis; Activ].
(** ilrma.py:956-1005: the updates of the source model bind new arrays *)
Definition source_model (sig : seq attr) (part : bool) (uz ut uv : fn) : seq (stmt A) :=
  let rd := sig ++ nmf_attrs part in
  opt part [:: Bind [:: (Latent, (rd, uz))]] ++ [:: Bind [:: (Basis, (rd, ut))]; Bind [:: (Activ, (rd, uv))]].
(** ilrma.py:395-514: normalisation; [a] is the filter or the output *)
Definition normalise (sig : seq attr) (a : attr) (part : bool) (nrm : option (fn * fn * fn)) : seq (stmt A) :=
  if nrm is Some (nz, nt, na) then
    let rd := sig ++ nmf_attrs part in
    [:: Bind (opt part [:: (Latent, (rd, nz))] ++ [:: (Basis, (rd, nt))]); Bind [:: (a, (sig, na))]]
  else [::].
(** ilrma.py:840-922 (Gauss), 2219-2300 (t), 3562-3640 (GGD), spatial algorithms IP, IP1, IP2 *)
Definition ilrma_filter (eye sep z t v uz ut uv : fn) (upd : wr) (part : bool) (nrm : option (fn * fn * fn))
    (sc : option (fn * fn)) (loss : lossfn) : class :=
  let sig := [:: Input; Demix] in {|
  c_sep := (sig, sep);
  c_reset := [:: RInit Demix true ([:: Input], eye); RSep] ++ init_nmf part z t v;
  c_update := source_model sig part uz ut uv ++ [:: Write Demix (sig ++ nmf_attrs part, upd)] ++ normalise sig Demix part nrm;
  c_post := rescale_filter sig sc; c_tail := true;
  c_loss := loss_on (sig ++ nmf_attrs part) loss; c_forced := false |}.
(** the same with ISS, ISS1, ISS2, IPA (ilrma.py:897-898) *)
Definition ilrma_output (eye sep z t v uz ut uv upd : fn) (part : bool) (nrm : option (fn * fn * fn))
    (sc : option fn) (loss : lossfn) : class :=
  let sig := [:: Input; Output] in {|
  c_sep := ([:: Input; Demix], sep);
  c_reset := [:: RInit Demix true ([:: Input], eye); RSep] ++ init_nmf part z t v ++ [:: ROther (Drop Demix)];
  c_update := source_model sig part uz ut uv ++ [:: Bind [:: (Output, (sig ++ nmf_attrs part, upd))]] ++ normalise sig Output part nrm;
  c_post := rescale_output sc; c_tail := false;
  c_loss := loss_on (sig ++ nmf_attrs part) loss; c_forced := false |}.
(** mnmf.py:90-260, 327-353, 384-414, 730-1073: GaussMNMF *)
Definition gauss_mnmf (wh z t v h sep uz ut uv uh : fn) (part : bool) (nrm : option (fn * fn)) (loss : lossfn) : class :=
  let rd := [:: InstCov; Spatial] ++ nmf_attrs part in {|
  c_sep := ([:: Input; Spatial] ++ nmf_attrs part, sep);
  c_reset := [:: RDerive InstCov wh] ++ init_nmf part z t v ++ [:: RInit Spatial false ([:: Input], h); RSep];
  c_update := [:: Bind [:: (Basis, (rd, ut))]; Bind [:: (Activ, (rd, uv))]; Bind [:: (Spatial, (rd, uh))]] ++
    (if nrm is Some (nt, nh) then
       [:: Bind (opt (~~ part) [:: (Basis, ([:: Basis; Spatial], nt))] ++ [:: (Spatial, ([:: Spatial], nh))])] else [::]) ++
    opt part [:: Bind [:: (Latent, (rd, uz))]];
  c_post := [::]; c_tail := true; c_loss := loss_on rd loss; c_forced := false |}.
(** mnmf.py:499-600, 1278-1303: FastGaussMNMF; the diagonaliser is written in place, [spatial] is not copied *)
Definition fast_mnmf (wh t v q d sep ut uv ud : fn) (uq : wr) (nrm : option (fn * fn)) (loss : lossfn) : class :=
  let rd := [:: Input; Basis; Activ; Diag; Spatial] in {|
  c_sep := (rd, sep);
  c_reset := [:: RDerive InstCov wh] ++ init_nmf false t t v ++
    [:: RInit Diag false ([:: Input], q); RKeep Spatial ([:: Input], d); RSep];
  c_update := [:: Bind [:: (Basis, (rd, ut))]; Bind [:: (Activ, (rd, uv))]; Write Diag (rd, uq); Bind [:: (Spatial, (rd, ud))]] ++
    (if nrm is Some (nq, nd) then [:: Bind [:: (Diag, (rd, nq)); (Spatial, (rd, nd))]] else [::]);
  c_post := [::]; c_tail := true; c_loss := loss_on rd loss; c_forced := false |}.
(** ipsdta.py:96-122, 464-575, 820-1147: GaussIPSDTA, TIPSDTA.  The filter is written in place; [initial_call] is
    not a parameter of __call__ and ends up among the keyword arguments. *)
Definition ipsdta (eye sep t v ut uv : fn) (upd : wr) (nrm : option (fn * fn)) (sc : option (fn * fn)) (loss : lossfn) : class :=
  let rd := [:: Input; Demix; Basis; Activ] in
  let norm : seq (stmt A) := if nrm is Some (nt, nv) then
    [:: Bind [:: (Basis, ([:: Basis; Activ], nt)); (Activ, ([:: Basis; Activ], nv))]] else [::] in {|
  c_sep := ([:: Input; Demix], sep);
  c_reset := [:: RInit Demix true ([:: Input], eye); RSep; RInit Basis false ([:: Input], t); RInit Activ false ([:: Input], v)] ++
    map (@ROther A) norm;
  c_update := [:: Bind [:: (Basis, (rd, ut))]; Bind [:: (Activ, (rd, uv))]] ++ norm ++ [:: Write Demix (rd, upd)];
  c_post := rescale_filter [:: Input; Demix] sc; c_tail := true;
  c_loss := loss_on rd loss; c_forced := true |}.
(** pdsbss.py:126-219, proxbss.py:107-139 *)
Definition pds (eye sep y uw uy : fn) (sc : option (fn * fn)) (loss : lossfn) : class :=
  let rd := [:: Input; Demix; Dual] in {|
  c_sep := ([:: Input; Demix], sep);
  c_reset := [:: RInit Demix true ([:: Input], eye); RSep; RInit Dual true ([:: Input], y)];
  c_update := [:: Bind [:: (Demix, (rd, uw)); (Dual, (rd, uy))]];
  c_post := rescale_filter [:: Input; Demix] sc; c_tail := true;
  c_loss := loss_on [:: Input; Demix] loss; c_forced := false |}.
(** admmbss.py:121-257 *)
Definition admm (eye sep a1 a2 y1 y2 uw ua1 ua2 uy1 uy2 : fn) (sc : option (fn * fn)) (loss : lossfn) : class :=
  let rd := [:: Input; Demix; Aux1; Aux2; Dual1; Dual2] in {|
  c_sep := ([:: Input; Demix], sep);
  c_reset := [:: RInit Demix true ([:: Input], eye); RSep; RInit Aux1 false ([:: Input], a1); RInit Aux2 false ([:: Input], a2);
    RInit Dual1 false ([:: Input], y1); RInit Dual2 false ([:: Input], y2)];
  c_update := [:: Bind [:: (Aux1, (rd, ua1)); (Aux2, (rd, ua2)); (Dual1, (rd, uy1)); (Dual2, (rd, uy2)); (Demix, (rd, uw))]];
  c_post := rescale_filter [:: Input; Demix] sc; c_tail := true;
  c_loss := loss_on [:: Input; Demix] loss; c_forced := false |}.
(** cacgmm.py:116-190, 313-420, 508-706: the parameters are drawn anew by every call; the permutation alignment
    writes mixing, covariance and posterior in place *)
Definition cacgmm (unit_ al b sep up ua ub : fn) (nrm : option fn) (perm : option (wr * wr * wr * fn)) (loss : lossfn) : class :=
  let rd := [:: UnitInput; Mixing; Covar] in let rd' := [:: UnitInput; Covar; Posterior] in
  let rp := [:: Input; Mixing; Covar; Posterior] in {|
  c_sep := ([:: Input; Posterior], sep);
  c_reset := [:: RDerive UnitInput unit_; ROther (Bind [:: (Mixing, ([:: Input], al)); (Covar, ([:: Input], b))]); ROther (Drop Posterior)];
  c_update := [:: Bind [:: (Posterior, (rd, up))]; Bind [:: (Mixing, (rd', ua)); (Covar, (rd', ub))]] ++
    (if nrm is Some g then [:: Bind [:: (Covar, ([:: Covar], g))]] else [::]);
  c_post := Bind [:: (Posterior, (rd, up))] ::
    (if perm is Some (wm, wc, wp, po) then
       [:: Write Mixing (rp, wm); Write Covar (rp, wc); Write Posterior (rp, wp); Bind [:: (Output, (rp, po))]] else [::]);
  c_tail := true; c_loss := loss_on rd loss; c_forced := false |}.

(** all of them *)
Inductive ssspy_class : class -> Prop :=
| IsGradIca a b c d e : ssspy_class (grad_ica a b c d e)
| IsFastIca a b c d e f : ssspy_class (fast_ica a b c d e f)
| IsGradFdica a b c d e f g : ssspy_class (grad_fdica a b c d e f g)
| IsAuxFdica a b c d e f : ssspy_class (aux_fdica a b c d e f)
| IsGradIva a b c d e f : ssspy_class (grad_iva a b c d e f)
| IsFastIva a b c d e f g : ssspy_class (fast_iva a b c d e f g)
| IsAuxIvaFilter a b c d e : ssspy_class (aux_iva_filter a b c d e)
| IsAuxIvaOutput a b c d e : ssspy_class (aux_iva_output a b c d e)
| IsIlrmaFilter a b c d e f g h i j k l m : ssspy_class (ilrma_filter a b c d e f g h i j k l m)
| IsIlrmaOutput a b c d e f g h i j k l m : ssspy_class (ilrma_output a b c d e f g h i j k l m)
| IsGaussMnmf a b c d e f g h i j k l m : ssspy_class (gauss_mnmf a b c d e f g h i j k l m)
| IsFastMnmf a b c d e f g h i j k l : ssspy_class (fast_mnmf a b c d e f g h i j k l)
| IsIpsdta a b c d e f g h i j : ssspy_class (ipsdta a b c d e f g h i j)
| IsPds a b c d e f g : ssspy_class (pds a b c d e f g)
| IsAdmm a b c d e f g h i j k l m : ssspy_class (admm a b c d e f g h i j k l m)
| IsCacgmm a b c d e f g h i j : ssspy_class (cacgmm a b c d e f g h i j).
End Classes.
