(** Model of the constructors of the proximal methods (C58):
    ProxBSSBase.__init__ (proxbss.py:42-92, used by PDSBSS and ADMMBSS),
    MaskingPDSBSS.__init__ (pdsbss.py:260-318), MaskingADMMBSS.__init__ (admmbss.py:283-340),
    and of compute_loss' access to [penalty_fn] (proxbss.py:172-189). *)
From Coq Require Import List Bool Arith.
From Verif Require Import Iter.
Import ListNotations.
Set Implicit Arguments.

(** a callable-or-list argument: [None], a callable, or a list of callables of the given length *)
Inductive fn_arg := FnNone | FnCallable | FnList (len : nat).
Inductive ctor_error := AssertionErr | ValueErr | TypeErr.
Record args := Args {
  a_penalty : fn_arg;         (* penalty_fn *)
  a_prox : fn_arg;            (* prox_penalty, or mask_fn for the masking classes *)
  a_scale : bool;             (* truth value of scale_restoration *)
  a_record : option bool;     (* record_loss *)
  a_reference : option nat;   (* reference_id *)
  a_alpha : bool;             (* whether the deprecated [alpha] is given *)
  a_relaxation_is_1 : bool    (* whether relaxation == 1 *)
}.
(** [super().__init__(callbacks, record_loss)] stores the argument as given, before the default is
    resolved (base.py:34-46); [o_record] is the truth value of the attribute. *)
Record obj := Obj { o_record : bool; o_penalty : fn_arg; o_prox : fn_arg }.
Definition truth (r : option bool) : bool := match r with Some b => b | None => false end.
Definition list_of (f : fn_arg) : fn_arg := match f with FnCallable => FnList 1 | _ => f end.
Definition check_reference (a : args) : bool := match a_reference a with None => negb (a_scale a) | Some _ => true end.
Definition check_alpha (a : args) : bool := negb (a_alpha a) || a_relaxation_is_1 a.
(** proxbss.py:42-92 and the relaxation check of pdsbss.py:117-124 / admmbss.py:112-119 *)
Definition prox_init (a : args) : obj + ctor_error :=
  let record := match a_record a with Some b => b | None => match a_penalty a with FnNone => false | _ => true end end in
  match a_penalty a with
  | FnNone => if record then inr AssertionErr else
      match a_prox a with
      | FnNone => inr ValueErr
      | p => if check_reference a then if check_alpha a then inl (Obj (truth (a_record a)) FnNone (list_of p)) else inr AssertionErr
             else inr ValueErr
      end
  | f => match a_prox a with
      | FnNone => inr ValueErr
      | p => match list_of f, list_of p with
             | FnList k, FnList k' => if k =? k' then
                 if check_reference a then if check_alpha a then inl (Obj (truth (a_record a)) (FnList k) (FnList k')) else inr AssertionErr
                 else inr ValueErr
                 else inr AssertionErr
             | _, _ => inr TypeErr
             end
      end
  end.
(** pdsbss.py:275-318, admmbss.py:297-340 *)
Definition masking_init (a : args) : obj + ctor_error :=
  let record := match a_record a with Some b => b | None => match a_penalty a with FnNone => false | _ => true end end in
  let ok := match a_penalty a with FnNone => negb record | FnCallable => true | FnList _ => false end in
  if ok then
    match a_prox a with
    | FnNone => inr ValueErr
    | FnList _ => inr AssertionErr
    | FnCallable => if check_reference a then if check_alpha a then inl (Obj (truth (a_record a)) (a_penalty a) FnCallable) else inr AssertionErr
                    else inr ValueErr
    end
  else inr AssertionErr.
(** proxbss.py:183: [for penalty_fn in self.penalty_fn] needs a list *)
Definition loss_of {S L} (value : S -> L) (o : obj) (s : S) : L + ctor_error :=
  match o_penalty o with FnList _ => inl (value s) | _ => inr TypeErr end.
(** running a constructed object: the protocol of base.py with this loss *)
Definition run {S L} (value : S -> L) (update : S -> S) (o : obj) (s : S) (n_iter : nat) (initial_call : bool) :=
  call (fun s => (update s, @None ctor_error)) (loss_of value o) n_iter initial_call (@init S L ctor_error (CbNone) (o_record o) s).
