(** Model of the iteration protocol shared by every separation method.
    Source: ssspy/bss/base.py, class IterativeMethodBase (lines 10-89).

    [S] is everything stored in the Python object except the bookkeeping
    attributes [loss], [record_loss] and [callbacks].  [update_once] and the
    callbacks are arbitrary code that may change [S], may read the loss list
    recorded so far (callbacks receive [self]) and may raise, in which case
    the object keeps the (possibly partially updated) state.
    Simplification: update_once and callbacks do not assign the bookkeeping
    attributes themselves, and compute_loss does not change the object. *)
From Coq Require Import List Arith Lia Bool.
Import ListNotations.

Set Implicit Arguments.

Section Iter.
Variables (S L E : Type).

(** A raised exception: user code raised [e], or the bookkeeping itself
    failed ([None.append], an AttributeError). *)
Inductive exn := UserExn (e : E) | AttributeError.

(** result of running Python code on the state: new state, exception if any *)
Definition action_result : Type := (S * option E)%type.

Variable update_once : S -> action_result.
Variable compute_loss : S -> L + E.
Definition callback := S -> option (list L) -> action_result.

(** base.py:26-33: the [callbacks] argument is None, a callable or a list. *)
Inductive callbacks_arg :=
| CbNone
| CbCallable (c : callback)
| CbList (cs : list callback).

Record method := mkMethod {
  callbacks : option (list callback);
  record_loss : bool;
  loss : option (list L);
  st : S
}.

(** base.py:34-46 *)
Definition init (cbs : callbacks_arg) (record : bool) (s : S) : method :=
  {| callbacks := match cbs with
                  | CbNone => None
                  | CbCallable c => Some [c]
                  | CbList cs => Some cs
                  end;
     record_loss := record;
     loss := if record then Some [] else None;
     st := s |}.

(** Ghost trace of the completed actions, with the state before and after. *)
Inductive event :=
| EvUpdate (before after : S)
| EvLoss (at_state : S) (l : L)
| EvCallback (index : nat) (before after : S) (seen : option (list L)).

Definition outcome := (method * list event * option exn)%type.

Definition set_st (m : method) (s : S) : method :=
  {| callbacks := callbacks m; record_loss := record_loss m; loss := loss m; st := s |}.
Definition set_loss (m : method) (l : list L) : method :=
  {| callbacks := callbacks m; record_loss := record_loss m; loss := Some l; st := st m |}.

(** sequential composition of Python statements: an exception skips the rest *)
Definition seq_then (r : outcome) (k : method -> outcome) : outcome :=
  match r with
  | (m, tr, Some x) => (m, tr, Some x)
  | (m, tr, None) =>
      let '(m', tr', x) := k m in (m', tr ++ tr', x)
  end.

(** base.py:69 *)
Definition do_update (m : method) : outcome :=
  let '(s', x) := update_once (st m) in
  match x with
  | None => (set_st m s', [EvUpdate (st m) s'], None)
  | Some e => (set_st m s', [], Some (UserExn e))
  end.

(** base.py:60-62 and 71-73 *)
Definition do_loss (m : method) : outcome :=
  if record_loss m then
    match compute_loss (st m) with
    | inr e => (m, [], Some (UserExn e))
    | inl l => match loss m with
               | None => (m, [], Some AttributeError)
               | Some ls => (set_loss m (ls ++ [l]), [EvLoss (st m) l], None)
               end
    end
  else (m, [], None).

(** base.py:65-66 and 76-77: [for callback in self.callbacks: callback(self)] *)
Fixpoint do_callback_list (i : nat) (cs : list callback) (m : method) : outcome :=
  match cs with
  | [] => (m, [], None)
  | c :: cs' =>
      let '(s', x) := c (st m) (loss m) in
      match x with
      | Some e => (set_st m s', [], Some (UserExn e))
      | None => seq_then (set_st m s', [EvCallback i (st m) s' (loss m)], None)
                         (do_callback_list (i + 1) cs')
      end
  end.

(** base.py:64 and 75 *)
Definition do_callbacks (m : method) : outcome :=
  match callbacks m with
  | None => (m, [], None)
  | Some cs => do_callback_list 0 cs m
  end.

(** base.py:69-77: body of the loop *)
Definition one_iteration (m : method) : outcome :=
  seq_then (seq_then (do_update m) do_loss) do_callbacks.

(** base.py:68 *)
Fixpoint iterations (n_iter : nat) (m : method) : outcome :=
  match n_iter with
  | 0 => (m, [], None)
  | Datatypes.S n => seq_then (one_iteration m) (iterations n)
  end.

(** base.py:48-77 *)
Definition call (n_iter : nat) (initial_call : bool) (m : method) : outcome :=
  seq_then (if initial_call then seq_then (do_loss m) do_callbacks else (m, [], None))
           (iterations n_iter).

(* ------------------------------------------------------------------ *)
(** * Specification, independent of the functions above *)

Inductive action := AUpdate | ALoss | ACallback (i : nat).

(** documented order inside one iteration *)
Definition report_schedule (record : bool) (ncb : nat) : list action :=
  (if record then [ALoss] else []) ++ map ACallback (seq 0 ncb).
Definition schedule (n_iter : nat) (initial_call record : bool) (ncb : nat) : list action :=
  (if initial_call then report_schedule record ncb else []) ++
  concat (repeat (AUpdate :: report_schedule record ncb) n_iter).

Definition kind (e : event) : action :=
  match e with
  | EvUpdate _ _ => AUpdate
  | EvLoss _ _ => ALoss
  | EvCallback i _ _ _ => ACallback i
  end.

Definition losses_of (tr : list event) : list L :=
  flat_map (fun e => match e with EvLoss _ l => [l] | _ => [] end) tr.

(** [chain cs s ls tr s']: the trace is a genuine execution from state [s]
    with loss list [ls] to state [s'], every event being what the user code
    computes on the state at that moment, callbacks seeing exactly the losses
    recorded so far. *)
Inductive chain (cs : list callback) : S -> option (list L) -> list event -> S -> Prop :=
| chain_nil s ls : chain cs s ls [] s
| chain_update s s' ls tr s'' :
    update_once s = (s', None) -> chain cs s' ls tr s'' ->
    chain cs s ls (EvUpdate s s' :: tr) s''
| chain_loss s l ls tr s'' :
    compute_loss s = inl l -> chain cs s (Some (ls ++ [l])) tr s'' ->
    chain cs s (Some ls) (EvLoss s l :: tr) s''
| chain_callback i c s s' ls tr s'' :
    nth_error cs i = Some c -> c s ls = (s', None) -> chain cs s' ls tr s'' ->
    chain cs s ls (EvCallback i s s' ls :: tr) s''.

(** [fails cs s ls a e s']: the action [a] attempted in state [s] raises [e],
    leaving state [s']. *)
Inductive fails (cs : list callback) (s : S) (ls : option (list L)) : action -> E -> S -> Prop :=
| fails_update e s' : update_once s = (s', Some e) -> fails cs s ls AUpdate e s'
| fails_loss e : compute_loss s = inr e -> fails cs s ls ALoss e s
| fails_callback i c e s' :
    nth_error cs i = Some c -> c s ls = (s', Some e) -> fails cs s ls (ACallback i) e s'.

Definition cb_list (m : method) : list callback :=
  match callbacks m with Some cs => cs | None => [] end.
Definition loss_list (m : method) : list L :=
  match loss m with Some ls => ls | None => [] end.

(** The bookkeeping invariant established by the constructor. *)
Definition wf (m : method) : Prop :=
  if record_loss m then exists ls, loss m = Some ls else loss m = None.

Definition extend_loss (o : option (list L)) (ls : list L) : option (list L) :=
  match o with Some l0 => Some (l0 ++ ls) | None => None end.

(** What a call that was asked to perform [plan] may do. *)
Definition run_ok (m m' : method) (tr : list event) (x : option exn) (plan : list action) : Prop :=
  callbacks m' = callbacks m /\ record_loss m' = record_loss m /\ wf m' /\
  loss m' = extend_loss (loss m) (losses_of tr) /\
  match x with
  | None => map kind tr = plan /\ chain (cb_list m) (st m) (loss m) tr (st m')
  | Some (UserExn e) =>
      exists a rest s,
        plan = map kind tr ++ a :: rest /\
        chain (cb_list m) (st m) (loss m) tr s /\
        fails (cb_list m) s (loss m') a e (st m')
  | Some AttributeError => False
  end.

(** counting actions *)
Definition action_eqb (a b : action) : bool :=
  match a, b with
  | AUpdate, AUpdate => true
  | ALoss, ALoss => true
  | ACallback i, ACallback j => Nat.eqb i j
  | _, _ => false
  end.
Definition count (a : action) (l : list action) : nat := length (filter (action_eqb a) l).

Definition b2n (b : bool) : nat := if b then 1 else 0.

End Iter.

Arguments CbNone {S L E}.
Arguments AttributeError {E}.
Arguments UserExn {E} e.
