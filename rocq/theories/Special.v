(** Model of /repo/ssspy/special/softmax.py, /repo/ssspy/special/logsumexp.py and
    /repo/ssspy/utils/flooring.py.  The reductions run along one axis, so the model works on one
    fibre of the array (a list of reals); [None] is the ValueError numpy raises
    for the maximum of an empty fibre.  Squeezing of axes is not modelled. *)
From Coq Require Import Reals List String.
Import ListNotations.
Open Scope R_scope.

Fixpoint sumR (l : list R) : R := match l with [] => 0 | x :: r => x + sumR r end.

(** [np.max] along a non-empty fibre *)
Definition np_max (l : list R) : option R :=
  match l with [] => None | x :: r => Some (fold_left Rmax r x) end.

(** [np.exp] elementwise; [ex] is the exponential of the machine, [None] = overflow to infinity *)
Fixpoint np_exp (ex : R -> option R) (l : list R) : option (list R) :=
  match l with
  | [] => Some []
  | x :: r => match ex x, np_exp ex r with Some y, Some ys => Some (y :: ys) | _, _ => None end
  end.

(** softmax.py:31-36 *)
Definition softmax_with (ex : R -> option R) (X : list R) : option (list R) :=
  match np_max X with
  | None => None
  | Some vmax =>
    let Y := map (fun x => x - vmax) X in
    match np_exp ex Y with
    | None => None
    | Some e => Some (map (fun y => y / sumR e) e)
    end
  end.
(** with the exact exponential *)
Definition softmax : list R -> option (list R) := softmax_with (fun x => Some (exp x)).

(** logsumexp.py:32-40 *)
Definition logsumexp_with (ex : R -> option R) (X : list R) : option R :=
  match np_max X with
  | None => None
  | Some vmax =>
    match np_exp ex (map (fun x => x - vmax) X) with
    | None => None
    | Some e => Some (ln (sumR e) + vmax)
    end
  end.
Definition logsumexp : list R -> option R := logsumexp_with (fun x => Some (exp x)).

(** ** /repo/ssspy/utils/flooring.py:8-24 *)
(** the argument [flooring_fn]: None, a string, a callable or another object *)
Inductive fl_arg := ANone | AStr (s : string) | AFun (f : R -> R) | AObj.
(** the attribute [method.flooring_fn], when present, may hold any object *)
Inductive fl_method := NoMethod | NoAttr | Attr (a : fl_arg).
Inductive fl_res := FlFun (f : R -> R) | FlAssertion.

(** [callable(flooring_fn)] and the returned value *)
Definition fl_callable (a : fl_arg) : fl_res :=
  match a with AFun f => FlFun f | _ => FlAssertion end.

Definition choose_flooring_fn (a : fl_arg) (m : fl_method) : fl_res :=
  match a with
  | ANone => match m with NoMethod => fl_callable (AFun (fun x => x)) | _ => FlAssertion end
  | AStr s => if String.eqb s "self" then
                match m with
                | NoMethod | NoAttr => fl_callable (AFun (fun x => x))
                | Attr b => fl_callable b
                end
              else fl_callable a
  | _ => fl_callable a
  end.
