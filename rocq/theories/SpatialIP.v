(** Model of the iterative projection updates
    /repo/ssspy/bss/_update_spatial_model.py. *)
From Coq Require Import Reals.
From mathcomp Require Import all_ssreflect all_algebra.
From Verif Require Import RStruct MxC CxR NpLin.
Import Order.TTheory GRing.Theory Num.Theory.
Set Implicit Arguments.
Unset Strict Implicit.
Unset Printing Implicit Defensive.
Local Open Scope ring_scope.

Section IP1.
Variable N : nat.
Variable fl : R -> R.

(** _update_spatial_model.py:62-76, the loop body of [update_by_ip1] in one
    frequency bin (the code treats all bins at once, independently):
    [WU = W @ U_n; w_n = solve(WU, e_n); wUw = maximum(real(w_n^H U_n w_n), 0);
    denom = flooring_fn(sqrt(wUw)); W[src_idx] = conj(w_n) / denom]. *)
Definition ip1_step (U : 'I_N -> 'M[Cx]_N) (W : 'M[Cx]_N) (n : 'I_N) :
    option 'M[Cx]_N :=
  if solve (W *m U n) (delta_mx n 0 : 'cV[Cx]_N) is Some w then
    let wUw := Rmax (re ((w^H *m U n *m w) 0 0)) 0 in
    let denom := fl (R_sqrt.sqrt wUw) in
    if divs (w^H) denom is Some r then Some (setrow n r W) else None
  else None.

(** _update_spatial_model.py:61-78, [for src_idx in range(n_sources)]. *)
Definition ip1_loop (U : 'I_N -> 'M[Cx]_N) (s : seq 'I_N) (W : 'M[Cx]_N) :
    option 'M[Cx]_N :=
  foldl (fun o n => if o is Some V then ip1_step U V n else None) (Some W) s.
Definition ip1 (U : 'I_N -> 'M[Cx]_N) (W : 'M[Cx]_N) : option 'M[Cx]_N :=
  ip1_loop U (enum 'I_N) W.

End IP1.
