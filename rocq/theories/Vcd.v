(** Model of the vector-wise coordinate descent of IPSDTA,
    /repo/ssspy/bss/_update_spatial_model.py:516-608
    [update_by_block_decomposition_vcd].  The code treats all blocks at once and independently; the
    model works on one block of [D] neighbouring bins.  [None] = LinAlgError or a non-finite
    coefficient. *)
From Coq Require Import Reals.
From mathcomp Require Import all_ssreflect all_algebra.
From Verif Require Import RStruct MxC CxR NpLin.
Import Order.TTheory GRing.Theory Num.Theory.
Set Implicit Arguments.
Unset Strict Implicit.
Unset Printing Implicit Defensive.
Local Open Scope ring_scope.

Section Vcd.
Variables N D : nat.
(** demixing filters of the block, one matrix per neighbour; row [n] is [w_in^H] *)
Definition vfilter := 'I_D -> 'M[Cx]_N.
(** weighted covariance, axes (neighbour, neighbour, source) *)
Definition vcov := 'I_D -> 'I_D -> 'I_N -> 'M[Cx]_N.

(** [singular_fn=None] (lines 545-551) *)
Definition sing_default (x : Cx) : bool := x == 0.
(** [singular_fn] as passed by update_spatial_model_vcd (ipsdta.py:1105, 1721):
    [lambda x: np.abs(x) < flooring_fn(0)] *)
Definition sing_floor (fl : R -> R) (x : Cx) : bool := Rltb (cabs x) (fl 0%coqR).

(** lines 593-601; [1 / sqrt(xi)] and the divisions by [xi] are infinite or nan for [xi = 0], the
    division by [|xi_hat|^2] for [xi_hat = 0] *)
Definition vcd_coeff (sing : Cx -> bool) (xi : R) (xih : Cx) : option Cx :=
  if xi == 0 then None
  else if sing xih then Some (c (1 / R_sqrt.sqrt xi)%coqR)
  else if xih == 0 then None
  else Some (xih / c (2 * xi)%coqR * c (1 - R_sqrt.sqrt (1 + 4 * xi / cabs xih ^ 2))%coqR).

(** [W[:, neighbor_idx, source_idx, :] = w] *)
Definition set_filter (W : vfilter) (i : 'I_D) (n : 'I_N) (r : 'rV[Cx]_N) : vfilter :=
  fun j => if j == i then setrow n r (W j) else W j.

(** lines 571-606 *)
Definition vcd_step (sing : Cx -> bool) (RXX : vcov) (W : vfilter) (i : 'I_D) (n : 'I_N) : option vfilter :=
  let U := RXX i i n in
  let gamma : 'cV[Cx]_N := \sum_j (1 - (i == j)%:R) *: (RXX i j n *m (row n (W j))^H) in
  match solve (W i *m U) (delta_mx n 0 : 'cV[Cx]_N), solve U gamma with
  | Some eta, Some eta_hat =>
    let xi := Rmax (re ((eta^H *m U *m eta) 0 0)) 0 in
    let xi_hat := (eta^H *m U *m eta_hat) 0 0 in
    match vcd_coeff sing xi xi_hat with
    | Some a => Some (set_filter W i n (a *: eta - eta_hat)^H)
    | None => None
    end
  | _, _ => None
  end.

(** lines 561 and 567 *)
Definition vcd (sing : Cx -> bool) (RXX : vcov) (W : vfilter) : option vfilter :=
  foldl (fun o i =>
    foldl (fun o n => if o is Some V then vcd_step sing RXX V i n else None) o (enum 'I_N))
    (Some W) (enum 'I_D).
End Vcd.
