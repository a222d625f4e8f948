(** Model of the pairwise iterative source steering update
    (/repo/ssspy/bss/_update_spatial_model.py:197-314) in one frequency bin.
    [Y] and [phi] are the lists of rows (sources) of the spectrogram and of the
    weights, so that the splitting and concatenation by source index is the one
    of the code.  [None] stands for [LinAlgError] or a non-finite result. *)
From Coq Require Import Reals.
From mathcomp Require Import all_ssreflect all_algebra.
From Verif Require Import RStruct MxC CxR NpLin Eigh SpatialISS SpatialIP2.
Import Order.TTheory GRing.Theory Num.Theory.
Set Implicit Arguments.
Unset Strict Implicit.
Unset Printing Implicit Defensive.
Local Open Scope ring_scope.

Section ISS2.
Variables (eig : eigh_t) (chol : chol_t).
Variables (T : nat) (fl : R -> R).
Notation crow := 'rV[Cx]_T.
Notation rrow := 'rV[R]_T.

(** line 257: [np.split(Y, [m, m + 1, n, n + 1], axis=0)], five slices *)
Definition split5 A (Y : seq A) (m n : nat) : seq A * seq A * seq A * seq A * seq A :=
  (take m Y, drop m (take m.+1 Y), drop m.+1 (take n Y), drop n (take n.+1 Y), drop n.+1 Y).

(** lines 264-269: [Y_main] (2 rows), as a matrix *)
Definition pair_mx (Ys : seq crow) : 'M[Cx]_(2, T) := \matrix_(i, t) nth 0 Ys i 0 t.

(** lines 271-274, 279-282 and 291-294: [G = mean(varphi * Y_main Y_main^H)] *)
Definition iss2_G (p : rrow) (M : 'M[Cx]_(2, T)) : 'M[Cx]_2 :=
  \matrix_(i, j) meanC (fun t => c (p 0 t) * (M i t * (M j t)^*)).
(** lines 272 and 283: [F = mean(varphi_sub * Y_main conj(Y_sub))] *)
Definition iss2_F (p : rrow) (M : 'M[Cx]_(2, T)) (y : crow) : 'cV[Cx]_2 :=
  \col_i meanC (fun t => c (p 0 t) * (M i t * (y 0 t)^*)).

(** lines 284-288: [Q = -inv2(G_sub) @ F; Y_sub = Y_sub + Q^H @ Y_main] *)
Definition iss2_sub (M : 'M[Cx]_(2, T)) (yp : crow * rrow) : option crow :=
  if inv2 (iss2_G yp.2 M) is Some Gi then
    let q := - Gi *m iss2_F yp.2 M yp.1 in Some (yp.1 + q^H *m M)
  else None.
Definition iss2_subs (M : 'M[Cx]_(2, T)) (s : seq (crow * rrow)) : option (seq crow) :=
  foldr (fun yp o => match iss2_sub M yp, o with Some y, Some r => Some (y :: r) | _, _ => None end)
        (Some [::]) s.

(** lines 295-308: both rows of [P.conj() @ Y_main]; the eigenvectors are used in
    ascending order of the eigenvalues *)
Definition iss2_main (M : 'M[Cx]_(2, T)) (ps : seq rrow) : option (crow * crow) :=
  let Gm := iss2_G (nth 0 ps 0) M in let Gn := iss2_G (nth 0 ps 1) M in
  if eigh2 eig chol Gm Gn 1 is Ok (_, H) then
    match scale_h fl Gm (col 0 H), scale_h fl Gn (col 1 H) with
    | Some pm, Some pn => Some (pm^H *m M, pn^H *m M)
    | _, _ => None
    end
  else None.

(** lines 244-314, the loop body of [update_by_iss2] for a pair of indices in
    range (negative indices are wrapped before, lines 245-248); the mean over an
    empty frame axis is not a number *)
Definition iss2_step (phi : seq rrow) (Y : seq crow) (p : nat * nat) : option (seq crow) :=
  if T == 0%N then None else
  let ascend := ~~ (p.2 < p.1)%N in
  let m := if ascend then p.1 else p.2 in
  let n := if ascend then p.2 else p.1 in
  let: (Y1, Ym, Y2, Yn, Y3) := split5 Y m n in
  let: (p1, pm, p2, pn, p3) := split5 phi m n in
  let Ysub := Y1 ++ Y2 ++ Y3 in
  let psub := p1 ++ p2 ++ p3 in
  let M := pair_mx (if ascend then Ym ++ Yn else Yn ++ Ym) in
  let pmain := if ascend then pm ++ pn else pn ++ pm in
  match iss2_subs M (zip Ysub psub), iss2_main M pmain with
  | Some Ysub', Some (ym, yn) =>
    let Y1' := take m Ysub' in
    let Y2' := drop m (take n.-1 Ysub') in
    let Y3' := drop n.-1 Ysub' in
    Some (if ascend then Y1' ++ [:: ym] ++ Y2' ++ [:: yn] ++ Y3'
          else Y1' ++ [:: yn] ++ Y2' ++ [:: ym] ++ Y3')
  | _, _ => None
  end.

(** lines 244-314: the loop over the pairs *)
Definition iss2 (phi : seq rrow) (ps : seq (nat * nat)) (Y : seq crow) : option (seq crow) :=
  foldl (fun o p => if o is Some Z then iss2_step phi Z p else None) (Some Y) ps.
End ISS2.
Arguments iss2_step : simpl never.
