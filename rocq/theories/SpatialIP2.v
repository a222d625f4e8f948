(** Model of the pairwise iterative projection update
    (/repo/ssspy/bss/_update_spatial_model.py:81-143 and 317-395). *)
From Coq Require Import Reals.
From mathcomp Require Import all_ssreflect all_algebra.
From Verif Require Import RStruct MxC CxR NpLin Eigh.
Import Order.TTheory GRing.Theory Num.Theory.
Set Implicit Arguments.
Unset Strict Implicit.
Unset Printing Implicit Defensive.
Local Open Scope ring_scope.

Section IP2.
Variables (eig : eigh_t) (chol : chol_t).
Variable N : nat.
Variable fl : R -> R.

(** lines 355-356: [E = eye(n_channels, n_sources); E_mn = E[:, (m, n)]] *)
Definition E_mn (m n : 'I_N) : 'M[Cx]_(N, 2) :=
  \matrix_(i, j) (i == if j == 0 then m else n)%:R.

(** lines 375-388: [hUh = maximum(real(h^H PUP h), 0); h = h / flooring_fn(sqrt(hUh))] *)
Definition scale_h (PUP : 'M[Cx]_2) (h : 'cV[Cx]_2) : option 'cV[Cx]_2 :=
  let hUh := Rmax (re ((h^H *m PUP *m h) 0 0)) 0 in
  divs h (fl (R_sqrt.sqrt hUh)).

(** lines 348-395 in one frequency bin.  The eigenvectors are used in reversed
    order (line 372). *)
Definition ip2_one_pair (W Um Un : 'M[Cx]_N) (m n : 'I_N) : option 'M[Cx]_(2, N) :=
  match solve (W *m Um) (E_mn m n), solve (W *m Un) (E_mn m n) with
  | Some Pm, Some Pn =>
    let PUPm := Pm^H *m Um *m Pm in
    let PUPn := Pn^H *m Un *m Pn in
    match eigh2 eig chol PUPm PUPn 1 with
    | Ok (_, H) =>
      match scale_h PUPm (col 1 H), scale_h PUPn (col 0 H) with
      | Some hm, Some hn => Some (row_mx (Pm *m hm) (Pn *m hn))^H
      | _, _ => None
      end
    | _ => None
    end
  | _, _ => None
  end.

(** lines 137-141: [W[:, pair, :] = update_by_ip2_one_pair(...)] *)
Definition ip2_step (U : 'I_N -> 'M[Cx]_N) (W : 'M[Cx]_N) (p : 'I_N * 'I_N) :
    option 'M[Cx]_N :=
  let: (m, n) := p in
  if ip2_one_pair W (U m) (U n) m n is Some Wmn then
    Some (setrow n (row 1 Wmn) (setrow m (row 0 Wmn) W))
  else None.

(** lines 136-143: loop over the pairs yielded by the pair selector *)
Definition ip2 (U : 'I_N -> 'M[Cx]_N) (ps : seq ('I_N * 'I_N)) (W : 'M[Cx]_N) :
    option 'M[Cx]_N :=
  foldl (fun o p => if o is Some V then ip2_step U V p else None) (Some W) ps.

End IP2.
Arguments ip2_step : simpl never.
