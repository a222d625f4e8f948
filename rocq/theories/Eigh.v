(** Model of /repo/ssspy/linalg/{inv,eigh,sqrtm,mean}.py and
    /repo/ssspy/special/psd.py.  The LAPACK routines behind [np.linalg.eigh] and
    [np.linalg.cholesky] are parameters; what is assumed about them is
    [eigh_contract] and [chol_contract] below. *)
From Coq Require Import Reals.
From mathcomp Require Import all_ssreflect all_algebra.
From Verif Require Import RStruct MxC CxR NpLin.
Import Order.TTheory GRing.Theory Num.Theory.
Set Implicit Arguments.
Unset Strict Implicit.
Unset Printing Implicit Defensive.
Local Open Scope ring_scope.

(** Results of functions that raise: [LinAlgError] also stands for non-finite
    values. *)
Inductive res (A : Type) := Ok of A | LinAlgError | ValueError.
Arguments LinAlgError {A}.
Arguments ValueError {A}.

Definition rdiag n (d : 'rV[R]_n) : 'M[Cx]_n := diag_mx (map_mx c d).

Definition eigh_t := forall n, 'M[Cx]_n -> 'rV[R]_n * 'M[Cx]_n.
Definition chol_t := forall n, 'M[Cx]_n -> option 'M[Cx]_n.

(** What is assumed of [np.linalg.eigh]: on a Hermitian matrix it returns real
    eigenvalues in ascending order and a unitary matrix of eigenvectors. *)
Definition eigh_spec n (A : 'M[Cx]_n) (r : 'rV[R]_n * 'M[Cx]_n) : Prop :=
  [/\ r.2^H *m r.2 = 1%:M, A *m r.2 = r.2 *m rdiag r.1 &
      forall i j : 'I_n, (i <= j)%N -> (r.1 0%R i <= r.1 0%R j)%coqR].
Definition eigh_contract (eig : eigh_t) : Prop :=
  forall n (A : 'M[Cx]_n), A^H = A -> eigh_spec A (eig n A).
(** What is assumed of [np.linalg.cholesky]: on a positive definite matrix it
    returns a factor with [L L^H = B] (triangularity is not needed). *)
Definition chol_contract (chol : chol_t) : Prop :=
  forall n (B : 'M[Cx]_n), pd B -> exists2 L, chol n B = Some L & L *m L^H = B.

(** /repo/ssspy/linalg/inv.py:39-54 *)
Definition inv2 (X : 'M[Cx]_2) : option 'M[Cx]_2 :=
  let a := X 0 0 in let b := X 0 1 in let c' := X 1 0 in let d := X 1 1 in
  let det := a * d - b * c' in
  let X_adj := \matrix_(i, j) if i == 0 then (if j == 0 then d else - b)
                              else (if j == 0 then - c' else a) in
  if det == 0 then None else Some (det^-1 *: X_adj).

(** [np.linalg.inv] *)
Definition np_inv n (A : 'M[Cx]_n) : option 'M[Cx]_n :=
  if A \in unitmx then Some (invmx A) else None.

Section Routines.
Variables (eig : eigh_t) (chol : chol_t).

(** /repo/ssspy/linalg/eigh.py:164-207 [_eigh(A, B, type, inv)] *)
Definition geigh n (inv : 'M[Cx]_n -> option 'M[Cx]_n) (A B : 'M[Cx]_n) (type : nat) :
    res ('rV[R]_n * 'M[Cx]_n) :=
  if chol B is Some L then
    if type == 1%N then
      if inv L is Some L_inv then
        let: (lamb, y) := eig (L_inv *m A *m L_inv^H) in Ok (lamb, L_inv^H *m y)
      else LinAlgError
    else if type == 2%N then
      if inv L^H is Some L_inv_Hermite then
        let: (lamb, y) := eig (L^H *m A *m L) in Ok (lamb, L_inv_Hermite *m y)
      else LinAlgError
    else if type == 3%N then
      let: (lamb, y) := eig (L^H *m A *m L) in Ok (lamb, L *m y)
    else ValueError
  else LinAlgError.

(** /repo/ssspy/linalg/eigh.py:79-84 and 156-161 *)
Definition eigh n (A B : 'M[Cx]_n) (type : nat) := geigh (@np_inv n) A B type.
Definition eigh2 (A B : 'M[Cx]_2) (type : nat) := geigh inv2 A B type.

(** [P @ diag(Lamb) @ P^H] *)
Definition recompose n (lamb : 'rV[R]_n) (P : 'M[Cx]_n) : 'M[Cx]_n :=
  P *m rdiag lamb *m P^H.

(** /repo/ssspy/linalg/sqrtm.py:18-27 *)
Definition sqrtmh n (X : 'M[Cx]_n) : option 'M[Cx]_n :=
  let: (lamb, P) := eig X in
  if [forall i, Rleb 0 (lamb 0 i)] then
    Some (recompose (map_mx R_sqrt.sqrt lamb) P)
  else None.

(** /repo/ssspy/linalg/sqrtm.py:48-64 *)
Definition invsqrtmh n (fl : R -> R) (X : 'M[Cx]_n) : option 'M[Cx]_n :=
  let: (lamb, P) := eig X in
  if [forall i, Rleb 0 (lamb 0 i) && (fl (R_sqrt.sqrt (lamb 0 i)) != 0)] then
    Some (recompose (map_mx (fun l => / fl (R_sqrt.sqrt l))%coqR lamb) P)
  else None.

(** /repo/ssspy/linalg/mean.py:66-83 *)
Definition gmeanmh n (A B : 'M[Cx]_n) (type : nat) : res 'M[Cx]_n :=
  match eigh A B type with
  | Ok (lamb, Z) =>
    if ~~ [forall i, Rleb 0 (lamb 0 i)] then LinAlgError else
    if np_inv Z is Some Z_inv then
      let ZLZ := Z *m rdiag (map_mx R_sqrt.sqrt lamb) *m Z_inv in
      if type == 1%N then Ok (B *m ZLZ)
      else if type == 2%N then
        if np_inv A is Some A_inv then Ok (A_inv *m ZLZ) else LinAlgError
      else if type == 3%N then
        if np_inv B is Some B_inv then Ok (B_inv *m ZLZ) else LinAlgError
      else ValueError
    else LinAlgError
  | LinAlgError => LinAlgError
  | ValueError => ValueError
  end.

(** Hermitian part, /repo/ssspy/special/psd.py:50-53 and 66-69 *)
Definition hpart n (X : 'M[Cx]_n) : 'M[Cx]_n := 2%:R^-1 *: (X + X^H).

(** /repo/ssspy/special/psd.py:38-71 (the axis assertion is not modelled) *)
Definition to_psd n (fl : R -> R) (X : 'M[Cx]_n) : 'M[Cx]_n :=
  let: (lamb, P) := eig (hpart X) in
  hpart (recompose (map_mx fl lamb) P).

(** /repo/ssspy/bss/_update_spatial_model.py:611-645 *)
Definition psd_inv n (fl : R -> R) (X : 'M[Cx]_n) : option 'M[Cx]_n :=
  let: (lamb, P) := eig X in
  if [forall i, fl (lamb 0 i) != 0] then
    Some (recompose (map_mx (fun l => / fl l)%coqR lamb) P)
  else None.

End Routines.
