(** Model of CACGMM, /repo/ssspy/bss/cacgmm.py (complex angular central Gaussian mixture model).

    Indices: sources n, bins i, channels m, frames t.  [None] is an exception or a non-finite value
    (an intermediate [-inf], from the logarithm of a zero mixing weight, counts as one).  The random
    initialisation (lines 158-191) is an argument; the permutation found by the solvers of
    PermAlign.v is an argument of [permute]. *)
From Coq Require Import Reals String.
From mathcomp Require Import all_ssreflect all_algebra all_fingroup.
From Verif Require Import RStruct MxC CxR NpLin NmfReal Eigh Special.
Import Order.TTheory GRing.Theory Num.Theory.
Set Implicit Arguments.
Unset Strict Implicit.
Unset Printing Implicit Defensive.
Local Open Scope ring_scope.

Section CACGMM.
Variables (N M F T : nat) (fl : R -> R) (eig : eigh_t).
Notation spec := ('I_F -> 'M[Cx]_(M, T)).
Notation post := ('I_F -> 'I_N -> 'I_T -> R).
(** the attributes [mixing] and [covariance] *)
Record params := Params { mixing : 'I_F -> 'I_N -> R; covariance : 'I_F -> 'I_N -> 'M[Cx]_M }.

Definition all_bins (p : 'I_F -> bool) : bool := [forall i, p i].
Definition all_cells (p : 'I_F -> 'I_N -> 'I_T -> bool) : bool := [forall i, [forall n, [forall t, p i n t]]].

(** lines 141-145 of [_reset]: observation divided by its floored norm over the channels *)
Definition chan_norm (X : spec) i t : R := R_sqrt.sqrt (\sum_m cabs (X i m t) ^+ 2).
Definition unit_input (X : spec) : option spec :=
  if all_bins (fun i => [forall t, fl (chan_norm X i t) != 0]) then
    Some (fun i => \matrix_(m, t) (X i m t * c (/ fl (chan_norm X i t))%coqR))
  else None.

(** lines 652-657: real part of [z^H B^-1 z], clipped at 0 and floored *)
Definition zbz (Z : spec) (B : 'I_F -> 'I_N -> 'M[Cx]_M) i n t : R :=
  fl (Rmax (re (form (invmx (B i n)) (col t (Z i)) (col t (Z i)))) 0).
(** lines 659-660 *)
Definition log_gamma (Z : spec) (p : params) i n t : R :=
  (ln (mixing p i n) - ln (cabs (\det (covariance p i n))) - INR M * ln (zbz Z (covariance p) i n t))%coqR.
(** the values of lines 653-660 are finite *)
Definition log_gamma_ok (Z : spec) (p : params) : bool :=
  [forall i, [forall n, (covariance p i n \in unitmx) && Rltb 0 (mixing p i n)]] &&
  all_cells (fun i n t => Rltb 0 (zbz Z (covariance p) i n t)).
Definition column (f : 'I_N -> R) : list R := [seq f n | n <- enum 'I_N].

(** lines 629-664 [update_posterior]; also the branch without posterior of [separate], lines
    580-597 *)
Definition update_posterior (Z : spec) (p : params) : option post :=
  if log_gamma_ok Z p && all_bins (fun i => [forall t : 'I_T, isSome (softmax (column (fun n => log_gamma Z p i n t)))]) then
    Some (fun i (n : 'I_N) t => nth 0 (odflt [::] (softmax (column (fun n => log_gamma Z p i n t)))) n)
  else None.

(** lines 694-701 *)
Definition scatter (Z : spec) (p : params) (g : post) i n : 'M[Cx]_M :=
  \matrix_(a, b) (M%:R * ((\sum_t c (g i n t / zbz Z (covariance p) i n t)%coqR * (Z i a t * (Z i b t)^*)) /
                          c (\sum_t g i n t))).
(** lines 666-705 [update_parameters] *)
Definition update_parameters (Z : spec) (p : params) (g : post) : option params :=
  if [&& T != 0%N, [forall i, [forall n, (covariance p i n \in unitmx) && (\sum_t g i n t != 0)]] &
      all_cells (fun i n t => zbz Z (covariance p) i n t != 0)] then
    Some {| mixing := fun i n => ((T%:R)^-1 * \sum_t g i n t)%R;
            covariance := fun i n => to_psd eig fl (scatter Z p g i n) |}
  else None.
(** lines 207-222 [normalize_covariance] *)
Definition normalize_covariance (p : params) : option params :=
  if [forall i, [forall n, re (\tr (covariance p i n)) != 0]] then
    Some {| mixing := mixing p; covariance := fun i n => (c (re (\tr (covariance p i n))))^-1 *: covariance p i n |}
  else None.
(** lines 603-627 [update_once] *)
Definition update_once (normalization : bool) (Z : spec) (p : params) : option (params * post) :=
  if update_posterior Z p is Some g then
    if update_parameters Z p g is Some p' then
      if normalization then omap (fun q => (q, g)) (normalize_covariance p') else Some (p', g)
    else None
  else None.
(** [n_iter] updates *)
Fixpoint iterate (normalization : bool) (k : nat) (Z : spec) (p : params) : option params :=
  if k is k'.+1 then
    if update_once normalization Z p is Some (p', _) then iterate normalization k' Z p' else None
  else Some p.

(** lines 707-738 [compute_loss] *)
Definition compute_loss (Z : spec) (p : params) : option R :=
  if [&& T != 0%N, log_gamma_ok Z p & N != 0%N] then
    Some (\sum_i ((T%:R)^-1 * \sum_t - odflt 0 (logsumexp (column (fun n => log_gamma Z p i n t)))))%R
  else None.

(** lines 599-601 of [separate]: masks applied to the reference channel *)
Definition mask (X : spec) (r : 'I_M) (g : post) : 'I_F -> 'I_N -> 'I_T -> Cx := fun i n t => c (g i n t) * X i r t.

(** lines 333-335, 362-364, 405-407, 412-414: in every bin the weights, the covariances and the
    posteriors are reordered by the permutation of the solver *)
Definition permute (s : 'I_F -> {perm 'I_N}) (p : params) (g : post) : params * post :=
  ({| mixing := fun i n => mixing p i (s i n); covariance := fun i n => covariance p i (s i n) |},
   fun i n t => g i (s i n) t).
(** lines 508-544 [__call__]: final parameters, posteriors and output *)
Definition call (normalization : bool) (k : nat) (solver : params -> post -> option ('I_F -> {perm 'I_N}))
    (r : 'I_M) (X : spec) (p0 : params) : option (params * post * ('I_F -> 'I_N -> 'I_T -> Cx)) :=
  if unit_input X is Some Z then
    if iterate normalization k Z p0 is Some p then
      if update_posterior Z p is Some g then
        if solver p g is Some s then
          let: (p', g') := permute s p g in Some (p', g', mask X r g')
        else None
      else None
    else None
  else None.
End CACGMM.

(** ** Options.  [permutation_alignment] is a boolean or a string. *)
Inductive pa_opt := PaBool (b : bool) | PaStr (s : string).
Inductive pa_target := Posterior | Amplitude.
Inductive pa_res := PaScore (tg : pa_target) | PaCorrelation (tg : pa_target) | PaAssertion | PaNotImplemented.
Local Open Scope string_scope.
Definition str_in (s : string) (l : seq string) : bool := has (String.eqb s) l.
Definition truthy (o : pa_opt) : bool := match o with PaBool b => b | PaStr s => ~~ String.eqb s "" end.
(** lines 394: only amplitudes are supported *)
Definition solve_by_correlation (tg : pa_target) : pa_res :=
  match tg with Amplitude => PaCorrelation Amplitude | Posterior => PaAssertion end.
(** lines 246-288 [solve_permutation] *)
Definition solve_permutation (o : pa_opt) : pa_res :=
  if ~~ truthy o then PaAssertion else
  let s := match o with PaBool _ => "posterior_score" | PaStr s => s end in
  let tg := if str_in s [:: "posterior_score"; "posterior_correlation"] then Some Posterior
            else if str_in s [:: "amplitude_score"; "amplitude_correlation"] then Some Amplitude else None in
  match tg with
  | None => PaNotImplemented
  | Some tg =>
    if str_in s [:: "posterior_score"; "amplitude_score"] then PaScore tg
    else if str_in s [:: "posterior_correlation"; "amplitude_correlation"] then solve_by_correlation tg
    else PaNotImplemented
  end.
(** lines 538-539 of [__call__] *)
Definition call_permutation (o : pa_opt) : option pa_res := if truthy o then Some (solve_permutation o) else None.
(** lines 491-506: keywords accepted by the constructor; [None] is an AssertionError *)
Definition init_keywords (o : pa_opt) (keys : seq string) : option (seq string) :=
  let valid := match o with
    | PaBool b => if b then [:: "global_iter"; "local_iter"] else [::]
    | PaStr s => if str_in s [:: "posterior_score"; "amplitude_score"] then [:: "global_iter"; "local_iter"] else [::]
    end in
  if all (fun k => str_in k valid) keys then Some keys else None.
