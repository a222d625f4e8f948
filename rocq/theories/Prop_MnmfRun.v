(** C84: calls of FastGaussMNMF complete, never increase the loss and return signals that sum
    to the reference channel. *)
From Coq Require Import Reals Lra FunctionalExtensionality.
From mathcomp Require Import all_ssreflect all_algebra.
From mathcomp Require Import ring.
From Verif Require Import RStruct MxC CxR NpLin RealLemmas NmfReal NmfMM Eigh EighProofs.
From Verif Require Import SpatialIP SpatialIP2 Scale AuxIVA AuxIVARun AuxIVACall Prop_AuxIVA Prop_AuxIVAFloor Prop_AuxIVARun.
From Verif Require Import Ilrma IlrmaProofs Mnmf MnmfMM MnmfFast Prop_Mnmf MnmfRun Prop_MnmfFast.
Import Order.TTheory GRing.Theory Num.Theory.
Set Implicit Arguments.
Unset Strict Implicit.
Unset Printing Implicit Defensive.
Local Open Scope ring_scope.

Section Fast.
Variables (N M F T K : nat) (eig : eigh_t) (chol : chol_t).
Notation state := (fast_state N M F T K).
Notation spec := ('I_F -> 'M[Cx]_(M, T)).
Implicit Types (s : state) (X : spec).
Hypotheses (N0 : (0 < N)%N) (M0 : (0 < M)%N) (F0 : (0 < F)%N) (T0 : (0 < T)%N) (K0 : (0 < K)%N).
Hypotheses (He : eigh_contract eig) (Hc : chol_contract chol).

(** invertible diagonalisers, positive parameters *)
Definition proper s : Prop :=
  [/\ forall i, fs_Q s i \in unitmx, forall i n m, (0 < fs_D s i n m)%coqR,
      forall n i k, (0 < fs_B s n i k)%coqR & forall n k j, (0 < fs_V s n k j)%coqR].

Lemma state_loss_some X s : proper s -> exists l, state_loss X s = Some l.
Proof.
case=> uQ D0 B0 V0; eexists; apply: (fast_lossE N0 T0) => // n i j; exact: recon_gt0.
Qed.
Lemma psi_live X Q m : (forall i, Q i \in unitmx) -> (forall i, row_free (X i)) ->
  (0 < fast_psi identity_fl X Q m)%coqR.
Proof.
move=> uQ fX; rewrite /fast_psi /identity_fl; apply: sqrt_lt_R0.
apply: Rmult_lt_0_compat.
  have h : (0 < INR (F * T))%coqR by apply: lt_0_INR; apply/ssrnat.ltP; rewrite muln_gt0 F0.
  by rewrite -RnatE -RinvE; [exact: Rinv_0_lt_compat|lra].
have [j hj] := qx_live m (uQ (Ordinal F0)) (fX (Ordinal F0)).
apply: (@sumR_gt0 _ _ (Ordinal F0)) => [i|].
  by apply: sumR_ge0 => t _; exact: pow2_ge_0.
apply: (@sumR_gt0 _ _ j) => [t|]; first exact: pow2_ge_0.
exact: pow_lt.
Qed.
Lemma step_mono a nrm X s : distinct_f a -> (forall i, row_free (X i)) -> (forall j, exists i, col j (X i) != 0) ->
  proper s -> exists s' l l', [/\ fast_step identity_fl eig chol a nrm X s = Some s', proper s',
    state_loss X s = Some l, state_loss X s' = Some l' & (l' <= l)%coqR].
Proof.
case: s => Q D B V ds fX cX [/= uQ D0 B0 V0].
have [B1 [l0 [l1 [eB B10 L0 L1 le1]]]] := C52_basis_no_flooring N0 M0 T0 K0 uQ fX D0 B0 V0.
have [V1 [l1' [l2 [eV V10 L1' L2 le2]]]] := C52_activation_no_flooring N0 M0 F0 T0 K0 uQ cX D0 B10 V0.
have R0 n i j : (0 < recon B1 V1 n i j)%coqR by apply: recon_gt0.
have [Q1 [l2' [l3 [eQ uQ1 L2' L3 le3]]]] : exists Q' l l', [/\ fast_diag identity_fl eig chol a X D (recon B1 V1) Q = Some Q',
    forall i, Q' i \in unitmx, fast_loss X Q D (recon B1 V1) = Some l, fast_loss X Q' D (recon B1 V1) = Some l' & (l' <= l)%coqR].
  case: a ds => [|ps] ds; first exact: C52_diag_ip1_no_flooring.
  exact: C52_diag_ip2.
have [D1 [l3' [l4 [eD D10 L3' L4 le4]]]] := @C52_spatial N M F T X Q1 D (recon B1 V1) N0 T0 uQ1 fX D0 R0.
have le : (l4 <= l0)%coqR.
  have := L1'; rewrite L1 => -[h1]; have := L2'; rewrite L2 => -[h2]; have := L3'; rewrite L3 => -[h3].
  by rewrite -h1 in le2; rewrite -h2 in le3; rewrite -h3 in le4; lra.
rewrite /fast_step eB eV eQ eD; case: nrm; last first.
  by exists (FastState Q1 D1 B1 V1), l0, l4.
have p0 m := psi_live m uQ1 fX.
case e2 : (fast_norm identity_fl X Q1 D1) => [[Q2 D2]|]; last first.
  move: e2; rewrite /fast_norm ifT //; apply/andP; split; first by rewrite -lt0n muln_gt0 F0.
  by apply/forallP => m; apply/eqP; have := p0 m; toR; lra.
have [eL _ _] := C51_fast (fun n A => (0, A)) (recon B1 V1) (Ordinal M0) (fun x h => h) e2.
exists (FastState Q2 D2 B1 V1), l0, l4; split=> //; last by rewrite /state_loss /= eL.
move: e2; rewrite /fast_norm; case: ifP => // _ [<- <-]; split=> //= [i|i n m].
  rewrite fast_normE unitmx_mul uQ1 andbT unitmxE det_diag unitfE; apply/prodf_neq0 => m _.
  by rewrite mxE invr_eq0 c_eq0; apply/eqP; have := p0 m; toR; lra.
by apply: Rdiv_lt_0_compat => //; apply: pow_lt.
Qed.

(** C84: without flooring, for IP1 and IP2, with and without normalisation, every run completes
    and the recorded losses never increase *)
Theorem C84_run a nrm X s k : distinct_f a -> (forall i, row_free (X i)) -> (forall j, exists i, col j (X i) != 0) ->
  proper s -> exists s' ls, [/\ fast_run identity_fl eig chol a nrm X k s = Some (s', ls), proper s',
    size ls = k.+1 & non_increasing ls].
Proof.
move=> ds fX cX ps.
have [|||s' [ls [e I sz w]]] := @recorded_along _ (fast_step identity_fl eig chol a nrm X) (state_loss X) 0%coqR proper (fun _ => True) _ _ k s ps.
- by move=> u pu; exact: state_loss_some.
- move=> u pu _; have [s' [l [l' [? ? ? ? ?]]]] := step_mono nrm ds fX cX pu.
  by exists s', l, l'; split=> //; lra.
- exact: alongT.
by exists s', ls; split=> //; exact: within0.
Qed.
(** ... and the returned signals sum to the reference channel in every bin and frame *)
Theorem C84_call a nrm X (r : 'I_M) s k : distinct_f a -> (forall i, row_free (X i)) ->
  (forall j, exists i, col j (X i) != 0) -> proper s ->
  exists Y ls, [/\ fast_call identity_fl eig chol a nrm X r k s = Some (Y, ls),
    forall i j, \sum_n Y n i j = X i r j, size ls = k.+1 & non_increasing ls].
Proof.
move=> ds fX cX ps.
have sep u : proper u -> exists2 Y, state_separate identity_fl eig X r u = Some Y & forall i j, \sum_n Y n i j = X i r j.
  case=> uQ D0 B0 V0; apply: C50_fast_no_flooring => // i m j; apply/eqP.
  have : (0 < lambd (recon (fs_B u) (fs_V u)) (fs_D u) i m j)%coqR; last by toR; lra.
  apply: (@sumR_gt0 _ _ (Ordinal N0)) => [n|]; last by apply: Rmult_lt_0_compat => //; exact: recon_gt0.
  by apply: Rlt_le; apply: Rmult_lt_0_compat => //; exact: recon_gt0.
have [Y0 e0 _] := sep s ps.
have [s' [ls [e ps' sz w]]] := C84_run nrm k ds fX cX ps.
have [Y e1 hY] := sep s' ps'.
by exists Y, ls; rewrite /fast_call e0 e e1.
Qed.
(** with the flooring function [max_flooring(eps)], [eps] at most 1, and IP1 *)
Theorem C84_run_flooring eps nrm X s k : (0 < eps <= 1)%coqR -> (forall i, row_free (X i)) -> fast_ok eps s ->
  exists s' ls, [/\ fast_run (max_flooring eps) eig chol (FIP1 M) nrm X k s = Some (s', ls), fast_ok eps s',
    size ls = k.+1 & non_increasing ls].
Proof.
move=> he fX ok.
have E u : fast_step (max_flooring eps) eig chol (FIP1 M) nrm X u = fast_once (max_flooring eps) nrm X u.
  case: u => Q D B V; rewrite /fast_step /fast_once; case: (fast_basis _ _ _ _ _ _) => // B1.
  case: (fast_activation _ _ _ _ _ _) => // V1; rewrite /fast_diag; case: (fast_diag_ip1 _ _ _ _ _) => // Q1.
  by case: (fast_spatial _ _ _ _) => // D1; case: nrm => //; case: (fast_norm _ _ _ _) => // -[].
have [|||s' [ls [e I sz w]]] := @recorded_along _ (fast_step (max_flooring eps) eig chol (FIP1 M) nrm X) (state_loss X) 0%coqR (fast_ok eps) (fun _ => True) _ _ k s ok.
- move=> u ou; have [s' [l [_ [_ _ el _ _]]]] := C52_once nrm he N0 M0 F0 T0 K0 fX ou.
  by exists l.
- move=> u ou _; have [s' [l [l' [? ? ? ? ?]]]] := C52_once nrm he N0 M0 F0 T0 K0 fX ou.
  by rewrite E; exists s', l, l'; split=> //; lra.
- exact: alongT.
by exists s', ls; split=> //; exact: within0.
Qed.
End Fast.

(** the signals and the last recorded loss are those of the same parameters, the first loss is
    that of the initial ones *)
Lemma recorded_ends S (step : S -> option S) (loss : S -> option R) k s s' ls :
  recorded step loss k s = Some (s', ls) -> loss s = Some (head 0%coqR ls) /\ loss s' = Some (last 0%coqR ls).
Proof.
elim: k s ls => [|k IH] s ls /=; first by case e: (loss s) => [l|//] [<- <-].
case el: (loss s) => [l|//]; case: (step s) => [s1|//]; case e: (recorded _ _ _ _) => [[s2 l2]|//] [es <-]; rewrite es in e.
split=> //; have [_ ->] := IH _ _ e; congr Some.
by case: k {IH} e => [|k] /=; case: (loss s1) => //= x; [case=> _ <-|case: (step s1) => // s3; case: (recorded _ _ _ _) => // -[? ?] [_ <-]].
Qed.
Theorem C84_call_state N M F T K fl eig chol a nrm (X : 'I_F -> 'M[Cx]_(M, T)) (r : 'I_M) (s : fast_state N M F T K) k Y ls :
  fast_call fl eig chol a nrm X r k s = Some (Y, ls) -> exists Q D (B : 'I_N -> 'I_F -> 'I_K -> R) V,
  [/\ fast_loss X (fs_Q s) (fs_D s) (recon (fs_B s) (fs_V s)) = Some (head 0%coqR ls),
      fast_loss X Q D (recon B V) = Some (last 0%coqR ls) & fast_separate fl eig X Q D (recon B V) r = Some Y].
Proof.
rewrite /fast_call; case: (state_separate _ _ _ _ _) => [_|//].
case e: (fast_run _ _ _ _ _ _ _ _) => [[s' l']|//]; case es: (state_separate _ _ _ _ _) => [Y'|//] [<- <-].
have [h1 h2] := recorded_ends e.
by exists (fs_Q s'), (fs_D s'), (fs_B s'), (fs_V s').
Qed.

(** the state of C52's example *)
Example C84_instance a nrm r k : distinct_f a -> exists eig chol Y ls,
  [/\ eigh_contract eig /\ chol_contract chol,
      fast_call identity_fl eig chol a nrm iXs r k i_fast = Some (Y, ls),
      forall i j, \sum_n Y n i j = iXs i r j & size ls = k.+1 /\ non_increasing ls].
Proof.
move=> ds; have [eig He] := eigh_contract_sat; have [chol Hc] := chol_contract_sat.
have [||Y [ls [e hY sz w]]] := @C84_call 2 2 2 2 2 eig chol isT isT isT isT isT He Hc a nrm iXs r i_fast k ds iXs_free.
- move=> j; exists 0; apply/eqP => /matrixP/(_ j 0)/eqP; rewrite !mxE eqxx.
  by rewrite pnatr_eq0.
- by have [uQ D0 B0 V0] := i_fast_ok; split=> // n i l; have := B0 n i l; lra.
by exists eig, chol, Y, ls.
Qed.
