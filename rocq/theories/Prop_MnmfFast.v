(** C52: FastGaussMNMF updates never increase the loss. *)
From Coq Require Import Reals Lra Psatz FunctionalExtensionality.
From mathcomp Require Import all_ssreflect all_algebra.
From mathcomp Require Import ring.
From Verif Require Import RStruct MxC CxR NpLin RealLemmas NmfReal NmfMM Eigh EighProofs Prop_Linalg.
From Verif Require Import SpatialIP SpatialIPProofs Prop_IP1 SpatialISS SpatialISSProofs SpatialIP2 Prop_IP2.
From Verif Require Import Scale AuxIVA AuxIVAProofs Prop_AuxIVAFloor Ilrma IlrmaReal IlrmaProofs Prop_IlrmaRef.
From Verif Require Import TraceMM MnmfMM Mnmf MnmfGauss MnmfFast Prop_Mnmf.
Import Order.TTheory GRing.Theory Num.Theory.
Set Implicit Arguments.
Unset Strict Implicit.
Unset Printing Implicit Defensive.
Local Open Scope ring_scope.
Arguments pow : simpl never.

Section Fast.
Variables (N M F T K : nat).
Notation cells := ('I_N -> 'I_F -> 'I_T -> R).
Notation basis := ('I_N -> 'I_F -> 'I_K -> R).
Notation activ := ('I_N -> 'I_K -> 'I_T -> R).
Notation spec := ('I_F -> 'M[Cx]_(M, T)).
Notation diagz := ('I_F -> 'M[Cx]_M).
Notation dspat := ('I_F -> 'I_N -> 'I_M -> R).
Implicit Types (B : basis) (V : activ) (L : cells) (X : spec) (Q : diagz) (D : dspat).

Lemma qx_live X Q i m : Q i \in unitmx -> row_free (X i) -> exists j, (0 < qx X Q i m j)%coqR.
Proof.
move=> uQ fX.
have fQ : row_free (Q i *m X i) by rewrite /row_free mxrankMfree // mxrank_unit.
have : row m (Q i *m X i) != 0.
  apply/negP => /eqP e; move: (fQ); rewrite -kermx_eq0 => /eqP k0.
  have : (delta_mx 0 m : 'rV[Cx]_M) *m (Q i *m X i) == 0 by rewrite -rowE e.
  by rewrite mulmx_free_eq0 // => /eqP/matrixP/(_ 0 m)/eqP; rewrite !mxE !eqxx oner_eq0.
case/rV0Pn => j; rewrite mxE => nz; exists j; rewrite /qx.
have [//|e] := cabs_ge0 ((Q i *m X i) m j).
by move/eqP: nz; case; apply/eqP; rewrite -cabs_eq0; apply/eqP.
Qed.

Lemma pos_of eps (x : R) : (0 < eps)%coqR -> (eps <= x)%coqR -> (0 < x)%coqR.
Proof. by lra. Qed.

(** ** one update at a time, [max_flooring] *)
Theorem C52_basis eps X Q D B V : (0 < eps)%coqR -> (0 < N)%N -> (0 < M)%N -> (0 < T)%N -> (0 < K)%N ->
  (forall i, Q i \in unitmx) -> (forall i n m, (0 < D i n m)%coqR) ->
  (forall n i k, (eps <= B n i k)%coqR) -> (forall n k j, (0 < V n k j)%coqR) ->
  exists B' l l', [/\ fast_basis (max_flooring eps) X Q D B V = Some B', forall n i k, (eps <= B' n i k)%coqR,
    fast_loss X Q D (recon B V) = Some l, fast_loss X Q D (recon B' V) = Some l' & (l' <= l)%coqR].
Proof.
move=> e0 N0 M0 T0 K0 uQ D0 Be V0.
have B0 n i k := pos_of e0 (Be n i k).
have [B' [eB B'0 B'e le]] := fast_basis_step (@max_floor_nonneg eps) N0 T0 K0 M0 B0 V0 D0
  (fun n i k _ => Be n i k) (or_introl e0 : flive_b eps X Q).
exists B'; do 2 eexists; split; [exact: eB|exact: B'e| | |exact: le];
  by apply: (fast_lossE N0 T0) => // n i j; apply: recon_gt0.
Qed.
Theorem C52_activation eps X Q D B V : (0 < eps)%coqR -> (0 < N)%N -> (0 < M)%N -> (0 < F)%N -> (0 < T)%N -> (0 < K)%N ->
  (forall i, Q i \in unitmx) -> (forall i n m, (0 < D i n m)%coqR) ->
  (forall n i k, (0 < B n i k)%coqR) -> (forall n k j, (eps <= V n k j)%coqR) ->
  exists V' l l', [/\ fast_activation (max_flooring eps) X Q D B V = Some V', forall n k j, (eps <= V' n k j)%coqR,
    fast_loss X Q D (recon B V) = Some l, fast_loss X Q D (recon B V') = Some l' & (l' <= l)%coqR].
Proof.
move=> e0 N0 M0 F0 T0 K0 uQ D0 B0 Ve.
have V0 n k j := pos_of e0 (Ve n k j).
have [V' [eV V'0 V'e le]] := fast_activation_step (@max_floor_nonneg eps) N0 K0 M0 F0 B0 V0 D0
  (fun n k j _ => Ve n k j) (or_introl e0 : flive_a eps X Q).
exists V'; do 2 eexists; split; [exact: eV|exact: V'e| | |exact: le];
  by apply: (fast_lossE N0 T0) => // n i j; apply: recon_gt0.
Qed.
(** the same without flooring: no bin and no frame may be silent *)
Theorem C52_basis_no_flooring X Q D B V : (0 < N)%N -> (0 < M)%N -> (0 < T)%N -> (0 < K)%N ->
  (forall i, Q i \in unitmx) -> (forall i, row_free (X i)) -> (forall i n m, (0 < D i n m)%coqR) ->
  (forall n i k, (0 < B n i k)%coqR) -> (forall n k j, (0 < V n k j)%coqR) ->
  exists B' l l', [/\ fast_basis identity_fl X Q D B V = Some B', forall n i k, (0 < B' n i k)%coqR,
    fast_loss X Q D (recon B V) = Some l, fast_loss X Q D (recon B' V) = Some l' & (l' <= l)%coqR].
Proof.
move=> N0 M0 T0 K0 uQ fX D0 B0 V0.
have live : flive_b 0%coqR X Q.
  by right; split=> // i; have [j h] := qx_live (Ordinal M0) (uQ i) (fX i); exists j, (Ordinal M0).
have [|B' [eB B'0 B'e le]] := fast_basis_step id_floor_nonneg N0 T0 K0 M0 B0 V0 D0 _ live.
  by move=> n i k h; lra.
exists B'; do 2 eexists; split; [exact: eB|exact: B'0| | |exact: le];
  by apply: (fast_lossE N0 T0) => // n i j; apply: recon_gt0.
Qed.
Lemma qx_frame X Q i j : Q i \in unitmx -> col j (X i) != 0 -> exists m, (0 < qx X Q i m j)%coqR.
Proof.
move=> uQ cX.
have : col j (Q i *m X i) != 0.
  rewrite colE -mulmxA -colE; apply: contraNneq cX => e.
  by rewrite -(mulKmx uQ (col j (X i))) e mulmx0.
move=> nz; have [m hm] : exists m, (Q i *m X i) m j != 0.
  apply/existsP; apply: contraR nz => /existsPn h; apply/eqP/colP => m.
  by rewrite !mxE; have := h m; rewrite negbK mxE => /eqP.
exists m; rewrite /qx; have [//|e] := cabs_ge0 ((Q i *m X i) m j).
by move/eqP: hm; case; apply/eqP; rewrite -cabs_eq0; apply/eqP.
Qed.
Theorem C52_activation_no_flooring X Q D B V : (0 < N)%N -> (0 < M)%N -> (0 < F)%N -> (0 < T)%N -> (0 < K)%N ->
  (forall i, Q i \in unitmx) -> (forall j, exists i, col j (X i) != 0) -> (forall i n m, (0 < D i n m)%coqR) ->
  (forall n i k, (0 < B n i k)%coqR) -> (forall n k j, (0 < V n k j)%coqR) ->
  exists V' l l', [/\ fast_activation identity_fl X Q D B V = Some V', forall n k j, (0 < V' n k j)%coqR,
    fast_loss X Q D (recon B V) = Some l, fast_loss X Q D (recon B V') = Some l' & (l' <= l)%coqR].
Proof.
move=> N0 M0 F0 T0 K0 uQ fX D0 B0 V0.
have live : flive_a 0%coqR X Q.
  by right; split=> // j; have [i h] := fX j; have [m hm] := qx_frame (uQ i) h; exists i, m.
have [|V' [eV V'0 V'e le]] := fast_activation_step id_floor_nonneg N0 K0 M0 F0 B0 V0 D0 _ live.
  by move=> n k j h; lra.
exists V'; do 2 eexists; split; [exact: eV|exact: V'0| | |exact: le];
  by apply: (fast_lossE N0 T0) => // n i j; apply: recon_gt0.
Qed.
(** the spatial update is never floored *)
Theorem C52_spatial X Q D L : (0 < N)%N -> (0 < T)%N ->
  (forall i, Q i \in unitmx) -> (forall i, row_free (X i)) ->
  (forall i n m, (0 < D i n m)%coqR) -> (forall n i j, (0 < L n i j)%coqR) ->
  exists D' l l', [/\ fast_spatial X Q D L = Some D', forall i n m, (0 < D' i n m)%coqR,
    fast_loss X Q D L = Some l, fast_loss X Q D' L = Some l' & (l' <= l)%coqR].
Proof.
move=> N0 T0 uQ fX D0 L0.
have [D' [eD D'0 le]] := fast_spatial_step N0 T0 L0 D0 (fun i m => qx_live m (uQ i) (fX i)).
exists D'; do 2 eexists; split; [exact: eD|exact: D'0| | |exact: le]; exact: (fast_lossE N0 T0).
Qed.

Lemma phi_pd X D L i m : (0 < N)%N -> row_free (X i) ->
  (forall i n m, (0 < D i n m)%coqR) -> (forall n i j, (0 < L n i j)%coqR) ->
  pd (wcov (fast_phi D L i) (X i) m).
Proof. by move=> N0 fX D0 L0; apply: wcov_pd => // t; exact: (fast_phi_gt0 N0). Qed.

Theorem C52_diag_ip1 eps X Q D L : (0 < eps <= 1)%coqR -> (0 < N)%N -> (0 < T)%N ->
  (forall i, Q i \in unitmx) -> (forall i, row_free (X i)) ->
  (forall i n m, (0 < D i n m)%coqR) -> (forall n i j, (0 < L n i j)%coqR) ->
  exists Q' l l', [/\ fast_diag_ip1 (max_flooring eps) X D L Q = Some Q', forall i, Q' i \in unitmx,
    fast_loss X Q D L = Some l, fast_loss X Q' D L = Some l' & (l' <= l)%coqR].
Proof.
move=> he N0 T0 uQ fX D0 L0.
rewrite /fast_diag_ip1 -lt0n T0 (lambd_nz N0) //=.
case: (@fast_diag_generic _ _ _ _ N0 X D L Q (fun i => ip1 (max_flooring eps) (wcov (fast_phi D L i) (X i)) (Q i)) L0 D0).
  move=> i; have pU m := phi_pd m N0 (fX i) D0 L0.
  have [W1 e h] := C40_sweep_monotone he pU (uQ i).
  have [|W2 e2 u2] := @C39_sweep _ (max_flooring eps) _ _ _ pU (uQ i).
    by move=> x x0; apply: Rlt_le_trans (Rmax_l _ _).
  by exists W1; split=> //; move: e2; rewrite e => -[->].
move=> Q' [eQ uQ' le]; exists Q'; do 2 eexists; split; [exact: eQ|exact: uQ'| | |exact: le]; exact: (fast_lossE N0 T0).
Qed.
Theorem C52_diag_ip1_no_flooring X Q D L : (0 < N)%N -> (0 < T)%N ->
  (forall i, Q i \in unitmx) -> (forall i, row_free (X i)) ->
  (forall i n m, (0 < D i n m)%coqR) -> (forall n i j, (0 < L n i j)%coqR) ->
  exists Q' l l', [/\ fast_diag_ip1 identity_fl X D L Q = Some Q', forall i, Q' i \in unitmx,
    fast_loss X Q D L = Some l, fast_loss X Q' D L = Some l' & (l' <= l)%coqR].
Proof.
move=> N0 T0 uQ fX D0 L0.
rewrite /fast_diag_ip1 -lt0n T0 (lambd_nz N0) //=.
case: (@fast_diag_generic _ _ _ _ N0 X D L Q (fun i => ip1 identity_fl (wcov (fast_phi D L i) (X i)) (Q i)) L0 D0).
  move=> i; have pU m := phi_pd m N0 (fX i) D0 L0.
  have [W1 e h] := C40_sweep_monotone_identity pU (uQ i).
  have [|W2 e2 u2] := @C39_sweep _ identity_fl _ _ _ pU (uQ i); first by [].
  by exists W1; split=> //; move: e2; rewrite e => -[->].
move=> Q' [eQ uQ' le]; exists Q'; do 2 eexists; split; [exact: eQ|exact: uQ'| | |exact: le]; exact: (fast_lossE N0 T0).
Qed.
Theorem C52_diag_ip2 eig chol X Q D L ps : eigh_contract eig -> chol_contract chol -> (0 < N)%N -> (0 < T)%N ->
  all (fun p => p.1 != p.2) ps ->
  (forall i, Q i \in unitmx) -> (forall i, row_free (X i)) ->
  (forall i n m, (0 < D i n m)%coqR) -> (forall n i j, (0 < L n i j)%coqR) ->
  exists Q' l l', [/\ fast_diag_ip2 identity_fl eig chol X D L ps Q = Some Q', forall i, Q' i \in unitmx,
    fast_loss X Q D L = Some l, fast_loss X Q' D L = Some l' & (l' <= l)%coqR].
Proof.
move=> He Hc N0 T0 dp uQ fX D0 L0.
rewrite /fast_diag_ip2 -lt0n T0 (lambd_nz N0) //=.
case: (@fast_diag_generic _ _ _ _ N0 X D L Q (fun i => ip2 eig chol identity_fl (wcov (fast_phi D L i) (X i)) ps (Q i)) L0 D0).
  by move=> i; exact: (C41_sweep_monotone He Hc (fun m => phi_pd m N0 (fX i) D0 L0) (uQ i) dp).
move=> Q' [eQ uQ' le]; exists Q'; do 2 eexists; split; [exact: eQ|exact: uQ'| | |exact: le]; exact: (fast_lossE N0 T0).
Qed.

(** ** a whole iteration, with or without power normalisation *)
Definition fast_ok eps (s : fast_state N M F T K) : Prop :=
  [/\ forall i, fs_Q s i \in unitmx, forall i n m, (0 < fs_D s i n m)%coqR,
      forall n i k, (eps <= fs_B s n i k)%coqR & forall n k j, (eps <= fs_V s n k j)%coqR].
Definition state_loss X (s : fast_state N M F T K) := fast_loss X (fs_Q s) (fs_D s) (recon (fs_B s) (fs_V s)).

Lemma fast_norm_ok eps X Q D Q' D' : (0 < eps)%coqR -> fast_norm (max_flooring eps) X Q D = Some (Q', D') ->
  (forall i, Q i \in unitmx) -> (forall i n m, (0 < D i n m)%coqR) ->
  (forall i, Q' i \in unitmx) /\ (forall i n m, (0 < D' i n m)%coqR).
Proof.
move=> e0; rewrite /fast_norm; case: ifP => [_|_]; last by [].
have p0 m : (0 < fast_psi (max_flooring eps) X Q m)%coqR by apply: Rlt_le_trans (Rmax_r _ _).
case=> <- <- uQ D0; split=> [i|i n m].
  rewrite fast_normE unitmx_mul uQ andbT unitmxE det_diag unitfE; apply/prodf_neq0 => m _.
  by rewrite mxE invr_eq0 c_eq0; apply/eqP; have := p0 m; toR; lra.
by apply: Rdiv_lt_0_compat => //; apply: pow_lt.
Qed.

Theorem C52_once eps nrm X s : (0 < eps <= 1)%coqR -> (0 < N)%N -> (0 < M)%N -> (0 < F)%N -> (0 < T)%N -> (0 < K)%N ->
  (forall i, row_free (X i)) -> fast_ok eps s ->
  exists s' l l', [/\ fast_once (max_flooring eps) nrm X s = Some s', fast_ok eps s',
    state_loss X s = Some l, state_loss X s' = Some l' & (l' <= l)%coqR].
Proof.
case: s => Q D B V he N0 M0 F0 T0 K0 fX [/= uQ D0 Be Ve]; have e0 : (0 < eps)%coqR by lra.
have V0 n k j := pos_of e0 (Ve n k j).
have [B1 [l0 [l1 [eB B1e L0 L1 le1]]]] := C52_basis X e0 N0 M0 T0 K0 uQ D0 Be V0.
have B10 n i k := pos_of e0 (B1e n i k).
have [V1 [l1' [l2 [eV V1e L1' L2 le2]]]] := C52_activation X e0 N0 M0 F0 T0 K0 uQ D0 B10 Ve.
have V10 n k j := pos_of e0 (V1e n k j).
have R0 n i j : (0 < recon B1 V1 n i j)%coqR by apply: recon_gt0.
have [Q1 [l2' [l3 [eQ uQ1 L2' L3 le3]]]] := @C52_diag_ip1 eps X Q D (recon B1 V1) he N0 T0 uQ fX D0 R0.
have [D1 [l3' [l4 [eD D10 L3' L4 le4]]]] := @C52_spatial X Q1 D (recon B1 V1) N0 T0 uQ1 fX D0 R0.
have le : (l4 <= l0)%coqR.
  have := L1'; rewrite L1 => -[h1]; have := L2'; rewrite L2 => -[h2]; have := L3'; rewrite L3 => -[h3].
  by rewrite -h1 in le2; rewrite -h2 in le3; rewrite -h3 in le4; lra.
rewrite /fast_once eB eV eQ eD; case: nrm; last first.
  by exists (FastState Q1 D1 B1 V1), l0, l4.
have [Q2 [D2 e2]] := C51_fast_defined X Q1 D1 e0 F0 T0.
have [uQ2 D20] := fast_norm_ok e0 e2 uQ1 D10.
have h0 x : (0 <= x)%coqR -> (0 <= max_flooring eps x)%coqR by move=> x0; apply: Rle_trans (Rmax_l _ _).
have [eL _ _] := C51_fast (fun n A => (0, A)) (recon B1 V1) (Ordinal M0) h0 e2.
rewrite e2; exists (FastState Q2 D2 B1 V1), l0, l4; split=> //; by rewrite /state_loss /= eL.
Qed.

(** any number of iterations *)
Fixpoint fast_iter fl nrm X (k : nat) (s : fast_state N M F T K) : option (fast_state N M F T K) :=
  if k is k'.+1 then if fast_once fl nrm X s is Some s1 then fast_iter fl nrm X k' s1 else None else Some s.
Theorem C52_run eps nrm X s k : (0 < eps <= 1)%coqR -> (0 < N)%N -> (0 < M)%N -> (0 < F)%N -> (0 < T)%N -> (0 < K)%N ->
  (forall i, row_free (X i)) -> fast_ok eps s ->
  exists s' l l', [/\ fast_iter (max_flooring eps) nrm X k s = Some s', fast_ok eps s',
    state_loss X s = Some l, state_loss X s' = Some l' & (l' <= l)%coqR].
Proof.
move=> he N0 M0 F0 T0 K0 fX; elim: k s => [|k IH] s ok.
  have [s' [l [l' [_ _ el _ _]]]] := C52_once nrm he N0 M0 F0 T0 K0 fX ok.
  by exists s, l, l; split=> //; exact: Rle_refl.
have [s1 [l [l1 [e1 ok1 el el1 le1]]]] := C52_once nrm he N0 M0 F0 T0 K0 fX ok.
have [s2 [l1' [l2 [e2 ok2 el1' el2 le2]]]] := IH s1 ok1.
exists s2, l, l2; split=> //; first by rewrite /= e1.
by move: el1'; rewrite el1 => -[h]; rewrite -h in le2; lra.
Qed.
End Fast.

(** two bins, two frames, two channels and sources, two basis vectors *)
Definition i_fast : fast_state 2 2 2 2 2 :=
  FastState iWs (fun _ _ _ => 1) (fun _ _ k => if k == 0 then 1 else 2%:R) (fun _ _ _ => 1).
Lemma i_fast_ok : fast_ok 1 i_fast.
Proof.
split=> /= [|i n m|n i k|n k j]; try by toR; lra.
  exact: iWs_unit.
case: ifP => _; first by toR; lra.
by rewrite -RnatE /=; toR; lra.
Qed.
Example C52_instance : forall k, exists s' l l',
  [/\ fast_iter (max_flooring 1) true iXs k i_fast = Some s', fast_ok 1 s',
      state_loss iXs i_fast = Some l, state_loss iXs s' = Some l' & (l' <= l)%coqR].
Proof. by move=> k; apply: (C52_run _ _ _ _ _ _ _ _ iXs_free i_fast_ok) => //; lra. Qed.

(** the normalisation of this state *)
Example C51_instance : exists Q' D', fast_norm (max_flooring 1) iXs (fs_Q i_fast) (fs_D i_fast) = Some (Q', D') /\
  fast_loss iXs Q' D' (recon (fs_B i_fast) (fs_V i_fast)) = state_loss iXs i_fast.
Proof.
have [Q' [D' e]] := C51_fast_defined iXs (fs_Q i_fast) (fs_D i_fast) Rlt_0_1 (isT : (0 < 2)%N) (isT : (0 < 2)%N).
exists Q', D'; split=> //.
have h0 x : (0 <= x)%coqR -> (0 <= max_flooring 1 x)%coqR by move=> x0; apply: Rle_trans (Rmax_l _ _).
by have [-> _ _] := C51_fast (fun n A => (0, A)) (recon (fs_B i_fast) (fs_V i_fast)) 0 h0 e.
Qed.

Print Assumptions C52_basis.
Print Assumptions C52_activation.
Print Assumptions C52_basis_no_flooring.
Print Assumptions C52_activation_no_flooring.
Print Assumptions C52_spatial.
Print Assumptions C52_diag_ip1.
Print Assumptions C52_diag_ip1_no_flooring.
Print Assumptions C52_diag_ip2.
Print Assumptions C52_once.
Print Assumptions C52_run.
