(** C71-C73: GaussIPSDTA and TIPSDTA.  The updates of the block-wise PSDTF source model and of the
    demixing filters do not increase the loss; the normalisation does not change it. *)
From Coq Require Import Reals Lra Psatz FunctionalExtensionality.
From mathcomp Require Import all_ssreflect all_algebra.
From mathcomp.algebra_tactics Require Import ring.
From Verif Require Import RStruct MxC CxR NpLin RealLemmas NmfReal NmfMM Eigh EighProofs Prop_Linalg TraceMM MnmfMM.
From Verif Require Import SpatialIP SpatialIPProofs SpatialISS AuxIVA AuxIVAProofs Mnmf MnmfGauss Prop_Mnmf.
From Verif Require Import Vcd VcdProofs Ipsdta IpsdtaProofs.
Import Order.TTheory GRing.Theory Num.Theory.
Set Implicit Arguments.
Unset Strict Implicit.
Unset Printing Implicit Defensive.
Local Open Scope ring_scope.

(** flooring of square roots of eigenvalues *)
Lemma invsqrtmh_above eig n eps (M : 'M[Cx]_n) : eigh_contract eig -> (0 < eps <= 1)%coqR -> M^H = M -> above eps M ->
  invsqrtmh eig (max_flooring eps) M = invsqrtmh eig identity_fl M.
Proof.
move=> He [e0 e1] hM aM; have s := He n _ hM; rewrite /invsqrtmh.
case: (eig n M) s => l P s.
have lo i : (eps <= l 0%R i)%coqR.
  have := aM (col i P); rewrite -(eigh_val i s) rec.
  suff -> : form 1%:M (col i P) (col i P) = 1 by rewrite re1 -R1E Rmult_1_r.
  have [uP _ _] := s; simpl in uP.
  rewrite colE formM mulmx1 uP form1E (bigD1 i) //= big1 => [|j ji].
    by rewrite mxE !eqxx cabs1 expr1n addr0 c1.
  by rewrite mxE (negbTE ji) cabs0 expr0n.
have fe i : max_flooring eps (R_sqrt.sqrt (l 0 i)) = identity_fl (R_sqrt.sqrt (l 0 i)).
  apply: Rmax_left; apply: (Rle_trans _ (R_sqrt.sqrt eps)); last exact: sqrt_le_1_alt.
  rewrite -{1}(sqrt_Rsqr eps); last lra.
  by apply: sqrt_le_1_alt; rewrite /Rsqr; nra.
have -> : [forall i, Rleb 0 (l 0 i) && (max_flooring eps (R_sqrt.sqrt (l 0 i)) != 0)] =
  [forall i, Rleb 0 (l 0 i) && (identity_fl (R_sqrt.sqrt (l 0 i)) != 0)].
  by apply: eq_forallb => i; rewrite fe.
case: ifP => // _; congr Some; congr recompose; apply/rowP => i; by rewrite !mxE fe.
Qed.

Section IPSDTA.
Variables (N T K B : nat) (d : 'I_B -> nat) (hi : 'I_B -> bool) (eig : eigh_t) (chol : chol_t).
Notation spec := (forall b, 'I_(d b) -> 'M[Cx]_(N, T)).
Notation filt := (forall b, 'I_(d b) -> 'M[Cx]_N).
Notation basis := ('I_N -> 'I_K -> forall b, 'M[Cx]_(d b)).
Notation activ := ('I_N -> 'I_K -> 'I_T -> R).
Implicit Types (X : spec) (W : filt) (Tb : basis) (V : activ).
Hypotheses (He : eigh_contract eig) (Hc : chol_contract chol).
Hypotheses (T0 : (0 < T)%N) (K0 : (0 < K)%N).

(** ** C72: normalisation *)
(** The reconstructed covariances, and with them the loss, are those of before; every basis has
    total trace 1. *)
Theorem C72_norm fl0 Tb V T' V' : psdtf_norm Tb V = Some (T', V') ->
  [/\ recon_psdtf eig fl0 T' V' = recon_psdtf eig fl0 Tb V,
      forall X W, gauss_loss hi eig fl0 X (State W T' V') = gauss_loss hi eig fl0 X (State W Tb V),
      forall nu X W, t_loss eig fl0 nu X (State W T' V') = t_loss eig fl0 nu X (State W Tb V) &
      forall n k, \sum_b re (\tr (T' n k b)) = 1].
Proof.
move=> e; have eR : recon_psdtf eig fl0 T' V' = recon_psdtf eig fl0 Tb V.
  by rewrite /recon_psdtf (rsum_norm e).
split=> // [X W|nu X W|n k]; [by rewrite /gauss_loss /= eR|by rewrite /t_loss /= eR|].
move: e; rewrite /psdtf_norm; case: ifP => // /forallP/(_ n)/forallP/(_ k) t0 [<- _].
transitivity ((bas_trace Tb n k)^-1 * bas_trace Tb n k); last by rewrite mulVf.
by rewrite [X in _ = _ * X]/bas_trace mulr_sumr; apply: eq_bigr => b _; rewrite -cV -[re _]/(rtr _) rtrZ.
Qed.
(** It is defined exactly when no basis has trace zero; positive definite bases qualify. *)
Theorem C72_defined Tb V : (psdtf_norm Tb V <> None) <-> forall n k, \sum_b re (\tr (Tb n k b)) != 0.
Proof.
rewrite /psdtf_norm; case: ifP => [/forallP h|/negP h]; split=> //.
  by move=> _ n k; have /forallP/(_ k) := h n.
by move=> h'; case: h; apply/forallP => n; apply/forallP => k; exact: h'.
Qed.
(** Normalising twice changes nothing more. *)
Theorem C72_idempotent Tb V T' V' : psdtf_norm Tb V = Some (T', V') -> psdtf_norm T' V' = Some (T', V').
Proof.
move=> e; have [_ _ _ h] := C72_norm (fun x => x) e.
rewrite /psdtf_norm ifT; last by apply/forallP => n; apply/forallP => k; rewrite /bas_trace h oner_neq0.
congr (Some (_, _)).
  apply: functional_extensionality => n; apply: functional_extensionality => k.
  by apply: functional_extensionality_dep => b; rewrite /bas_trace h c1 invr1 scale1r.
by do 3 (apply: functional_extensionality => ?); rewrite /bas_trace h mulr1.
Qed.

(** ** C71: GaussIPSDTA *)
(** no eigenvalue of a reconstructed covariance matrix is below [e] *)
Definition clear (e : R) Tb V : Prop := forall n t b, above e (\sum_k c (V n k t) *: Tb n k b).
Definition positive Tb V : Prop := (forall n k b, pd (Tb n k b)) /\ (forall n k t, (0 < V n k t)%coqR).

Lemma clear_inert e Tb V : positive Tb V -> clear e Tb V -> inertR eig (max_flooring e) Tb V.
Proof.
move=> [pT V0] cl n t b; apply: (C25_identity He); last exact: cl.
by have [] := rsum_pd n t b K0 pT V0.
Qed.

(** the operands of the Riccati equation of a basis, [T' P T' = T Q T]: averages of the inverse
    covariance and of [R^-1 y y^H R^-1] (times [w]) over the frames, weighted by the activation *)
Definition ric_P Tb V n k b : 'M[Cx]_(d b) :=
  c (T%:R)^-1 *: \sum_t c (V n k t) *: invmx (\sum_j c (V n j t) *: Tb n j b).
Definition ric_Q (w : 'I_N -> 'I_T -> R) X W Tb V n k b : 'M[Cx]_(d b) :=
  c (T%:R)^-1 *: \sum_t c (V n k t) *: (c (w n t) *:
    (invmx (\sum_j c (V n j t) *: Tb n j b) *m
      (ysep X W n t b *m (ysep X W n t b)^H) *m invmx (\sum_j c (V n j t) *: Tb n j b))).
(** no eigenvalue below the floor, in the operands and in the solution *)
Definition clear_basis (e : R) X W Tb V : Prop := forall n k b,
  let TQT := Tb n k b *m ric_Q (fun _ _ => 1) X W Tb V n k b *m Tb n k b in
  [/\ above e (ric_P Tb V n k b), above e TQT &
      forall G, pd G -> G *m ric_P Tb V n k b *m G = TQT -> above e G].

Section Gauss.
Variables (e0 e : R) (X : spec).
Arguments X : clear implicits.
Hypotheses (p0 : (0 < e)%coqR).
Notation fl0 := (max_flooring e0).
Notation fl := (max_flooring e).
Notation loss := (gauss_loss hi eig fl0 X).

Lemma ric_Q1 W Tb V n k b : bas_Q V (ryyr X W (rsum Tb V)) n k b = ric_Q (fun _ _ => 1) X W Tb V n k b.
Proof. by congr (_ *: _); apply: eq_bigr => t _; rewrite c1 scale1r. Qed.

Lemma TQT_herm n (A Q : 'M[Cx]_n) : A^H = A -> Q^H = Q -> (A *m Q *m A)^H = A *m Q *m A.
Proof. by move=> hA hQ; rewrite !ctrM hA hQ mulmxA. Qed.
Lemma ric_Q_herm w W Tb V n k b : positive Tb V -> (ric_Q w X W Tb V n k b)^H = ric_Q w X W Tb V n k b.
Proof.
move=> [pT V0]; rewrite /ric_Q ctrZ c_conj ctr_sum; congr (_ *: _); apply: eq_bigr => t _.
have [h _] := pd_inv (rsum_pd n t b K0 pT V0).
by rewrite !ctrZ !c_conj TQT_herm // ctrM ctrK.
Qed.

Lemma clear_inert_gauss W Tb V : positive Tb V -> clear_basis e X W Tb V -> inert_gauss eig fl X W Tb V.
Proof.
move=> pos cl n k b; have [aP aQ aG] := cl n k b; have [pT V0] := pos.
have hP : pd (ric_P Tb V n k b) by apply: (bas_P_pd T0 n k b V0 (fun n t b => rsum_pd n t b K0 pT V0)).
have hQ : (Tb n k b *m ric_Q (fun _ _ => 1) X W Tb V n k b *m Tb n k b)^H = Tb n k b *m ric_Q (fun _ _ => 1) X W Tb V n k b *m Tb n k b.
  by apply: TQT_herm; [exact: (proj1 (pT n k b))|exact: ric_Q_herm].
rewrite ric_Q1; split.
- by apply: (C25_identity He); [exact: (proj1 hP)|exact: aP].
- by apply: (C25_identity He); [exact: hQ|exact: aQ].
- exact: (above_pd p0 hQ aQ).
- by move=> G pG eG; apply: (C25_identity He); [exact: (proj1 pG)|exact: aG].
Qed.

(** The update of the bases is defined, keeps them positive definite, solves its Riccati
    equation and does not increase the loss. *)
Theorem C71_basis W Tb V : positive Tb V -> (forall b i, W b i \in unitmx) ->
  clear e0 Tb V -> clear_basis e X W Tb V ->
  exists T', [/\ gauss_basis eig chol fl0 fl X W Tb V = Some T', positive T' V,
    forall n k b, T' n k b *m ric_P Tb V n k b *m T' n k b =
      Tb n k b *m ric_Q (fun _ _ => 1) X W Tb V n k b *m Tb n k b &
    clear e0 T' V -> exists l l', [/\ loss (State W Tb V) = Some l,
      loss (State W T' V) = Some l' & (l' <= l)%coqR]].
Proof.
move=> pos uW cl cb; have [pT V0] := pos.
have ina := clear_inert pos cl.
have [T' [eT pT' ric le]] := gauss_basis_step T0 K0 He Hc pT V0 ina (clear_inert_gauss pos cb).
exists T'; split=> // [n k b|cl']; first by rewrite -ric_Q1; exact: ric.
have pos' : positive T' V by [].
do 2 eexists; split; last exact: le; apply: gauss_lossE => //; exact: clear_inert.
Qed.

(** The update of the activations, when no source is silent in a frame. *)
Theorem C71_activation W Tb V : positive Tb V -> (forall b i, W b i \in unitmx) -> clear e0 Tb V ->
  (forall n t, exists b, ysep X W n t b != 0) ->
  exists V', [/\ gauss_activation eig fl0 X W Tb V = Some V', positive Tb V' &
    clear e0 Tb V' -> exists l l', [/\ loss (State W Tb V) = Some l,
      loss (State W Tb V') = Some l' & (l' <= l)%coqR]].
Proof.
move=> pos uW cl ld; have [pT V0] := pos.
have [V' [eV v0 le]] := gauss_activation_step K0 pT V0 (clear_inert pos cl) ld.
have pos' : positive Tb V' by [].
exists V'; split=> // cl'; do 2 eexists; split; last exact: le; apply: gauss_lossE => //; exact: clear_inert.
Qed.

(** The update of the demixing filters, as far as the threshold of [singular_fn] does not interfere
    (see C61). *)
Definition steady W Tb V : Prop := forall b, vcd_regular (sing_floor fl)
  (vcd_cov (fun n t b => invmx (\sum_k c (V n k t) *: Tb n k b)) X b) (vpairs N (d b)) (W b).
Theorem C71_filters W Tb V : positive Tb V -> (forall b i, W b i \in unitmx) -> clear e0 Tb V ->
  (forall b i, row_free (X b i)) -> steady W Tb V ->
  exists W' l l', [/\ gauss_vcd eig fl0 fl X W Tb V = Some W', forall b i, W' b i \in unitmx,
    loss (State W Tb V) = Some l, loss (State W' Tb V) = Some l' & (l' <= l)%coqR].
Proof.
move=> pos uW cl fX st; have [pT V0] := pos; have ina := clear_inert pos cl.
have [W' [eW uW' le]] := gauss_vcd_step T0 K0 pT V0 ina fX uW st.
by exists W'; do 2 eexists; split; [exact: eW|exact: uW'| | |exact: le]; apply: gauss_lossE.
Qed.

(** a whole iteration: no floor acts along the way *)
Definition quiet (s : state N T K d) : Prop :=
  [/\ clear e0 (st_T s) (st_V s), clear_basis e X (st_W s) (st_T s) (st_V s),
     forall n t, exists b, ysep X (st_W s) n t b != 0 &
     forall T1, gauss_basis eig chol fl0 fl X (st_W s) (st_T s) (st_V s) = Some T1 ->
       clear e0 T1 (st_V s) /\
       forall V1, gauss_activation eig fl0 X (st_W s) T1 (st_V s) = Some V1 ->
         clear e0 T1 V1 /\ steady (st_W s) T1 V1].
Definition valid (s : state N T K d) : Prop :=
  positive (st_T s) (st_V s) /\ forall b i, st_W s b i \in unitmx.

Theorem C71_once nrm s : (0 < B)%N -> (forall b, 0 < d b)%N -> (forall b i, row_free (X b i)) -> valid s -> quiet s ->
  exists s' l l', [/\ gauss_once eig chol fl0 fl nrm X s = Some s', valid s',
    nrm -> forall n k, \sum_b re (\tr (st_T s' n k b)) = 1 &
    [/\ loss s = Some l, loss s' = Some l' & (l' <= l)%coqR]].
Proof.
case: s => W Tb V B0 d0 fX [/= pos uW] [/= cl cb ld hq].
have [T1 [eT pos1 _ dT]] := C71_basis pos uW cl cb.
have [cl1 hV] := hq _ eT; have [l0 [l1 [L0 L1 le1]]] := dT cl1.
have [V1 [eV pos2 dV]] := C71_activation pos1 uW cl1 ld.
have [cl2 st] := hV _ eV; have [l1' [l2 [L1' L2 le2]]] := dV cl2.
have el1 : l1' = l1 by move: L1'; rewrite L1 => -[].
rewrite /gauss_once /gauss_source /= eT eV.
have [W1 [l2' [l3 [eW uW1 L2' L3 le3]]]] := C71_filters pos2 uW cl2 fX st.
have el2 : l2' = l2 by move: L2'; rewrite L2 => -[].
have le : (l3 <= l0)%coqR by rewrite el1 in le2; rewrite el2 in le3; lra.
case: nrm; last by rewrite eW /=; exists (State W1 T1 V1), l0, l3.
have [pT1 V10] := pos2.
have [T2 [V2 [e2 pT2 V20 tr]]] := psdtf_norm_ok B0 d0 pT1 V10.
have [eR eL _ _] := C72_norm fl0 e2.
rewrite e2.
have -> : gauss_vcd eig fl0 fl X W T2 V2 = gauss_vcd eig fl0 fl X W T1 V1 by rewrite /gauss_vcd eR.
by rewrite eW /=; exists (State W1 T2 V2), l0, l3; split=> //; rewrite eL.
Qed.

(** any number of iterations *)
Definition run nrm m s : option (state N T K d) := iter m (obind (gauss_once eig chol fl0 fl nrm X)) (Some s).
Theorem C71_run nrm s : (0 < B)%N -> (forall b, 0 < d b)%N -> (forall b i, row_free (X b i)) -> valid s ->
  (forall m s', run nrm m s = Some s' -> quiet s') ->
  exists l : nat -> R, (forall m, exists2 s', run nrm m s = Some s' & loss s' = Some (l m)) /\
    forall m, (l m.+1 <= l m)%coqR.
Proof.
move=> B0 d0 fX v q.
have S m : exists s' l, [/\ run nrm m s = Some s', valid s' & loss s' = Some l].
  elim: m => [|m [s' [l [r v' L]]]].
    have [s' [l [l' [_ _ _ [L _ _]]]]] := C71_once nrm B0 d0 fX v (q 0%N s erefl).
    by exists s, l.
  have [s2 [l1 [l2 [e1 v2 _ [L1 L2 _]]]]] := C71_once nrm B0 d0 fX v' (q m s' r).
  by exists s2, l2; split=> //; rewrite /run iterS -/(run nrm m s) r.
pose val o : R := if o is Some l then l else 0.
exists (fun m => val (obind loss (run nrm m s))); split=> m.
  by have [s' [l [r v' L]]] := S m; exists s' => //; rewrite r /= L.
have [s' [l [r v' L]]] := S m; have [s2 [l1 [l2 [e1 v2 _ [L1 L2 le]]]]] := C71_once nrm B0 d0 fX v' (q m s' r).
by rewrite /run iterS -/(run nrm m s) r /= e1 /= L1 L2.
Qed.
End Gauss.

(** ** C73: TIPSDTA *)
Section Student.
Variables (e0 e nu : R) (X : spec).
Arguments X : clear implicits.
Hypotheses (p0 : (0 < e <= 1)%coqR) (nu0 : (0 < nu)%coqR).
Notation fl0 := (max_flooring e0).
Notation fl := (max_flooring e).
Notation loss := (t_loss eig fl0 nu X).

(** weight of a frame: [(nu + 2 F) / (nu + 2 q)], [q] the quadratic form [y^H R^-1 y] over all blocks *)
Definition weight W Tb V n t : R := ((nu + 2 * (\sum_b d b)%N%:R) / (nu + 2 *
  (\sum_b re (((ysep X W n t b)^H *m invmx (\sum_k c (V n k t) *: Tb n k b) *m ysep X W n t b) 0%R 0%R))%R))%coqR.
Lemma weightE W Tb V : positive Tb V -> t_pi nu X W (rsum Tb V) = weight W Tb V.
Proof.
move=> [pT V0]; do 2 (apply: functional_extensionality => ?); rewrite /t_pi t_yryE // => *; exact: rsum_pd.
Qed.
Definition clear_basis_t W Tb V : Prop := forall n k b,
  let P := ric_P Tb V n k b in
  let Q := ric_Q (weight W Tb V) X W Tb V n k b in
  [/\ above e Q,
      forall S : 'M[Cx]_(d b), pd S -> S *m S = Q -> above e (S *m Tb n k b *m P *m Tb n k b *m S) &
      forall G, pd G -> G *m P *m G = Tb n k b *m Q *m Tb n k b -> above e G].

Lemma ric_QE W Tb V n k b : positive Tb V ->
  bas_Q V (t_ryyr nu X W (rsum Tb V)) n k b = ric_Q (weight W Tb V) X W Tb V n k b.
Proof. by move=> pos; rewrite /t_ryyr weightE. Qed.

Lemma clear_inert_t W Tb V : positive Tb V -> clear_basis_t W Tb V -> inert_t eig fl nu X W Tb V.
Proof.
move=> pos cl n k b; have [aQ aM aG] := cl n k b; have [pT V0] := pos; have [p1 _] := p0.
have hP : pd (ric_P Tb V n k b) by apply: (bas_P_pd T0 n k b V0 (fun n t b => rsum_pd n t b K0 pT V0)).
have hQ := ric_Q_herm X (weight W Tb V) W n k b pos.
cbv zeta; rewrite ric_QE //; split.
- by apply: (C25_identity He).
- exact: (above_pd p1 hQ aQ).
- move=> S pS SS /=; have a := aM S pS SS; have [hS _] := pS; have [hT _] := pT n k b.
  have hM : (S *m Tb n k b *m bas_P V (rsum Tb V) n k b *m Tb n k b *m S)^H = S *m Tb n k b *m bas_P V (rsum Tb V) n k b *m Tb n k b *m S.
    by rewrite !ctrM hS hT (proj1 hP) !mulmxA.
  by split; [exact: (C25_identity He)|exact: invsqrtmh_above].
- by move=> G pG eG; apply: (C25_identity He); [exact: (proj1 pG)|exact: aG].
Qed.

Theorem C73_basis W Tb V : positive Tb V -> (forall b i, W b i \in unitmx) ->
  clear e0 Tb V -> clear_basis_t W Tb V ->
  exists T', [/\ t_basis eig fl0 fl nu X W Tb V = Some T', positive T' V,
    forall n k b, T' n k b *m ric_P Tb V n k b *m T' n k b =
      Tb n k b *m ric_Q (weight W Tb V) X W Tb V n k b *m Tb n k b &
    clear e0 T' V -> exists l l', [/\ loss (State W Tb V) = Some l,
      loss (State W T' V) = Some l' & (l' <= l)%coqR]].
Proof.
move=> pos uW cl cb; have [pT V0] := pos.
have ina := clear_inert pos cl.
have [T' [eT pT' ric le]] := t_basis_step T0 K0 nu0 He pT V0 ina (clear_inert_t pos cb).
exists T'; split=> // [n k b|cl']; first by rewrite -ric_QE //; exact: ric.
have pos' : positive T' V by [].
do 2 eexists; split; last exact: le; apply: t_lossE => //; exact: clear_inert.
Qed.

Theorem C73_activation W Tb V : positive Tb V -> (forall b i, W b i \in unitmx) -> clear e0 Tb V ->
  (forall n t, exists b, ysep X W n t b != 0) ->
  exists V', [/\ t_activation eig fl0 nu X W Tb V = Some V', positive Tb V' &
    clear e0 Tb V' -> exists l l', [/\ loss (State W Tb V) = Some l,
      loss (State W Tb V') = Some l' & (l' <= l)%coqR]].
Proof.
move=> pos uW cl ld; have [pT V0] := pos.
have [V' [eV v0 le]] := t_activation_step K0 nu0 pT V0 (clear_inert pos cl) ld.
have pos' : positive Tb V' by [].
exists V'; split=> // cl'; do 2 eexists; split; last exact: le; apply: t_lossE => //; exact: clear_inert.
Qed.

Definition steady_t W Tb V : Prop := forall b, vcd_regular (sing_floor fl)
  (vcd_cov (fun n t b => c (weight W Tb V n t) *: invmx (\sum_k c (V n k t) *: Tb n k b)) X b) (vpairs N (d b)) (W b).
Theorem C73_filters W Tb V : positive Tb V -> (forall b i, W b i \in unitmx) -> clear e0 Tb V ->
  (forall b i, row_free (X b i)) -> steady_t W Tb V ->
  exists W' l l', [/\ t_vcd eig fl0 fl nu X W Tb V = Some W', forall b i, W' b i \in unitmx,
    loss (State W Tb V) = Some l, loss (State W' Tb V) = Some l' & (l' <= l)%coqR].
Proof.
move=> pos uW cl fX st; have [pT V0] := pos; have ina := clear_inert pos cl.
rewrite /steady_t -weightE // in st.
have [W' [eW uW' le]] := t_vcd_step T0 K0 nu0 pT V0 ina fX uW st.
by exists W'; do 2 eexists; split; [exact: eW|exact: uW'| | |exact: le]; apply: t_lossE.
Qed.

Definition quiet_t (s : state N T K d) : Prop :=
  [/\ clear e0 (st_T s) (st_V s), clear_basis_t (st_W s) (st_T s) (st_V s),
     forall n t, exists b, ysep X (st_W s) n t b != 0 &
     forall T1, t_basis eig fl0 fl nu X (st_W s) (st_T s) (st_V s) = Some T1 ->
       clear e0 T1 (st_V s) /\
       forall V1, t_activation eig fl0 nu X (st_W s) T1 (st_V s) = Some V1 ->
         clear e0 T1 V1 /\ steady_t (st_W s) T1 V1].

Theorem C73_once nrm s : (0 < B)%N -> (forall b, 0 < d b)%N -> (forall b i, row_free (X b i)) -> valid s -> quiet_t s ->
  exists s' l l', [/\ t_once eig fl0 fl nu nrm X s = Some s', valid s',
    nrm -> forall n k, \sum_b re (\tr (st_T s' n k b)) = 1 &
    [/\ loss s = Some l, loss s' = Some l' & (l' <= l)%coqR]].
Proof.
case: s => W Tb V B0 d0 fX [/= pos uW] [/= cl cb ld hq].
have [T1 [eT pos1 _ dT]] := C73_basis pos uW cl cb.
have [cl1 hV] := hq _ eT; have [l0 [l1 [L0 L1 le1]]] := dT cl1.
have [V1 [eV pos2 dV]] := C73_activation pos1 uW cl1 ld.
have [cl2 st] := hV _ eV; have [l1' [l2 [L1' L2 le2]]] := dV cl2.
have el1 : l1' = l1 by move: L1'; rewrite L1 => -[].
rewrite /t_once /t_source /= eT eV.
have [W1 [l2' [l3 [eW uW1 L2' L3 le3]]]] := C73_filters pos2 uW cl2 fX st.
have el2 : l2' = l2 by move: L2'; rewrite L2 => -[].
have le : (l3 <= l0)%coqR by rewrite el1 in le2; rewrite el2 in le3; lra.
case: nrm; last by rewrite eW /=; exists (State W1 T1 V1), l0, l3.
have [pT1 V10] := pos2.
have [T2 [V2 [e2 pT2 V20 tr]]] := psdtf_norm_ok B0 d0 pT1 V10.
have [eR _ eL _] := C72_norm fl0 e2.
rewrite e2.
have -> : t_vcd eig fl0 fl nu X W T2 V2 = t_vcd eig fl0 fl nu X W T1 V1 by rewrite /t_vcd eR.
by rewrite eW /=; exists (State W1 T2 V2), l0, l3; split=> //; rewrite eL.
Qed.

Definition run_t nrm m s : option (state N T K d) := iter m (obind (t_once eig fl0 fl nu nrm X)) (Some s).
Theorem C73_run nrm s : (0 < B)%N -> (forall b, 0 < d b)%N -> (forall b i, row_free (X b i)) -> valid s ->
  (forall m s', run_t nrm m s = Some s' -> quiet_t s') ->
  exists l : nat -> R, (forall m, exists2 s', run_t nrm m s = Some s' & loss s' = Some (l m)) /\
    forall m, (l m.+1 <= l m)%coqR.
Proof.
move=> B0 d0 fX v q.
have S m : exists s' l, [/\ run_t nrm m s = Some s', valid s' & loss s' = Some l].
  elim: m => [|m [s' [l [r v' L]]]].
    have [s' [l [l' [_ _ _ [L _ _]]]]] := C73_once nrm B0 d0 fX v (q 0%N s erefl).
    by exists s, l.
  have [s2 [l1 [l2 [e1 v2 _ [L1 L2 _]]]]] := C73_once nrm B0 d0 fX v' (q m s' r).
  by exists s2, l2; split=> //; rewrite /run_t iterS -/(run_t nrm m s) r.
pose val o : R := if o is Some l then l else 0.
exists (fun m => val (obind loss (run_t nrm m s))); split=> m.
  by have [s' [l [r v' L]]] := S m; exists s' => //; rewrite r /= L.
have [s' [l [r v' L]]] := S m; have [s2 [l1 [l2 [e1 v2 _ [L1 L2 le]]]]] := C73_once nrm B0 d0 fX v' (q m s' r).
by rewrite /run_t iterS -/(run_t nrm m s) r /= e1 /= L1 L2.
Qed.
End Student.
End IPSDTA.

(** ** A concrete case *)
(** two sources, two channels, two frames, two bases, one block of two bins *)
Section Example.
Definition exD (b : 'I_1) : nat := 2%N.
Notation D := exD.
Definition exX : forall b : 'I_1, 'I_(D b) -> 'M[Cx]_(2, 2) :=
  fun _ i => \matrix_(n, t) (if (i == n) || (t == 0) then 1 else -1).
Definition exW : forall b : 'I_1, 'I_(D b) -> 'M[Cx]_2 := fun _ _ => 1%:M.
Arguments exX : clear implicits.
Arguments exW : clear implicits.
Definition sc n (a : R) : 'M[Cx]_n := (c a)%:M.
Definition exT (a : R) : 'I_2 -> 'I_2 -> forall b : 'I_1, 'M[Cx]_(D b) := fun _ _ _ => sc 2 a.
Definition exV (v : R) : 'I_2 -> 'I_2 -> 'I_2 -> R := fun _ _ _ => v.

Lemma scM n a b : sc n a *m sc n b = sc n (a * b)%R.
Proof. by rewrite /sc -scalar_mxM cM. Qed.
Lemma scZ n a b : c a *: sc n b = sc n (a * b)%R.
Proof. by rewrite /sc scale_scalar_mx cM. Qed.
Lemma sc_inv n a : (0 < a)%coqR -> invmx (sc n a) = sc n (a^-1)%R.
Proof. by move=> a0; rewrite /sc invmx_scalar cV. Qed.
Lemma sc_pd n a : (0 < a)%coqR -> pd (sc n a).
Proof. by move=> a0; rewrite /sc -scalemx1; apply: pdZ; [exact: c_gt0|exact: pd1]. Qed.
Lemma sc_above n e a : (e <= a)%coqR -> above e (sc n a).
Proof.
move=> h x.
have -> : form (sc n a) x x = c a * form 1%:M x x.
  by rewrite /sc -scalemx1 /form -scalemxAr -scalemxAl [in LHS]mxE.
rewrite reMc -RmulE.
by apply: Rmult_le_compat_r => //; have [_] := ge0_cre (form1_ge0 x).
Qed.
Lemma sc_sqrt n (G : 'M[Cx]_n) a : (0 < a)%coqR -> pd G -> G *m G = sc n a -> G = sc n (R_sqrt.sqrt a).
Proof.
move=> a0 pG e; apply: pd_sqrt_uniq => //; first by apply: sc_pd; exact: sqrt_lt_R0.
by rewrite e scM -RmulE sqrt_sqrt //; lra.
Qed.
Lemma inv_pos (a : R) : (0 < a)%coqR -> a^-1 = (/ a)%coqR.
Proof. by move=> a0; rewrite RinvE //; lra. Qed.
Lemma inv_two : (2%:R : R)^-1 = (/ 2)%coqR.
Proof. by rewrite -RnatE inv_pos // /=; lra. Qed.
Lemma exR a v n t b : \sum_k c (exV v n k t) *: exT a n k b = sc 2 (2 * (v * a))%coqR.
Proof.
rewrite sum2 /exV /exT scZ /sc -raddfD -cD; congr (c _)%:M; toR; lra.
Qed.
Lemma exY n t b : ysep exX exW n t b = \col_i (if (i == n) || (t == 0) then 1 else -1).
Proof. by apply/matrixP => i j; rewrite /ysep /exW mxE mul1mx !mxE. Qed.
Lemma exYY n b : \sum_t ysep exX exW n t b *m (ysep exX exW n t b)^H = sc 2 2%coqR.
Proof.
apply/matrixP => i j; rewrite sum2 !exY !mxE !big_ord1 !mxE.
have sg (b1 b2 : bool) : (if b1 then 1 else -1 : Cx) * (if b2 then 1 else -1)^* = (if b1 == b2 then 1 else -1).
  by case: b1 b2 => [] []; rewrite ?rmorphN ?rmorph1 ?mulrNN ?mul1r ?mulr1 ?mulN1r.
rewrite !sg; clear sg.
have two : (1 + 1 : Cx) = c 2 by rewrite cR2 -[2%:R]/(1 + 1).
by case: (ord2P n) (ord2P i) (ord2P j) => -> [] -> [] ->; rewrite /= ?eqxx ?orbT /= ?subrr ?mulr1n ?mulr0n.
Qed.

Variables (eig : eigh_t) (chol : chol_t).
Hypotheses (He : eigh_contract eig) (Hc : chol_contract chol).

Lemma ex_pos a v : (0 < a)%coqR -> (0 < v)%coqR -> positive (exT a) (exV v).
Proof. by move=> a0 v0; split=> [n k b|n k t]; [exact: sc_pd|]. Qed.
Lemma ex_clear e a v : (e <= 2 * (v * a))%coqR -> clear e (exT a) (exV v).
Proof. by move=> h n t b; rewrite exR; exact: sc_above. Qed.
Lemma ex_P a v n k b : (0 < a)%coqR -> (0 < v)%coqR -> ric_P (exT a) (exV v) n k b = sc 2 (/ (2 * a))%coqR.
Proof.
move=> a0 v0; have r0 : (0 < 2 * (v * a))%coqR by have := Rmult_lt_0_compat _ _ v0 a0; lra.
rewrite /ric_P; under eq_bigr do rewrite exR sc_inv // scZ.
rewrite sum2 /sc -raddfD scale_scalar_mx -cD -cM; congr (c _)%:M.
rewrite inv_two inv_pos // /exV.
by toR; Rfield; split; lra.
Qed.
Lemma ex_Q w a v n k b : (0 < a)%coqR -> (0 < v)%coqR ->
  ric_Q (fun _ _ => w) exX exW (exT a) (exV v) n k b = sc 2 (w / (4 * (v * (a * a))))%coqR.
Proof.
move=> a0 v0; have r0 : (0 < 2 * (v * a))%coqR by have := Rmult_lt_0_compat _ _ v0 a0; lra.
rewrite /ric_Q; under eq_bigr do rewrite exR sc_inv //.
rewrite /exV -!scaler_sumr -mulmx_suml -mulmx_sumr exYY !scM !scZ; congr sc.
rewrite inv_two inv_pos //.
by toR; Rfield; split; lra.
Qed.

Lemma ex_ric w a v n k b (G : 'M[Cx]_2) : (0 < w)%coqR -> (0 < a)%coqR -> (0 < v)%coqR -> pd G ->
  G *m ric_P (exT a) (exV v) n k b *m G = exT a n k b *m ric_Q (fun _ _ => w) exX exW (exT a) (exV v) n k b *m exT a n k b ->
  G = sc 2 (R_sqrt.sqrt (w * a / (2 * v))).
Proof.
move=> w0 a0 v0 pG; rewrite ex_P // ex_Q // /exT !scM => e.
apply: sc_sqrt => //; first by apply: Rdiv_lt_0_compat; nra.
have : c (2 * a)%coqR *: (G *m sc 2 (/ (2 * a))%coqR *m G) = sc 2 (w * a / (2 * v))%coqR.
  by rewrite e scZ; congr sc; toR; Rfield; split; lra.
rewrite /sc mul_mx_scalar -scalemxAl scalerA -cRM Rinv_r ?cR1 ?scale1r //; lra.
Qed.
Lemma ex_clear_basis e a v : (0 < a)%coqR -> (0 < v)%coqR -> (e <= / (2 * a))%coqR -> (e <= / (4 * v))%coqR ->
  (e <= R_sqrt.sqrt (a / (2 * v)))%coqR -> clear_basis e exX exW (exT a) (exV v).
Proof.
move=> a0 v0 h1 h2 h3 n k b; split.
- by rewrite ex_P //; exact: sc_above.
- rewrite ex_Q // /exT !scM; apply: sc_above; move: h2; congr (Rle _ _).
  by toR; Rfield; split; lra.
- move=> G pG /(ex_ric Rlt_0_1 a0 v0 pG) ->; apply: sc_above.
  by rewrite Rmult_1_l.
Qed.
Lemma ex_loud n t : exists b, ysep exX exW n t b != 0.
Proof.
exists 0; rewrite exY; apply/eqP => /matrixP/(_ n 0); rewrite !mxE eqxx /= => /eqP.
by rewrite oner_eq0.
Qed.
Lemma ex_free b i : row_free (exX b i).
Proof.
rewrite row_free_unit unitmxE det2 !mxE /= unitfE.
have two : (1 + 1 : Cx) != 0 by rewrite -[1 + 1]/(2%:R) pnatr_eq0.
by case: (ord2P i) => ->; rewrite /= ?mulr1 ?mul1r ?mulN1r ?opprK -?opprD ?oppr_eq0.
Qed.
Lemma ex_unit b i : exW b i \in unitmx. Proof. exact: unitmx1. Qed.
Lemma ex_tr n t b : re (\tr (ysep exX exW n t b *m (ysep exX exW n t b)^H)) = 2%coqR.
Proof.
rewrite exY /mxtrace sum2 !mxE !big_ord1 !mxE.
have sg (b1 : bool) : (if b1 then 1 else -1 : Cx) * (if b1 then 1 else -1)^* = 1.
  by case: b1; rewrite ?rmorphN ?rmorph1 ?mulrNN mulr1.
by rewrite !sg reD re1; toR; lra.
Qed.
Lemma ex_act w a v : (0 < w)%coqR -> (0 < a)%coqR -> (0 < v)%coqR ->
  act_new (exT a) (exV v) (wmul (fun _ _ => w) (ryyr exX exW (rsum (exT a) (exV v)))) (rsum (exT a) (exV v)) =
  Some (exV (v * R_sqrt.sqrt (w / (2 * (v * a)))))%coqR.
Proof.
move=> w0 a0 v0; have r0 : (0 < 2 * (v * a))%coqR by have := Rmult_lt_0_compat _ _ v0 a0; lra.
have nE n k t : act_num (exT a) (wmul (fun _ _ => w) (ryyr exX exW (rsum (exT a) (exV v)))) n k t =
  (w * (2 * a) / (2 * (v * a) * (2 * (v * a))))%coqR.
  rewrite /act_num big_ord1 /wmul /ryyr /rsum exR sc_inv // /exT /sc.
  rewrite !mul_mx_scalar !mul_scalar_mx !scalerA -!cM -[re _]/(rtr _) rtrZ /rtr ex_tr inv_pos //.
  by toR; Rfield; split; lra.
have dE n k t : act_den (exT a) (rsum (exT a) (exV v)) n k t = (2 * a / (2 * (v * a)))%coqR.
  rewrite /act_den big_ord1 /rsum exR sc_inv // /exT scM /sc mxtrace_scalar inv_pos //.
  by rewrite -mulr_natr -cR2 -cM rec; toR; Rfield; split; lra.
rewrite /act_new ifT; last first.
  apply/forallP => n; apply/forallP => k; apply/forallP => t; rewrite nE dE; apply: ratio_okP.
    by apply: Rlt_le; apply: Rdiv_lt_0_compat; nra.
  by apply: Rdiv_lt_0_compat; nra.
congr Some; do 3 (apply: functional_extensionality => ?); rewrite nE dE /exV; congr (_ * R_sqrt.sqrt _).
by Rfield; split; lra.
Qed.
Lemma ex_cov a v b : (0 < a)%coqR -> (0 < v)%coqR -> forall i j n, j != i ->
  vcd_cov (fun n t b => invmx (\sum_k c (exV v n k t) *: exT a n k b)) exX b i j n = 0.
Proof.
move=> a0 v0 i j n ji; have r0 : (0 < 2 * (v * a))%coqR by have := Rmult_lt_0_compat _ _ v0 a0; lra.
rewrite /vcd_cov /meanM big1 ?scaler0 // => t _.
by rewrite exR sc_inv // /sc mxE (negbTE ji) mulr0n scale0r.
Qed.
Lemma ex_cov_t (w : 'I_2 -> 'I_2 -> R) a v b : (0 < a)%coqR -> (0 < v)%coqR -> forall i j n, j != i ->
  vcd_cov (fun n t b => c (w n t) *: invmx (\sum_k c (exV v n k t) *: exT a n k b)) exX b i j n = 0.
Proof.
move=> a0 v0 i j n ji; have r0 : (0 < 2 * (v * a))%coqR by have := Rmult_lt_0_compat _ _ v0 a0; lra.
rewrite /vcd_cov /meanM big1 ?scaler0 // => t _.
by rewrite exR sc_inv // scZ /sc mxE (negbTE ji) mulr0n scale0r.
Qed.

Lemma sqrt_bound x y : (0 <= y)%coqR -> (y * y <= x)%coqR -> (y <= R_sqrt.sqrt x)%coqR.
Proof. by move=> y0 h; rewrite -(sqrt_square y) //; exact: sqrt_le_1_alt. Qed.
Lemma sqrt_bound' x y : (0 <= y)%coqR -> (x <= y * y)%coqR -> (R_sqrt.sqrt x <= y)%coqR.
Proof. by move=> y0 h; rewrite -(sqrt_square y) //; exact: sqrt_le_1_alt. Qed.

Notation fl := (max_flooring (/ 10)%coqR).
Definition exS : state 2 2 2 D := State exW (exT (/ 4)%coqR) (exV 1%coqR).
Lemma exS_valid : valid exS.
Proof. by split=> /=; [apply: ex_pos; lra|exact: ex_unit]. Qed.
Lemma inert_ex a v : (0 < a)%coqR -> (0 < v)%coqR -> (/ 10 <= 2 * (v * a))%coqR -> inertR eig fl (exT a) (exV v).
Proof. by move=> a0 v0 h; apply: clear_inert => //; [exact: ex_pos|exact: ex_clear]. Qed.

Example C71_instance : valid exS /\ quiet eig chol (/ 10)%coqR (/ 10)%coqR exX exS.
Proof.
split; first exact: exS_valid.
have a0 : (0 < / 4)%coqR by lra.
have v0 : (0 < 1)%coqR by lra.
have clB : clear_basis (/ 10)%coqR exX exW (exT (/ 4)%coqR) (exV 1%coqR).
  by apply: ex_clear_basis => //; try lra; apply: sqrt_bound; lra.
split=> /=; [by apply: ex_clear; lra|exact: clB|exact: ex_loud|] => T1 eT.
have e0 : (0 < / 10)%coqR by lra.
have [T' [eT' pT' ric _]] := C71_basis (fun _ => false) He Hc (isT : (0 < 2)%N) (isT : (0 < 2)%N) e0 (ex_pos a0 v0) ex_unit
  (@ex_clear (/ 10)%coqR (/ 4)%coqR 1%coqR ltac:(lra)) clB.
have TT : T1 = T' by move: eT'; rewrite eT => -[].
rewrite -{}TT {T'} in eT' pT' ric.
set a1 := R_sqrt.sqrt (1 * / 4 / (2 * 1)).
have eT1 : T1 = exT a1.
  apply: functional_extensionality => n; apply: functional_extensionality => k.
  by apply: functional_extensionality_dep => b; apply: (ex_ric Rlt_0_1 a0 v0 (pT'.1 n k b)); exact: ric.
have l1 : (/ 4 <= a1)%coqR by apply: sqrt_bound; lra.
have u1 : (a1 <= / 2)%coqR by apply: sqrt_bound'; lra.
rewrite eT1; split; first by apply: ex_clear; lra.
move=> V1; rewrite /gauss_activation reconE; last by apply: inert_ex; lra.
rewrite covs_unitP; last by move=> n t b; rewrite /rsum exR; apply: sc_pd; lra.
have := @ex_act 1%coqR a1 1%coqR ltac:(lra) ltac:(lra) ltac:(lra).
rewrite -[fun _ _ => _]/(@ones 2 2) wmul1 => -> [<-].
set v1 := (1 * _)%coqR.
have lv : (1 <= v1)%coqR.
  rewrite /v1 Rmult_1_l; apply: sqrt_bound; first lra.
  rewrite Rmult_1_l.
  have -> : (1 / (2 * (1 * a1)) = / (2 * a1))%coqR by Rfield; lra.
  by rewrite -{1}Rinv_1; apply: Rinv_le_contravar; lra.
split; first by apply: ex_clear; nra.
move=> b; apply: vcd_regular_diag; first by rewrite /max_flooring Rmax_right; lra.
by apply: ex_cov; lra.
Qed.

(** ** The t variant with [nu = 4] *)
Lemma ex_weight a v n t : (0 < a)%coqR -> (0 < v)%coqR ->
  weight 4 exX exW (exT a) (exV v) n t = (8 / (4 + 2 / (v * a)))%coqR.
Proof.
move=> a0 v0; have r0 : (0 < v * a)%coqR by exact: Rmult_lt_0_compat.
have q : re (((ysep exX exW n t 0)^H *m ysep exX exW n t 0) 0 0) = 2%coqR.
  by rewrite -trace_mx11 mxtrace_mulC; exact: ex_tr.
rewrite /weight !big_ord1 exR sc_inv; last lra.
rewrite /sc mul_mx_scalar -scalemxAl mxE reMc q inv_pos -?RnatE /=; last lra.
by rewrite -RmulE; Rfield; split; nra.
Qed.
Lemma ex_weight_fun a v : (0 < a)%coqR -> (0 < v)%coqR ->
  weight 4 exX exW (exT a) (exV v) = fun _ _ => (8 / (4 + 2 / (v * a)))%coqR.
Proof.
by move=> a0 v0; apply: functional_extensionality => n; apply: functional_extensionality => t; exact: ex_weight.
Qed.

Lemma ex_clear_basis_t e w a v : (0 < a)%coqR -> (0 < v)%coqR -> w = (8 / (4 + 2 / (v * a)))%coqR ->
  (e <= w / (4 * (v * (a * a))))%coqR -> (e <= w / (8 * (v * a)))%coqR ->
  (e <= R_sqrt.sqrt (w * a / (2 * v)))%coqR -> clear_basis_t e 4 exX exW (exT a) (exV v).
Proof.
move=> a0 v0 wE h1 h2 h3 n k b.
have va : (0 < v * a)%coqR by exact: Rmult_lt_0_compat.
have vaa : (0 < v * (a * a))%coqR by have := Rmult_lt_0_compat _ _ va a0; lra.
have iva : (0 < 2 / (v * a))%coqR by apply: Rdiv_lt_0_compat; lra.
have w0 : (0 < w)%coqR by rewrite wE; apply: Rdiv_lt_0_compat; lra.
rewrite ex_weight_fun // -wE; split.
- by rewrite ex_Q //; exact: sc_above.
- move=> S pS; rewrite ex_Q // => /sc_sqrt -> //; last by apply: Rdiv_lt_0_compat; lra.
  rewrite ex_P // /exT !scM; apply: sc_above; move: h2; congr (Rle _ _).
  rewrite -!RmulE; set z := (w / (4 * (v * (a * a))))%coqR.
  have zz : (R_sqrt.sqrt z * R_sqrt.sqrt z = z)%coqR by apply: sqrt_sqrt; apply: Rlt_le; apply: Rdiv_lt_0_compat; lra.
  have -> : (R_sqrt.sqrt z * a * / (2 * a) * a * R_sqrt.sqrt z = (R_sqrt.sqrt z * R_sqrt.sqrt z) * (a / 2))%coqR.
    by Rfield; lra.
  by rewrite zz /z; Rfield; split; lra.
- by move=> G pG /(ex_ric w0 a0 v0 pG) ->; exact: sc_above.
Qed.

Example C73_instance : valid exS /\ quiet_t eig (/ 10)%coqR (/ 10)%coqR 4 exX exS.
Proof.
split; first exact: exS_valid.
have a0 : (0 < / 4)%coqR by lra.
have v0 : (0 < 1)%coqR by lra.
have w0E : (2 / 3 = 8 / (4 + 2 / (1 * / 4)))%coqR by Rfield.
have clB : clear_basis_t (/ 10)%coqR 4 exX exW (exT (/ 4)%coqR) (exV 1%coqR).
  by apply: (ex_clear_basis_t a0 v0 w0E); try lra; apply: sqrt_bound; lra.
split=> /=; [by apply: ex_clear; lra|exact: clB|exact: ex_loud|] => T1 eT.
have e0 : (0 < / 10 <= 1)%coqR by lra.
have nu0 : (0 < 4)%coqR by lra.
have [T' [eT' pT' ric _]] := C73_basis He (isT : (0 < 2)%N) (isT : (0 < 2)%N) e0 nu0 (ex_pos a0 v0) ex_unit
  (@ex_clear (/ 10)%coqR (/ 4)%coqR 1%coqR ltac:(lra)) clB.
have TT : T1 = T' by move: eT'; rewrite eT => -[].
rewrite -{}TT {T'} in eT' pT' ric.
set a1 := R_sqrt.sqrt (2 / 3 * / 4 / (2 * 1)).
have w0 : (0 < 2 / 3)%coqR by lra.
rewrite ex_weight_fun // -w0E in ric.
have eT1 : T1 = exT a1.
  apply: functional_extensionality => n; apply: functional_extensionality => k.
  by apply: functional_extensionality_dep => b; exact: (ex_ric w0 a0 v0 (pT'.1 n k b) (ric n k b)).
have l1 : (/ 4 <= a1)%coqR by apply: sqrt_bound; lra.
have u1 : (a1 <= / 2)%coqR by apply: sqrt_bound'; lra.
rewrite eT1; split; first by apply: ex_clear; lra.
have p1 : positive (exT a1) (exV 1%coqR) by apply: ex_pos; lra.
move=> V1; rewrite /t_activation reconE; last by apply: inert_ex; lra.
rewrite covs_unitP; last by move=> n t b; rewrite /rsum exR; apply: sc_pd; lra.
rewrite t_pi_okP //=.
set w1 := (8 / (4 + 2 / (1 * a1)))%coqR.
have -> : t_ryyr 4 exX exW (rsum (exT a1) (exV 1%coqR)) = wmul (fun _ _ => w1) (ryyr exX exW (rsum (exT a1) (exV 1%coqR))).
  by rewrite /t_ryyr weightE // ex_weight_fun //; lra.
have i1 : (0 < / a1)%coqR by apply: Rinv_0_lt_compat; lra.
have w1E : (w1 = 8 / (4 + 2 * / a1))%coqR by rewrite /w1; Rfield; split; lra.
have w1p : (0 < w1)%coqR by rewrite w1E; apply: Rdiv_lt_0_compat; lra.
rewrite ex_act //; [|lra] => -[<-].
set v1 := (1 * _)%coqR.
have lv : (1 <= v1)%coqR.
  rewrite /v1 Rmult_1_l; apply: sqrt_bound; first lra.
  have -> : (w1 / (2 * (1 * a1)) = 4 / (4 * a1 + 2))%coqR by rewrite /w1; Rfield; split; lra.
  apply: (Rmult_le_reg_r (4 * a1 + 2)); first lra.
  have -> : (4 / (4 * a1 + 2) * (4 * a1 + 2) = 4)%coqR by Rfield; lra.
  lra.
split; first by apply: ex_clear; nra.
move=> b; apply: vcd_regular_diag; first by rewrite /max_flooring Rmax_right; lra.
by apply: ex_cov_t; lra.
Qed.

Example C72_instance : psdtf_norm (exT 3) (exV 1) <> None /\ \sum_b re (\tr (exT 3 0 0 b)) <> 1.
Proof.
have e n k : \sum_b re (\tr (exT 3 n k b)) = 6%coqR.
  by rewrite big_ord1 /exT /sc mxtrace_scalar -mulr_natr -cR2 -cM rec -RmulE; lra.
by split; [apply/C72_defined => n k; rewrite e; apply/eqP; rewrite -R0E; lra|rewrite e -R1E; lra].
Qed.

(** The theorems apply to the concrete state: the loss of the next state is defined and not larger. *)
Example C71_once_instance nrm : exists s' l l', [/\
  gauss_once eig chol fl fl nrm exX exS = Some s', valid s' &
  [/\ gauss_loss (fun _ => false) eig fl exX exS = Some l, gauss_loss (fun _ => false) eig fl exX s' = Some l' & (l' <= l)%coqR]].
Proof.
have e0 : (0 < / 10)%coqR by lra.
have [v q] := C71_instance.
have d0 (b : 'I_1) : (0 < D b)%N by [].
have [s' [l [l' [h1 h2 _ h3]]]] := C71_once (fun _ => false) He Hc (isT : (0 < 2)%N) (isT : (0 < 2)%N) e0 nrm (isT : (0 < 1)%N)
  d0 ex_free v q.
by exists s', l, l'.
Qed.
Example C73_once_instance nrm : exists s' l l', [/\
  t_once eig fl fl 4 nrm exX exS = Some s', valid s' &
  [/\ t_loss eig fl 4 exX exS = Some l, t_loss eig fl 4 exX s' = Some l' & (l' <= l)%coqR]].
Proof.
have e0 : (0 < / 10 <= 1)%coqR by lra.
have nu0 : (0 < 4)%coqR by lra.
have [v q] := C73_instance.
have d0 (b : 'I_1) : (0 < D b)%N by [].
have [s' [l [l' [h1 h2 _ h3]]]] := C73_once (fun _ => false) He (isT : (0 < 2)%N) (isT : (0 < 2)%N) e0 nu0 nrm (isT : (0 < 1)%N)
  d0 ex_free v q.
by exists s', l, l'.
Qed.
End Example.

Print Assumptions C72_norm.
Print Assumptions C72_defined.
Print Assumptions C72_idempotent.
Print Assumptions C71_basis.
Print Assumptions C71_activation.
Print Assumptions C71_filters.
Print Assumptions C71_once.
Print Assumptions C71_run.
Print Assumptions C73_basis.
Print Assumptions C73_activation.
Print Assumptions C73_filters.
Print Assumptions C73_once.
Print Assumptions C73_run.
