(** Property C62: [_psd_inv], /repo/ssspy/bss/_update_spatial_model.py:611-645. *)
From Coq Require Import Reals Lra.
From mathcomp Require Import all_ssreflect all_algebra.
From Verif Require Import RStruct MxC CxR NpLin RealLemmas Eigh EighProofs Prop_Linalg Prop_IP1.
Import Order.TTheory GRing.Theory Num.Theory.
Set Implicit Arguments.
Unset Strict Implicit.
Unset Printing Implicit Defensive.
Local Open Scope ring_scope.

Section PsdInv.
Variable eig : eigh_t.
Hypothesis He : eigh_contract eig.
Variable n : nat.
Implicit Types X Y : 'M[Cx]_n.

(** [k] is an eigenvalue of X *)
Definition eigenval X (k : R) : Prop := exists2 x : 'cV[Cx]_n, x != 0 & X *m x = c k *: x.
Lemma eigh_eigenval X r i : eigh_spec X r -> eigenval X (r.1 0 i).
Proof.
move=> s; exists (col i r.2); first exact: (eigh_col_neq0 i s).
case: r s => phi P [/= uP e _]; rewrite !colE mulmxA e -mulmxA scalemxAr; congr (_ *m _).
by apply/matrixP => j l; rewrite (ord1 l) mul_diag_mx !mxE eqxx andbT; case: eqP => [->|]; rewrite ?mulr1 // !mulr0.
Qed.

(** the result inverts the matrix whose eigenvalues have been floored, which for the same
    flooring function is [to_psd] of the argument *)
Theorem C62_to_psd fl X : X^H = X -> (forall k, eigenval X k -> fl k <> 0) ->
  to_psd eig fl X \in unitmx /\ psd_inv eig fl X = Some (invmx (to_psd eig fl X)).
Proof.
move=> hX hf; have s := He hX; rewrite /to_psd /psd_inv hpart_id //.
case er: (eig X) s => [phi P] s; have uP := eigh_unitary s.
have f0 i : fl (phi 0 i) != 0 by apply/eqP; apply: hf; exact: (eigh_eigenval i s).
have -> : [forall i, fl (phi 0 i) != 0] by apply/forallP.
rewrite hpart_id ?recompose_ctr //.
set A := recompose _ P; set B := recompose _ P.
have BA : B *m A = 1%:M.
  rewrite /A /B recomposeM // -[RHS](recompose1 uP); congr recompose.
  by apply/rowP => j; rewrite !mxE RinvE ?mulVf //; apply/eqP.
have uA : A \in unitmx by case: (mulmx1_unit BA).
split=> //; congr Some; by rewrite -[RHS]mul1mx -BA mulmxK.
Qed.
(** where the flooring does nothing the result is the inverse *)
Theorem C62_inverse fl X : X^H = X -> X \in unitmx -> (forall k, eigenval X k -> fl k = k) ->
  psd_inv eig fl X = Some (invmx X).
Proof.
move=> hX uX hf.
have h0 k : eigenval X k -> fl k <> 0.
  move=> hk; rewrite hf // => k0; case: hk => x x0; rewrite k0 c0 scale0r => /(unit_inj uX) e.
  by rewrite e eqxx in x0.
have [_ ->] := C62_to_psd hX h0; congr (Some (invmx _)).
have s := He hX; rewrite /to_psd hpart_id //.
case er: (eig X) s => [phi P] s /=.
have -> : map_mx fl phi = phi by apply/rowP => j; rewrite mxE hf //; exact: (eigh_eigenval j s).
by rewrite -[recompose _ _](eigh_recompose s) hpart_id.
Qed.
(** the default flooring: the result is positive definite and bounded by 1/eps whatever the
    eigenvalues *)
Theorem C62_bound eps X : (0 < eps)%coqR -> X^H = X ->
  exists Y, [/\ psd_inv eig (max_flooring eps) X = Some Y, pd Y &
    forall x : 'cV[Cx]_n, (re (form Y x x) <= / eps * re (form 1%:M x x))%coqR].
Proof.
move=> e0 hX; have s := He hX; rewrite /psd_inv; case er: (eig X) s => [phi P] s.
have uP := eigh_unitary s.
have f0 i : (eps <= max_flooring eps (phi 0%R i))%coqR by exact: Rmax_r.
have -> : [forall i, max_flooring eps (phi 0 i) != 0].
  by apply/forallP => i; apply/eqP; have := f0 i; toR; lra.
eexists; split; first by [].
- apply: recompose_pd; first exact: unitary_unit.
  by move=> i; rewrite mxE; apply: Rinv_0_lt_compat; have := f0 i; lra.
- move=> x; rewrite form_recompose form_rdiag rec.
  have -> : form 1%:M x x = form 1%:M (P^H *m x) (P^H *m x).
    by rewrite /form !mulmx1 ctrM ctrK -mulmxA (mulmxA P) unitaryC // mul1mx.
  rewrite form1E rec -[(/ eps)%coqR]/(/ eps)%coqR; toR; rewrite -[X in (_ <= X)%coqR]/((/ eps)%coqR * _)%R mulr_sumr.
  apply: sumR_le => i _; rewrite mxE; apply: Rmult_le_compat_r; first by rewrite -RpowE; exact: pow2_ge_0.
  by apply: Rinv_le_contravar => //; exact: f0.
Qed.
(** without flooring a singular matrix has no result *)
Theorem C62_singular X : X^H = X -> X \notin unitmx -> psd_inv eig identity_fl X = None.
Proof.
move=> hX; apply: contraNeq => h; have s := He hX; move: h.
rewrite /psd_inv; case er: (eig X) s => [phi P] s; case: forallP => // f0 _.
have := C62_to_psd (fl := identity_fl) hX _; rewrite /to_psd hpart_id // er.
have -> : map_mx identity_fl phi = phi by apply/rowP => j; rewrite mxE.
rewrite -[recompose _ _](eigh_recompose s) hpart_id // => -[] // k [x x0 ex] k0.
have w0 : P^H *m x != 0.
  by apply: contra x0 => /eqP e0; rewrite -[x]mul1mx -(unitaryC (eigh_unitary s)) -mulmxA e0 mulmx0.
have : rdiag phi *m (P^H *m x) = 0.
  have [/= uP e _] := s.
  by rewrite -[LHS]mul1mx -uP -mulmxA [P *m _]mulmxA -e -!mulmxA (mulmxA P) unitaryC // mul1mx ex [k]k0 c0 scale0r mulmx0.
move=> hw; move/eqP: w0; apply; apply/matrixP => i j; rewrite (ord1 j) [RHS]mxE.
have := congr1 (fun M : 'cV_n => M i 0) hw; rewrite mul_diag_mx [LHS]mxE [X in X * _]mxE [RHS]mxE => /eqP.
by rewrite mulf_eq0 c_eq0 (negbTE (f0 i)) /= => /eqP.
Qed.

(** with the default flooring this is the case when no eigenvalue is below eps *)
Theorem C62_default eps X : (0 < eps)%coqR -> X^H = X ->
  (forall x : 'cV[Cx]_n, (eps * re (form 1%:M x x) <= re (form X x x))%coqR) ->
  X \in unitmx /\ psd_inv eig (max_flooring eps) X = Some (invmx X).
Proof.
move=> e0 hX lX.
have h0 k : eigenval X k -> max_flooring eps k <> 0.
  by move=> _; have := Rmax_r k eps; rewrite -/(max_flooring eps k); toR; lra.
by have := C62_to_psd hX h0; rewrite (C25_identity He hX lX).
Qed.
End PsdInv.

Example C62_instance : exists eig, eigh_contract eig /\
  [/\ (exU 0)^H = exU 0, exU 0 \in unitmx &
      psd_inv eig (max_flooring (1 / 2)%coqR) (exU 0) = Some (invmx (exU 0))].
Proof.
have [eig He] := eigh_contract_sat; exists eig; split=> //.
have [h l] := C25_instance; have p : (0 < 1 / 2)%coqR by lra.
by have [u e] := C62_default He p h l.
Qed.
(** a matrix with a negative and a vanishing eigenvalue is accepted by default and rejected
    without flooring *)
Example C62_instance_bound : exists eig, eigh_contract eig /\
  let X : 'M[Cx]_2 := rdiag (\row_j if j == 0 then (-1)%R else 0) in
  [/\ X^H = X, X \notin unitmx, psd_inv eig identity_fl X = None &
      exists2 Y, psd_inv eig (max_flooring 1%R) X = Some Y & pd Y].
Proof.
have [eig He] := eigh_contract_sat; exists eig; split=> // X.
have hX : X^H = X by exact: rdiag_ctr.
have uX : X \notin unitmx by rewrite unitmxE det2 !mxE /= mulr0 mul0r subr0 unitr0.
have [|Y [eY pY _]] := C62_bound He (eps := 1%R) _ hX; first by rewrite -R1E; lra.
by split=> //; [exact: C62_singular|exists Y].
Qed.

Print Assumptions C62_to_psd.
Print Assumptions C62_inverse.
Print Assumptions C62_bound.
Print Assumptions C62_singular.
Print Assumptions C62_default.
