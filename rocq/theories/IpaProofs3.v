(** The loop body of [update_by_ipa] when every covariance is positive definite and no
    floor acts: it is defined exactly when [lqpqm2] is. *)
From Coq Require Import Reals Lra FunctionalExtensionality.
From mathcomp Require Import all_ssreflect all_algebra.
From Verif Require Import RStruct MxC CxR NpLin RealLemmas Eigh EighProofs.
From Verif Require Import SpatialIPProofs SpatialISS SpatialISSProofs Cubic Lqpqm LqpqmProofs Lqpqm2 Lqpqm2Proofs.
From Verif Require Import Ipa IpaProofs IpaProofs2.
Import Order.TTheory GRing.Theory Num.Theory.
Set Implicit Arguments.
Unset Strict Implicit.
Unset Printing Implicit Defensive.
Local Open Scope ring_scope.

Section Step.
Variables (eig : eigh_t) (He : eigh_contract eig) (m T : nat) (fl : R -> R) (nrm : bool) (mi : nat) (n : 'I_m.+2).
Implicit Types b : ipabin m T.
Definition good b : Prop := (forall k, pd (ipa_cov b k)) /\ inactive fl (ipa_cov b).
Definition prep_of b : ipa_prep m :=
  let G := ipa_cov b in let M := invmx (G n) in
  let Cd := invmx (ipa_C M n) *m ipa_d M n in
  let s := ipa_s nrm n G in
  IpaPrep (ipa_a G n) (ipa_b G n)
    ((c s)^-1 *: ipa_H0 (ipa_a G n) (ipa_C M n), ipa_v (ipa_a G n) (ipa_b G n) Cd,
     (ipa_z M n (ipa_d M n) Cd / s)%coqR).

Lemma good_U b : good b -> ipa_U eig fl b = ipa_cov b.
Proof. by move=> [pG hf]; apply: functional_extensionality => k; exact: (inactive_psd He pG hf). Qed.
Lemma good_pre b : good b -> ipa_pre eig fl nrm (ipa_U eig fl b) n = Some (prep_of b).
Proof. by move=> g; rewrite (good_U g); have [pG hf] := g; exact: (ipa_preE (eig := eig) He nrm n pG hf). Qed.
Lemma good_out b qc : good b ->
  ipa_out fl (ipa_U eig fl b) n (prep_of b) qc b.2 = Some (ipa_V n (ipa_cov b) qc *m b.2).
Proof. by move=> g; rewrite (good_U g); have [pG hf] := g; exact: ipa_outE. Qed.

Lemma stepE (bins : seq (ipabin m T)) : (0 < T)%N -> (forall i, (i < size bins)%N -> good (nth (0, 0) bins i)) ->
  ipa_step eig fl nrm mi n bins =
  if lqpqm2 eig fl (sing_floor fl) mi [seq ip_lq (prep_of b) | b <- bins] is Some (qs, w) then
    Some ([seq ipa_V n (ipa_cov x.1) x.2 *m x.1.2 | x <- zip bins qs], w) else None.
Proof.
move=> T0 hb; rewrite /ipa_step eqn0Ngt T0 /=.
have -> : oseq [seq ipa_pre eig fl nrm (ipa_U eig fl b) n | b <- bins] = Some [seq prep_of b | b <- bins].
  apply/oseqE; rewrite -map_comp; apply/(@eq_from_nth _ None) => [|i]; rewrite !size_map // => hi.
  by rewrite !(nth_map (0, 0)) //=; apply: good_pre; exact: hb.
rewrite -map_comp; case eq: lqpqm2 => [[qs w]|] //.
have [sq _] := lqpqm2_nth eq; rewrite size_map in sq.
have -> // : oseq [seq ipa_out fl (ipa_U eig fl x.1) n x.2.1 x.2.2 x.1.2 | x <- zip bins (zip [seq prep_of b | b <- bins] qs)] =
  Some [seq ipa_V n (ipa_cov x.1) x.2 *m x.1.2 | x <- zip bins qs].
have sz : size (zip [seq prep_of b | b <- bins] qs) = size bins by rewrite size_zip size_map sq minnn.
apply/oseqE; rewrite -map_comp; apply/(@eq_from_nth _ None) => [|i]; rewrite !size_map !size_zip size_map sq !minnn // => hi.
have r0 : ipa_prep m by exact: (IpaPrep (fun=> 0) (fun=> 0) (0, 0, 0)).
rewrite (nth_map ((0, 0), (r0, 0))) ?size_zip ?size_map ?sq ?minnn //.
rewrite [in RHS](nth_map ((0, 0), 0)) ?size_zip ?sq ?minnn // !nth_zip ?size_map ?sz //=.
by rewrite (nth_map (0, 0)) //; apply: good_out; exact: hb.
Qed.
End Step.
