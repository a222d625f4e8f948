(** The real numbers of the Coq standard library as a mathcomp real closed
    field.  Only axioms of the standard library are used (the axioms of
    [Reals], plus [ClassicalEpsilon] for the choice operator of choiceType). *)
From Coq Require Import Reals ClassicalEpsilon FunctionalExtensionality Lra.
From mathcomp Require Import all_ssreflect all_algebra.
From mathcomp Require Import complex.
Import Order.TTheory GRing.Theory Num.Theory.
Set Implicit Arguments.
Unset Strict Implicit.
Unset Printing Implicit Defensive.
Local Open Scope R_scope.

Definition eqr (r1 r2 : R) : bool := if Req_EM_T r1 r2 is left _ then true else false.
Lemma eqrP : Equality.axiom eqr.
Proof. by move=> r1 r2; rewrite /eqr; case: Req_EM_T => H; constructor. Qed.
Canonical R_eqMixin := EqMixin eqrP.
Canonical R_eqType := Eval hnf in EqType R R_eqMixin.

Fact inhR : inhabited R. Proof. exact: (inhabits 0). Qed.
Definition pickR (P : pred R) (n : nat) :=
  let x := epsilon inhR P in if P x then Some x else None.
Fact pickR_some P n x : pickR P n = Some x -> P x.
Proof. by rewrite /pickR; case: (boolP (P _)) => // Px [<-]. Qed.
Fact pickR_ex (P : pred R) : (exists x : R, P x) -> exists n, pickR P n.
Proof. by rewrite /pickR => /(epsilon_spec inhR) ->; exists O. Qed.
Fact pickR_ext (P Q : pred R) : P =1 Q -> pickR P =1 pickR Q.
Proof. by move=> /functional_extensionality ->. Qed.
Definition R_choiceMixin : choiceMixin R := Choice.Mixin pickR_some pickR_ex pickR_ext.
Canonical R_choiceType := Eval hnf in ChoiceType R R_choiceMixin.

Fact RplusA : associative Rplus. Proof. by move=> *; rewrite Rplus_assoc. Qed.
Definition R_zmodMixin := ZmodMixin RplusA Rplus_comm Rplus_0_l Rplus_opp_l.
Canonical R_zmodType := Eval hnf in ZmodType R R_zmodMixin.

Fact RmultA : associative Rmult. Proof. by move=> *; rewrite Rmult_assoc. Qed.
Fact R1_neq_0 : R1 != R0. Proof. by apply/eqP/R1_neq_R0. Qed.
Definition R_ringMixin :=
  RingMixin RmultA Rmult_1_l Rmult_1_r Rmult_plus_distr_r Rmult_plus_distr_l R1_neq_0.
Canonical R_ringType := Eval hnf in RingType R R_ringMixin.
Canonical R_comRingType := Eval hnf in ComRingType R Rmult_comm.

Definition Rinvx (r : R) : R := if r != 0 then / r else r.
Fact RmulVx : forall x : R, x != 0%R -> Rinvx x * x = 1.
Proof. by move=> x x0; rewrite /Rinvx x0 Rinv_l //; apply/eqP. Qed.
Fact Rinvx0 : Rinvx 0 = 0. Proof. by rewrite /Rinvx eqxx. Qed.
Definition R_fieldUnitMixin := @FieldUnitMixin R_comRingType Rinvx RmulVx Rinvx0.
Canonical R_unitRingType := Eval hnf in UnitRingType R R_fieldUnitMixin.
Canonical R_comUnitRingType := Eval hnf in [comUnitRingType of R].
Lemma R_fieldMixin : GRing.Field.mixin_of [unitRingType of R]. Proof. by []. Qed.
Canonical R_idomainType := Eval hnf in IdomainType R (FieldIdomainMixin R_fieldMixin).
Canonical R_fieldType := Eval hnf in FieldType R R_fieldMixin.

Definition Rleb (x y : R) : bool := if Rle_dec x y is left _ then true else false.
Definition Rltb (x y : R) : bool := if Rlt_dec x y is left _ then true else false.
Lemma RlebP x y : reflect (x <= y) (Rleb x y).
Proof. by rewrite /Rleb; case: Rle_dec => H; constructor. Qed.
Lemma RltbP x y : reflect (x < y) (Rltb x y).
Proof. by rewrite /Rltb; case: Rlt_dec => H; constructor. Qed.

Fact Rleb_norm_add x y : Rleb (Rabs (x + y)) (Rabs x + Rabs y).
Proof. by apply/RlebP/Rabs_triang. Qed.
Fact addr_Rgtb0 x y : Rltb 0 x -> Rltb 0 y -> Rltb 0 (x + y).
Proof. by move=> /RltbP Hx /RltbP Hy; apply/RltbP; lra. Qed.
Fact Rnorm0_eq0 x : Rabs x = 0 -> x = 0. Proof. by move=> H; case: (Req_dec x 0) => // /Rabs_no_R0. Qed.
Fact Rleb_leVge x y : Rleb 0 x -> Rleb 0 y -> (Rleb x y) || (Rleb y x).
Proof.
move=> _ _; case: (Rle_or_lt x y) => H; apply/orP; [left|right]; apply/RlebP => //.
exact: Rlt_le.
Qed.
Fact RnormM : {morph Rabs : x y / x * y}. Proof. exact: Rabs_mult. Qed.
Fact Rleb_def x y : (Rleb x y) = (Rabs (y - x) == y - x).
Proof.
apply/(sameP (RlebP x y))/(iffP idP) => [/eqP H|H].
  by have := Rabs_pos (y - x); rewrite H; lra.
by apply/eqP/Rabs_pos_eq; lra.
Qed.
Fact Rltb_def x y : (Rltb x y) = (y != x) && (Rleb x y).
Proof.
apply/(sameP (RltbP x y))/(iffP andP) => [[/eqP H /RlebP H']|H].
  by case: H' => // e; case: H.
by split; [apply/eqP; lra|apply/RlebP; lra].
Qed.
Definition R_numMixin :=
  NumMixin Rleb_norm_add addr_Rgtb0 Rnorm0_eq0 Rleb_leVge RnormM Rleb_def Rltb_def.
Canonical R_porderType := POrderType ring_display R R_numMixin.
Canonical R_numDomainType := NumDomainType R R_numMixin.
Canonical R_normedZmodType := NormedZmodType R R R_numMixin.
Canonical R_numFieldType := [numFieldType of R].

Lemma R_total : totalPOrderMixin R_porderType.
Proof.
move=> x y; apply/orP; case: (Rle_or_lt x y) => H; [left|right]; apply/RlebP => //.
exact: Rlt_le.
Qed.
Canonical R_latticeType := LatticeType R R_total.
Canonical R_distrLatticeType := DistrLatticeType R R_total.
Canonical R_orderType := OrderType R R_total.
Canonical R_realDomainType := [realDomainType of R].
Canonical R_realFieldType := [realFieldType of R].

(** translation lemmas *)
Lemma RleP (x y : R) : reflect (x <= y) (x <= y)%O. Proof. exact: RlebP. Qed.
Lemma RltP (x y : R) : reflect (x < y) (x < y)%O. Proof. exact: RltbP. Qed.
Lemma RaddE (x y : R) : Rplus x y = (x + y)%R :> R. Proof. by []. Qed.
Lemma RoppE (x : R) : Ropp x = (- x)%R :> R. Proof. by []. Qed.
Lemma RmulE (x y : R) : Rmult x y = (x * y)%R :> R. Proof. by []. Qed.
Lemma RsubE (x y : R) : Rminus x y = (x - y)%R :> R. Proof. by []. Qed.
Lemma RinvE (x : R) : x <> 0 -> Rinv x = (x^-1)%R :> R.
Proof. by move=> /eqP x0; rewrite /GRing.inv /= /Rinvx x0. Qed.
Lemma RdivE (x y : R) : y <> 0 -> Rdiv x y = (x / y)%R :> R.
Proof. by move=> y0; rewrite /Rdiv RinvE. Qed.
Lemma RabsE (x : R) : Rabs x = `|x|%R :> R. Proof. by []. Qed.
Lemma RnatE (n : nat) : INR n = (n%:R)%R :> R.
Proof. by elim: n => [//|n IH]; rewrite S_INR IH -addn1 natrD. Qed.
Lemma RpowE (x : R) (n : nat) : pow x n = (x ^+ n)%R :> R.
Proof. by elim: n => [|n IH]; rewrite ?expr0 // exprS /= IH. Qed.

(** [R] is real closed: the intermediate value theorem of the standard library
    applied to the (continuous) evaluation map of a polynomial. *)
Lemma continuity_horner (p : {poly R}) : continuity (fun x => p.[x]%R).
Proof.
elim/poly_ind: p => [|p c IH].
  rewrite (_ : (fun x => _) = (fun _ => 0)); last first.
    by apply: functional_extensionality => x; rewrite horner0.
  exact: continuity_const.
rewrite (_ : (fun x => _) = ((fun x => p.[x]%R) * id + fct_cte c)%F); last first.
  apply: functional_extensionality => x.
  by rewrite hornerD hornerM hornerX hornerC.
apply: continuity_plus; last exact: continuity_const.
by apply: continuity_mult => //; apply/derivable_continuous/derivable_id.
Qed.

Lemma R_real_closed_axiom : Num.real_closed_axiom [numDomainType of R].
Proof.
move=> p a b leab /andP[pa pb].
have [z [zab pz0]] : { z | a <= z <= b /\ (fun x => p.[x]%R) z = 0 }.
  apply: IVT_cor; first exact: continuity_horner.
    exact/RleP.
  move/RleP: pa => pa; move/RleP: pb => pb.
  have -> : (0 : R) = 0 * p.[b]%R by rewrite Rmult_0_l.
  by apply: Rmult_le_compat_r.
exists z; last by apply/rootP.
by case: zab => az zb; apply/andP; split; apply/RleP.
Qed.
Canonical R_rcfType := RcfType R R_real_closed_axiom.

(** Complex numbers over [R]. *)
Definition Cx : numClosedFieldType := [numClosedFieldType of R[i]].
