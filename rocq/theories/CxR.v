(** Bridge between the standard library's reals and the complex field
    [Cx = R[i]]: real embedding, real part, modulus, and real-valued sums. *)
From Coq Require Import Reals Lra.
From mathcomp Require Import all_ssreflect all_algebra.
From mathcomp Require Import complex.
From mathcomp.algebra_tactics Require Import ring.
From Verif Require Import RStruct MxC.
Import Order.TTheory GRing.Theory Num.Theory.
Set Implicit Arguments.
Unset Strict Implicit.
Unset Printing Implicit Defensive.
Delimit Scope R_scope with coqR.
Local Open Scope ring_scope.

(** [toR] rewrites mathcomp ring operations on [R] into those of [Reals]. *)
Lemma R0E : IZR 0 = GRing.zero R_zmodType. Proof. by []. Qed.
Lemma R1E : IZR 1 = GRing.one R_ringType. Proof. by []. Qed.
Ltac toR := rewrite -?(RsubE, RaddE, RmulE, RoppE, R0E, R1E).
Ltac toRin H := rewrite -?(RsubE, RaddE, RmulE, RoppE, R0E, R1E) in H.

Definition c (x : R) : Cx := real_complex R x.
Arguments c x%R.
Definition re (z : Cx) : R := complex.Re z.
Definition cabs (z : Cx) : R := complex.Re (`|z| : Cx).

Lemma cD x y : c (x + y) = c x + c y. Proof. exact: rmorphD. Qed.
Lemma cN x : c (- x) = - c x. Proof. exact: rmorphN. Qed.
Lemma cB x y : c (x - y) = c x - c y. Proof. exact: rmorphB. Qed.
Lemma cM x y : c (x * y) = c x * c y. Proof. exact: rmorphM. Qed.
Lemma c0 : c 0 = 0. Proof. exact: rmorph0. Qed.
Lemma c1 : c 1 = 1. Proof. exact: rmorph1. Qed.
Lemma cV x : c (x^-1) = (c x)^-1. Proof. exact: fmorphV. Qed.
Lemma cX x n : c (x ^+ n) = c x ^+ n. Proof. exact: rmorphX. Qed.
Lemma c_sum I (r : seq I) (P : pred I) (F : I -> R) :
  c (\sum_(i <- r | P i) F i) = \sum_(i <- r | P i) c (F i).
Proof. exact: (big_morph c cD c0). Qed.
Lemma c_eq0 x : (c x == 0) = (x == 0). Proof. exact: fmorph_eq0. Qed.
Lemma c_inj : injective c. Proof. by move=> x y []. Qed.
Lemma c_conj x : (c x)^* = c x.
Proof. by apply: CrealP; apply/complex_realP; exists x. Qed.
Lemma c_real x : c x \is Num.real. Proof. by apply/complex_realP; exists x. Qed.

(** the same for the operations of [Reals] *)
Lemma cRD x y : c (x + y)%coqR = c x + c y. Proof. exact: cD. Qed.
Lemma cRN x : c (- x)%coqR = - c x. Proof. exact: cN. Qed.
Lemma cRB x y : c (x - y)%coqR = c x - c y. Proof. exact: cB. Qed.
Lemma cRM x y : c (x * y)%coqR = c x * c y. Proof. exact: cM. Qed.
Lemma cRX x n : c (x ^ n)%coqR = c x ^+ n. Proof. by rewrite RpowE cX. Qed.
Lemma cRV x : x <> 0%coqR -> c (/ x)%coqR = (c x)^-1.
Proof. by move=> x0; rewrite RinvE // cV. Qed.
Lemma cRdiv x y : y <> 0%coqR -> c (x / y)%coqR = c x / c y.
Proof. by move=> y0; rewrite /Rdiv cRM cRV. Qed.
Lemma cR1 : c (IZR 1) = 1. Proof. exact: c1. Qed.
Lemma cR0 : c (IZR 0) = 0. Proof. exact: c0. Qed.
Lemma cR2 : c (IZR 2) = 2%:R. Proof. by rewrite -[IZR 2]/(1 + 1)%coqR cRD cR1. Qed.
Lemma c_neq0 x : x <> 0%coqR -> c x != 0. Proof. by move=> h; rewrite c_eq0; apply/eqP. Qed.

Lemma rec x : re (c x) = x. Proof. by []. Qed.
Lemma reD x y : re (x + y) = re x + re y. Proof. by case: x y => a b []. Qed.
Lemma reN x : re (- x) = - re x. Proof. by case: x. Qed.
Lemma reB x y : re (x - y) = re x - re y. Proof. by rewrite reD reN. Qed.
Lemma re0 : re 0 = 0. Proof. by []. Qed.
Lemma re1 : re 1 = 1. Proof. by []. Qed.
Lemma re_sum I (r : seq I) (P : pred I) (F : I -> Cx) :
  re (\sum_(i <- r | P i) F i) = \sum_(i <- r | P i) re (F i).
Proof. exact: (big_morph re reD re0). Qed.
Lemma reMc x z : re (c x * z) = x * re z.
Proof. by case: z => a b; rewrite /re /= mul0r subr0. Qed.
Lemma re_conj z : re z^* = re z.
Proof.
by apply: c_inj; rewrite /c /re !complexRe -{1}[z]conjCK Re_conj conjCK.
Qed.

Lemma cle x y : (c x <= c y) = (x <= y). Proof. exact: lecR. Qed.
Lemma clt x y : (c x < c y) = (x < y). Proof. exact: ltcR. Qed.
Lemma real_cre (z : Cx) : z \is Num.real -> z = c (re z).
Proof. by move=> /RRe_real <-. Qed.
Lemma ge0_cre (z : Cx) : 0 <= z -> z = c (re z) /\ (0 <= re z)%coqR.
Proof.
move=> z0; have e := real_cre (ger0_real z0); split=> //.
by apply/RleP; rewrite -cle c0 -e.
Qed.
Lemma gt0_cre (z : Cx) : 0 < z -> z = c (re z) /\ (0 < re z)%coqR.
Proof.
move=> z0; have e := real_cre (gtr0_real z0); split=> //.
by apply/RltP; rewrite -clt c0 -e.
Qed.
Lemma c_ge0 x : (0 <= x)%coqR -> 0 <= c x. Proof. by move/RleP; rewrite -c0 cle. Qed.
Lemma c_gt0 x : (0 < x)%coqR -> 0 < c x. Proof. by move/RltP; rewrite -c0 clt. Qed.

Lemma cabsE z : `|z| = c (cabs z).
Proof. by rewrite {1}[`|z|]real_cre // normr_real. Qed.
Lemma cabs_ge0 z : (0 <= cabs z)%coqR.
Proof. by apply/RleP; rewrite -cle c0 -cabsE normr_ge0. Qed.
Lemma cabs_gt0 z : z != 0 -> (0 < cabs z)%coqR.
Proof. by move=> z0; apply/RltP; rewrite -clt c0 -cabsE normr_gt0. Qed.
Lemma cabsM x y : cabs (x * y) = cabs x * cabs y.
Proof. by apply: c_inj; rewrite cM -!cabsE normrM. Qed.
Lemma cabs0 : cabs 0 = 0. Proof. by apply: c_inj; rewrite -cabsE normr0 c0. Qed.
Lemma cabs1 : cabs 1 = 1. Proof. by apply: c_inj; rewrite -cabsE normr1 c1. Qed.
Lemma cabs_conj z : cabs z^* = cabs z.
Proof. by apply: c_inj; rewrite -!cabsE norm_conjC. Qed.
Lemma cabs_c x : cabs (c x) = Rabs x.
Proof.
apply: c_inj; rewrite -cabsE; case: (Rle_or_lt 0 x) => x0.
  by rewrite Rabs_pos_eq // ger0_norm // c_ge0.
rewrite Rabs_left // -[(- x)%coqR]/(- x) cN ler0_norm //.
by rewrite -c0 cle; apply/RleP; toR; lra.
Qed.
Lemma cabsN z : cabs (- z) = cabs z.
Proof. by apply: c_inj; rewrite -!cabsE normrN. Qed.
Lemma cabsV z : cabs z^-1 = (cabs z)^-1.
Proof. by apply: c_inj; rewrite cV -!cabsE normfV. Qed.
Lemma cabs_triang x y : (cabs (x + y) <= cabs x + cabs y)%coqR.
Proof. by apply/RleP; rewrite -cle -cabsE RaddE cD -!cabsE ler_norm_add. Qed.
Lemma cabs_sqr z : c (cabs z ^+ 2) = z * z^*.
Proof. by rewrite cX -cabsE normCK. Qed.
Lemma cR_cabs_sqr z : c (cabs z) ^+ 2 = z * z^*.
Proof. by rewrite -cX cabs_sqr. Qed.
Lemma re_zzc z : re (z * z^*) = cabs z ^+ 2.
Proof. by rewrite -cabs_sqr rec. Qed.
Lemma cabs_eq0 z : (cabs z == 0) = (z == 0).
Proof. by rewrite -c_eq0 -cabsE normr_eq0. Qed.
Lemma re_le_cabs z : (re z <= cabs z)%coqR.
Proof.
have := normc_ge_Re z; rewrite cabsE cle => /RleP H.
by apply: Rle_trans H; apply: Rle_abs.
Qed.

(** Cartesian form *)
Definition im (z : Cx) : R := complex.Im z.
Definition mkC (a b : R) : Cx := (Complex a b).
Lemma mkCE z : z = mkC (re z) (im z). Proof. by case: z. Qed.
Lemma re_mkC a b : re (mkC a b) = a. Proof. by []. Qed.
Lemma im_mkC a b : im (mkC a b) = b. Proof. by []. Qed.
Arguments mkC (a b)%R.
Lemma c_mkC a : c a = mkC a 0%R. Proof. by []. Qed.
Lemma mkC_inj a b a' b' : mkC a b = mkC a' b' -> a = a' /\ b = b'. Proof. by case. Qed.
Lemma mkCM a b a' b' : mkC a b * mkC a' b' = mkC (a * a' - b * b') (a * b' + b * a').
Proof. by []. Qed.
Lemma mkCD a b a' b' : mkC a b + mkC a' b' = mkC (a + a') (b + b'). Proof. by []. Qed.
Lemma mkCN a b : - mkC a b = mkC (- a) (- b). Proof. by []. Qed.
Lemma mkC_conj a b : (mkC a b)^* = mkC a (- b). Proof. by []. Qed.
Lemma cabs_mkC a b : cabs (mkC a b) ^+ 2 = a ^+ 2 + b ^+ 2.
Proof.
by apply: c_inj; rewrite cabs_sqr mkC_conj mkCM c_mkC; congr mkC; ring.
Qed.

(** Sums of reals *)
Lemma sumR_ge0 I (r : seq I) (P : pred I) (F : I -> R) :
  (forall i, P i -> (0 <= F i)%coqR) -> (0 <= \sum_(i <- r | P i) F i)%coqR.
Proof. by move=> H; apply/RleP; apply: sumr_ge0 => i /H /RleP. Qed.
Lemma sumR_le I (r : seq I) (P : pred I) (F G : I -> R) :
  (forall i, P i -> (F i <= G i)%coqR) ->
  (\sum_(i <- r | P i) F i <= \sum_(i <- r | P i) G i)%coqR.
Proof. by move=> H; apply/RleP; apply: ler_sum => i /H /RleP. Qed.

Global Opaque Cx.
