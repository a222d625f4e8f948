(** Inner products of matrices and facts about the updates of the proximal methods. *)
From Coq Require Import Reals Lra.
From mathcomp Require Import all_ssreflect all_algebra.
From mathcomp Require Import ring.
From Verif Require Import RStruct MxC CxR NpLin RealLemmas Eigh EighProofs Prox ProxProofs SvdExist Prop_Prox NmfMM ProxBss.
Import Order.TTheory GRing.Theory Num.Theory.
Set Implicit Arguments.
Unset Strict Implicit.
Unset Printing Implicit Defensive.
Local Open Scope ring_scope.

(** squared Frobenius norm *)
Definition nrm m n (A : 'M[Cx]_(m, n)) : R := \sum_i \sum_j cabs (A i j) ^+ 2.
Definition mip m n (A B : 'M[Cx]_(m, n)) : R := re (\tr (A^H *m B)).
Section Ip.
Variables m n : nat.
Implicit Types A B C : 'M[Cx]_(m, n).
Lemma mip_nrm A : mip A A = nrm A.
Proof.
rewrite /mip /nrm /mxtrace re_sum exchange_big /=; apply: eq_bigr => j _; rewrite mxE re_sum; apply: eq_bigr => i _.
by rewrite ctrE mulrC re_zzc.
Qed.
Lemma mipDl A B C : mip (A + B) C = mip A C + mip B C.
Proof. by rewrite /mip ctrD mulmxDl mxtraceD reD. Qed.
Lemma mipDr A B C : mip C (A + B) = mip C A + mip C B.
Proof. by rewrite /mip mulmxDr mxtraceD reD. Qed.
Lemma mipNl A B : mip (- A) B = - mip A B.
Proof. by rewrite /mip ctrN mulNmx raddfN /= reN. Qed.
Lemma mipNr A B : mip A (- B) = - mip A B.
Proof. by rewrite /mip mulmxN raddfN /= reN. Qed.
Lemma mipC A B : mip A B = mip B A.
Proof.
rewrite /mip -[RHS]re_conj; congr re; rewrite -[A in RHS]ctrK -ctrM /mxtrace rmorph_sum; apply: eq_bigr => i _.
by rewrite [in RHS]ctrE /= conjCK.
Qed.
Lemma mip_sumr I (r : seq I) (F : I -> 'M[Cx]_(m, n)) A : mip A (\sum_(i <- r) F i) = \sum_(i <- r) mip A (F i).
Proof. by rewrite /mip mulmx_sumr raddf_sum /= re_sum. Qed.
Lemma mipZl (a : R) A B : mip (c a *: A) B = a * mip A B.
Proof. by rewrite /mip ctrZ c_conj -scalemxAl mxtraceZ reMc. Qed.
Lemma mipZr (a : R) A B : mip A (c a *: B) = a * mip A B.
Proof. by rewrite /mip -scalemxAr mxtraceZ reMc. Qed.
Lemma nrmD A B : nrm (A + B) = nrm A + 2%:R * mip A B + nrm B.
Proof. by rewrite -!mip_nrm !mipDl !mipDr (mipC B A) mulr_natl mulr2n !addrA. Qed.
Lemma nrm_ge0 A : (0 <= nrm A)%coqR.
Proof. by apply: sumR_ge0 => i _; apply: sumR_ge0 => j _; apply/RleP/sqr_ge0. Qed.
Lemma nrmN A : nrm (- A) = nrm A.
Proof. by rewrite -!mip_nrm mipNl mipNr opprK. Qed.
Lemma nrm0 : nrm (0 : 'M[Cx]_(m, n)) = 0.
Proof. by rewrite /nrm big1 // => i _; rewrite big1 // => j _; rewrite mxE cabs0 expr0n. Qed.
Lemma nrm_entry A i j : (cabs (A i j) ^+ 2 <= nrm A)%coqR.
Proof.
rewrite /nrm (bigD1 i) //= (bigD1 j) //=.
have h1 : (0 <= (\sum_(k | k != j) cabs (A i k) ^+ 2)%R)%coqR by apply: sumR_ge0 => k _; apply/RleP/sqr_ge0.
have h2 : (0 <= (\sum_(k | k != i) \sum_j cabs (A k j) ^+ 2)%R)%coqR.
  by apply: sumR_ge0 => k _; apply: sumR_ge0 => l _; apply/RleP/sqr_ge0.
by move: h1 h2; toR; move: (\sum_(_ | _) _) (\sum_(_ | _) _) (cabs _ ^+ 2) => *; lra.
Qed.
(** |V - Z|^2 around a third point *)
Lemma nrm3 A B C : nrm (A - C) = nrm (A - B) + 2%:R * mip (A - B) (B - C) + nrm (B - C).
Proof. by rewrite -nrmD; congr nrm; rewrite addrA subrK. Qed.
End Ip.
Lemma mip_mulr n T (D : 'M[Cx]_(n, T)) (Z : 'M[Cx]_n) (X : 'M[Cx]_(n, T)) : mip D (Z *m X) = mip (D *m X^H) Z.
Proof. by rewrite /mip mulmxA mxtrace_mulC mulmxA ctrM ctrK. Qed.

Lemma for_allP (I : finType) (A : zmodType) (f : I -> option A) g :
  for_all f = Some g -> forall i, f i = Some (g i).
Proof. by rewrite /for_all; case: ifP => // /forallP h [<-] i; have := h i; case: (f i). Qed.
Lemma for_all_some (I : finType) (A : zmodType) (f : I -> option A) :
  (forall i, exists x, f i = Some x) -> exists g, for_all f = Some g.
Proof.
move=> h; rewrite /for_all; have -> : [forall i, f i != None]; last by eexists.
by apply/forallP => i; have [x ->] := h i.
Qed.
Lemma for_all_inP (I : finType) J m n (f : I -> option (J -> 'M[Cx]_(m, n))) g :
  for_all_in f = Some g -> forall i, f i = Some (g i).
Proof. by rewrite /for_all_in; case: ifP => // /forallP h [<-] i; have := h i; case: (f i). Qed.
Lemma for_all_in_some (I : finType) J m n (f : I -> option (J -> 'M[Cx]_(m, n))) :
  (forall i, exists x, f i = Some x) -> exists g, for_all_in f = Some g.
Proof.
move=> h; rewrite /for_all_in; have -> : [forall i, isSome (f i)]; last by eexists.
by apply/forallP => i; have [x ->] := h i.
Qed.

(** conj(X) X^T + I is the transpose of a positive definite matrix *)
Lemma gram_tr n T (X : 'M[Cx]_(n, T)) : map_mx conjC X *m X^T = (X *m X^H)^T.
Proof. by rewrite trmx_mul; congr (_ *m _); apply/matrixP => i j; rewrite !mxE. Qed.
Lemma gram_unit n T (X : 'M[Cx]_(n, T)) (k : nat) : (k%:R *: (X *m X^H) + 1%:M) \in unitmx.
Proof. by apply: pd_unit; rewrite addrC; apply: pdD; [exact: pd1|apply: psdZ; [exact: ler0n|exact: psd_outer]]. Qed.
Lemma admm_filter_def n T Q (X : 'M[Cx]_(n, T)) VY (VYt : 'I_Q -> 'M[Cx]_(n, T)) :
  admm_filter X VY VYt = Some (invmx (Q%:R *: (X *m X^H) + 1%:M)^T *m (VY + (\sum_q VYt q) *m X^H)).
Proof.
have e : Q%:R *: (map_mx conjC X *m X^T) + 1%:M = (Q%:R *: (X *m X^H) + 1%:M)^T.
  by rewrite gram_tr raddfD /= linearZ /= trmx1.
rewrite /admm_filter /solve e unitmx_tr gram_unit; congr Some; congr (_ *m (_ + _)).
by rewrite trmx_mul trmxK; congr (_ *m _); apply/matrixP => i j; rewrite !mxE.
Qed.
