(** Lemmas about the models of Eigh.v. *)
From Coq Require Import Reals Lra ClassicalEpsilon.
From mathcomp Require Import all_ssreflect all_algebra.
From mathcomp.algebra_tactics Require Import ring.
From Verif Require Import RStruct MxC CxR NpLin RealLemmas Spectral Eigh.
Import Order.TTheory GRing.Theory Num.Theory.
Set Implicit Arguments.
Unset Strict Implicit.
Unset Printing Implicit Defensive.
Local Open Scope ring_scope.

Definition unitary n (P : 'M[Cx]_n) : Prop := P^H *m P = 1%:M.

Lemma unitaryC n (P : 'M[Cx]_n) : unitary P -> P *m P^H = 1%:M.
Proof. exact: mulmx1C. Qed.
Lemma unitary_unit n (P : 'M[Cx]_n) : unitary P -> P \in unitmx.
Proof. by move=> /unitaryC/mulmx1_unit[]. Qed.
Lemma unitary_inv n (P : 'M[Cx]_n) : unitary P -> invmx P = P^H.
Proof.
by move=> uP; rewrite -[RHS]mulmx1 -(mulmxV (unitary_unit uP)) mulmxA uP mul1mx.
Qed.

(** ** real diagonal matrices *)
Definition rmul n (a b : 'rV[R]_n) : 'rV[R]_n := \row_i (a 0 i * b 0 i).

Lemma rdiagE n (d : 'rV[R]_n) i j : rdiag d i j = (c (d 0 i)) *+ (i == j).
Proof. by rewrite !mxE. Qed.
Lemma rdiag_ctr n (d : 'rV[R]_n) : (rdiag d)^H = rdiag d.
Proof.
rewrite /rdiag ctr_diag; congr diag_mx; apply/rowP => i; by rewrite !mxE c_conj.
Qed.
Lemma rdiagM n (a b : 'rV[R]_n) : rdiag a *m rdiag b = rdiag (rmul a b).
Proof.
apply/matrixP => i j; rewrite mul_diag_mx !mxE.
by case: eqP => [->|]; rewrite ?mulr0n ?mulr0 // !mulr1n cM.
Qed.
Lemma rmulC n (a b : 'rV[R]_n) : rmul a b = rmul b a.
Proof. by apply/rowP => i; rewrite !mxE mulrC. Qed.
Lemma rdiag1 n : rdiag (const_mx 1%R : 'rV[R]_n) = 1%:M.
Proof. by apply/matrixP => i j; rewrite !mxE c1. Qed.
Lemma form_rdiag n (d : 'rV[R]_n) (x : 'cV[Cx]_n) :
  form (rdiag d) x x = c (\sum_i d 0 i * cabs (x i 0) ^+ 2).
Proof.
rewrite /form -mulmxA mxE c_sum; apply: eq_bigr => i _.
rewrite mul_diag_mx !mxE cM cabs_sqr.
by rewrite mulrCA [(x i 0)^* * _]mulrC.
Qed.
Lemma form1E n (x : 'cV[Cx]_n) : form 1%:M x x = c (\sum_i cabs (x i 0) ^+ 2).
Proof.
by rewrite -rdiag1 form_rdiag; congr c; apply: eq_bigr => i _; rewrite mxE mul1r.
Qed.
Lemma psd_rdiag n (d : 'rV[R]_n) : (forall i, (0 <= d 0%R i)%coqR) -> psd (rdiag d).
Proof.
move=> H; split; first exact: rdiag_ctr.
move=> x; rewrite form_rdiag; apply: c_ge0; apply: sumR_ge0 => i _.
by apply/RleP; apply: mulr_ge0; [apply/RleP; apply: H|rewrite sqr_ge0].
Qed.
Lemma pd_rdiag n (d : 'rV[R]_n) : (forall i, (0 < d 0%R i)%coqR) -> pd (rdiag d).
Proof.
move=> H; split; first exact: rdiag_ctr.
move=> x x0; rewrite form_rdiag; apply: c_gt0; apply/RltP.
have pos i : true -> 0 <= d 0 i * cabs (x i 0) ^+ 2.
  by move=> _; apply: mulr_ge0; [apply/RleP; apply: Rlt_le; apply: H|rewrite sqr_ge0].
rewrite lt_def sumr_ge0 // andbT; apply: contra x0 => /eqP /psumr_eq0P H0.
apply/eqP/matrixP => i j; rewrite ord1 mxE; apply/eqP; rewrite -cabs_eq0.
have /eqP := H0 pos i isT; rewrite mulf_eq0 => /orP[/eqP e|].
  by have := H i; rewrite e => /Rlt_irrefl.
by rewrite expf_eq0.
Qed.

(** ** P diag(d) P^H *)
Lemma recompose_ctr n d (P : 'M[Cx]_n) : (recompose d P)^H = recompose d P.
Proof. by rewrite /recompose !ctrM ctrK rdiag_ctr mulmxA. Qed.
Lemma recomposeM n a b (P : 'M[Cx]_n) : unitary P ->
  recompose a P *m recompose b P = recompose (rmul a b) P.
Proof.
move=> uP; rewrite /recompose -!mulmxA -rdiagM -!mulmxA; congr (_ *m (_ *m _)).
by rewrite mulmxA uP mul1mx.
Qed.
Lemma recompose1 n (P : 'M[Cx]_n) : unitary P -> recompose (const_mx 1%R) P = 1%:M.
Proof. by move=> /unitaryC uP; rewrite /recompose rdiag1 mulmx1. Qed.
Lemma recompose_psd n (d : 'rV[R]_n) (P : 'M[Cx]_n) :
  (forall i, (0 <= d 0%R i)%coqR) -> psd (recompose d P).
Proof.
by move=> H; rewrite /recompose -{1}[P]ctrK; apply: psd_congr; apply: psd_rdiag.
Qed.
Lemma recompose_pd n (d : 'rV[R]_n) (P : 'M[Cx]_n) : P \in unitmx ->
  (forall i, (0 < d 0%R i)%coqR) -> pd (recompose d P).
Proof.
move=> uP H; rewrite /recompose -{1}[P]ctrK; apply: pd_congr_unit; rewrite ?ctr_unit //.
exact: pd_rdiag.
Qed.
Lemma form_recompose n d (P : 'M[Cx]_n) x :
  form (recompose d P) x x = form (rdiag d) (P^H *m x) (P^H *m x).
Proof. by rewrite formM ctrK. Qed.

(** ** consequences of the contract *)
Lemma eigh_recompose n (A : 'M[Cx]_n) r : eigh_spec A r -> A = recompose r.1 r.2.
Proof.
case: r => d P [/= uP e _]; rewrite /recompose -e -mulmxA unitaryC // mulmx1 //.
Qed.
Lemma eigh_unitary n (A : 'M[Cx]_n) r : eigh_spec A r -> unitary r.2.
Proof. by case. Qed.
Lemma eigh_val n (A : 'M[Cx]_n) r i : eigh_spec A r ->
  c (r.1 0 i) = form A (col i r.2) (col i r.2).
Proof.
case: r => d P [/= uP e _].
have -> : col i P = P *m delta_mx i 0 by rewrite colE.
rewrite formM -mulmxA e mulmxA uP mul1mx form_rdiag; congr c.
rewrite (bigD1 i) //= big1 ?addr0 => [|j ji]; rewrite !mxE.
  by rewrite !eqxx cabs1 expr1n mulr1.
by rewrite (negbTE ji) cabs0 expr0n mulr0.
Qed.
Lemma eigh_col_neq0 n (A : 'M[Cx]_n) r i : eigh_spec A r -> col i r.2 != 0.
Proof.
case: r => d P [/= uP _ _]; apply/negP => /eqP e.
have := congr1 (fun M : 'M_n => M i i) uP; rewrite !mxE eqxx => /eqP.
rewrite big1 ?(eq_sym 0) ?oner_eq0 // => k _.
by have := congr1 (fun M : 'cV_n => M k 0) e; rewrite !mxE => ->; rewrite mulr0.
Qed.
Lemma eigh_val_ge0 n (A : 'M[Cx]_n) r i : psd A -> eigh_spec A r -> (0 <= r.1 0%R i)%coqR.
Proof.
by move=> [_ pA] s; have := pA (col i r.2); rewrite -(eigh_val i s) -c0 cle => /RleP.
Qed.
Lemma eigh_val_gt0 n (A : 'M[Cx]_n) r i : pd A -> eigh_spec A r -> (0 < r.1 0%R i)%coqR.
Proof.
move=> [_ pA] s; have := pA _ (eigh_col_neq0 i s).
by rewrite -(eigh_val i s) -c0 clt => /RltP.
Qed.

(** ** the contracts can be met *)
Lemma eigh_exists n (A : 'M[Cx]_n) : A^H = A -> exists r, eigh_spec A r.
Proof.
move=> /spectral_theorem[V [d [uV e rd sd]]].
have ed : map_mx c (map_mx re d) = d.
  by apply/rowP => i; rewrite !mxE -real_cre.
exists (map_mx re d, V); split=> //=.
  by rewrite /rdiag ed.
move=> i j ij; rewrite !mxE; apply/RleP; rewrite -cle -!real_cre //; exact: sd.
Qed.
Lemma sqrt_exists n (A : 'M[Cx]_n) : pd A -> exists2 S, pd S & S *m S = A.
Proof.
move=> pA; have [r s] := eigh_exists (proj1 pA).
exists (recompose (map_mx R_sqrt.sqrt r.1) r.2).
  apply: recompose_pd; first by apply: unitary_unit; apply: eigh_unitary s.
  by move=> i; rewrite mxE; apply: sqrt_lt_R0; apply: eigh_val_gt0 s.
rewrite recomposeM; last exact: eigh_unitary s.
rewrite [RHS](eigh_recompose s); congr recompose.
apply/rowP => i; rewrite !mxE -RmulE; apply: sqrt_sqrt; apply: Rlt_le.
exact: eigh_val_gt0 s.
Qed.
Lemma chol_exists n (A : 'M[Cx]_n) : pd A -> exists L : 'M[Cx]_n, L *m L^H = A.
Proof. by move=> /sqrt_exists[S [hS _] <-]; exists S; rewrite hS. Qed.

Lemma eigh_contract_sat : exists eig, eigh_contract eig.
Proof.
exists (fun n A => epsilon (inhabits (0, 0)) (eigh_spec A)) => n A hA.
exact: epsilon_spec (eigh_exists hA).
Qed.
Lemma chol_contract_sat : exists chol, chol_contract chol.
Proof.
exists (fun n A => Some (epsilon (inhabits 0) (fun L : 'M[Cx]_n => L *m L^H = A))) => n A pA.
exists (epsilon (inhabits 0) (fun L : 'M[Cx]_n => L *m L^H = A)) => //.
exact: (@epsilon_spec _ (inhabits 0) (fun L : 'M[Cx]_n => L *m L^H = A)) (chol_exists pA).
Qed.

(** ** uniqueness of positive definite square roots *)
Lemma herm_eq0 n (D : 'M[Cx]_n) : D^H = D ->
  (forall (x : 'cV[Cx]_n) a, x != 0 -> D *m x = c a *: x -> a = 0) -> D = 0.
Proof.
move=> hD H; have [r s] := eigh_exists hD.
have d0 : r.1 = 0.
  apply/rowP => i; rewrite [in RHS]mxE; apply: (H (col i r.2)); first exact: eigh_col_neq0 s.
  case: s => _ e _; rewrite {1}colE mulmxA e.
  by rewrite -colE; apply/colP => k; rewrite /rdiag mul_mx_diag !mxE mulrC.
rewrite (eigh_recompose s) d0 /recompose (_ : rdiag 0 = 0) ?mulmx0 ?mul0mx //.
by apply/matrixP => i j; rewrite !mxE c0 mul0rn.
Qed.
Lemma pd_sqrt_uniq n (S T : 'M[Cx]_n) : pd S -> pd T -> S *m S = T *m T -> S = T.
Proof.
move=> pS pT e; apply/eqP; rewrite -subr_eq0; apply/eqP; apply: herm_eq0.
  by rewrite ctrB (proj1 pS) (proj1 pT).
move=> x a x0 ea.
have e1 : S *m (S - T) + (S - T) *m T = 0.
  by rewrite mulmxBr mulmxBl addrA subrK e subrr.
have : form (S *m (S - T) + (S - T) *m T) x x = 0 by rewrite e1 /form mulmx0 mul0mx mxE.
rewrite {1}/form mulmxDr mulmxDl mxE -!/(form _ _ _) formMU ea formZr.
have -> : form ((S - T) *m T) x x = c a * form T x x.
  rewrite /form mulmxA.
  have -> : x^H *m (S - T) = c a *: x^H.
    by apply: ctr_inj; rewrite ctrM ctrB (proj1 pS) (proj1 pT) ctrK ea ctrZ c_conj ctrK.
  by rewrite -!scalemxAl mxE.
move/eqP; rewrite -mulrDr mulf_eq0 => /orP[|].
  by rewrite c_eq0 => /eqP.
by rewrite gt_eqF // addr_gt0 //; [apply: (proj2 pS)|apply: (proj2 pT)].
Qed.

(** the positive definite solution of [G B G = A] is unique *)
Lemma riccati_uniq n (B G H : 'M[Cx]_n) : pd B -> pd G -> pd H ->
  G *m B *m G = H *m B *m H -> G = H.
Proof.
move=> pB pG pH e; have [S pS eS] := sqrt_exists pB.
have uS := pd_unit pS; have hS := proj1 pS.
have E (K : 'M[Cx]_n) : (S *m K *m S) *m (S *m K *m S) = S *m (K *m B *m K) *m S.
  by rewrite -eS !mulmxA.
have : S *m G *m S = S *m H *m S.
  apply: pd_sqrt_uniq; last by rewrite !E e.
    by rewrite -{1}hS; apply: pd_congr_unit.
  by rewrite -{1}hS; apply: pd_congr_unit.
move/(congr1 (mulmxr (invmx S))); rewrite /= !mulmxK //.
by move/(congr1 (mulmx (invmx S))); rewrite !mulKmx.
Qed.

(** ** generalised eigenproblem *)
Section Gen.
Variables (eig : eigh_t) (chol : chol_t).
Hypotheses (He : eigh_contract eig) (Hc : chol_contract chol).
Variables (n : nat) (inv : 'M[Cx]_n -> option 'M[Cx]_n).
Hypothesis Hinv : forall M, M \in unitmx -> inv M = Some (invmx M).
Variables (A B : 'M[Cx]_n).
Hypotheses (hA : A^H = A) (pB : pd B).

Lemma chol_unit (L : 'M[Cx]_n) : L *m L^H = B -> L \in unitmx.
Proof. by move=> e; have := pd_unit pB; rewrite -e unitmx_mul => /andP[]. Qed.

Lemma geigh1 : exists l Z, [/\ geigh eig chol inv A B 1 = Ok (l, Z),
  A *m Z = B *m Z *m rdiag l, Z^H *m B *m Z = 1%:M, Z \in unitmx &
  forall i j : 'I_n, (i <= j)%N -> (l 0%R i <= l 0%R j)%coqR].
Proof.
have [L eL LB] := Hc pB; have uL := chol_unit LB.
rewrite /geigh eL /= Hinv //.
set Cm := invmx L *m A *m (invmx L)^H.
have hC : Cm^H = Cm by rewrite /Cm !ctrM ctrK hA mulmxA.
have [uy ey sy] := He hC; case: (eig Cm) uy ey sy => l y /= uy ey sy.
exists l, ((invmx L)^H *m y); split=> //.
- have -> : A *m ((invmx L)^H *m y) = L *m (Cm *m y).
    by rewrite /Cm !mulmxA mulmxV // mul1mx.
  rewrite ey -LB -!mulmxA ctr_inv mulKVmx ?ctr_unit //.
- rewrite ctrM ctrK -LB !mulmxA -[y^H *m _ *m _]mulmxA mulVmx // mulmx1.
  by rewrite -[y^H *m _ *m _]mulmxA ctr_inv mulmxV ?ctr_unit // mulmx1.
- by rewrite unitmx_mul ctr_unit unitmx_inv uL (unitary_unit uy).
Qed.

Lemma geigh2 : exists l Z, [/\ geigh eig chol inv A B 2 = Ok (l, Z),
  A *m B *m Z = Z *m rdiag l, Z^H *m B *m Z = 1%:M, Z \in unitmx &
  forall i j : 'I_n, (i <= j)%N -> (l 0%R i <= l 0%R j)%coqR].
Proof.
have [L eL LB] := Hc pB; have uL := chol_unit LB.
rewrite /geigh eL /= Hinv ?ctr_unit //.
set Cm := L^H *m A *m L.
have hC : Cm^H = Cm by rewrite /Cm !ctrM ctrK hA mulmxA.
have [uy ey sy] := He hC; case: (eig Cm) uy ey sy => l y /= uy ey sy.
have uH : L^H \in unitmx by rewrite ctr_unit.
exists l, (invmx L^H *m y); split=> //.
- by rewrite -[RHS]mulmxA -ey /Cm -LB -!mulmxA mulKVmx // mulKmx.
- rewrite ctrM -LB ctr_inv ctrK !mulmxA -[y^H *m _ *m _]mulmxA mulVmx // mulmx1.
  by rewrite -[y^H *m _ *m _]mulmxA mulmxV // mulmx1.
- by rewrite unitmx_mul unitmx_inv uH (unitary_unit uy).
Qed.

Lemma geigh3 : exists l Z, [/\ geigh eig chol inv A B 3 = Ok (l, Z),
  B *m A *m Z = Z *m rdiag l, Z^H *m invmx B *m Z = 1%:M, Z \in unitmx &
  forall i j : 'I_n, (i <= j)%N -> (l 0%R i <= l 0%R j)%coqR].
Proof.
have [L eL LB] := Hc pB; have uL := chol_unit LB.
rewrite /geigh eL /=.
set Cm := L^H *m A *m L.
have hC : Cm^H = Cm by rewrite /Cm !ctrM ctrK hA mulmxA.
have [uy ey sy] := He hC; case: (eig Cm) uy ey sy => l y /= uy ey sy.
have uH : L^H \in unitmx by rewrite ctr_unit.
exists l, (L *m y); split=> //.
- by rewrite -[RHS]mulmxA -ey /Cm -LB !mulmxA.
- rewrite ctrM -LB invmx_mul // -!mulmxA mulKmx // mulKVmx //.
- by rewrite unitmx_mul uL (unitary_unit uy).
Qed.

Lemma geigh_other type : (type \notin [:: 1; 2; 3]%N) ->
  geigh eig chol inv A B type = ValueError.
Proof.
rewrite !inE !negb_or => /and3P[/negbTE t1 /negbTE t2 /negbTE t3].
by have [L eL _] := Hc pB; rewrite /geigh eL t1 t2 t3.
Qed.
End Gen.

Lemma np_invE n (M : 'M[Cx]_n) : M \in unitmx -> np_inv M = Some (invmx M).
Proof. by rewrite /np_inv => ->. Qed.

(** ** 2x2 *)
Lemma ord2P (i : 'I_2) : i = 0 \/ i = 1.
Proof. by case: i => [[|[|]]] // p; [left|right]; apply: val_inj. Qed.
Lemma sum2 (V : zmodType) (F : 'I_2 -> V) : \sum_(i < 2) F i = F 0 + F 1.
Proof.
by rewrite !big_ord_recl big_ord0 addr0; congr (_ + F _); apply: val_inj.
Qed.
Lemma det2 (X : 'M[Cx]_2) : \det X = X 0 0 * X 1 1 - X 0 1 * X 1 0.
Proof.
rewrite (expand_det_row _ 0) !big_ord_recl big_ord0 addr0 /cofactor !det_mx11 !mxE /=.
rewrite expr0 expr1 mul1r mulN1r mulrN; congr (X _ _ * X _ _ - X _ _ * X _ _); exact: val_inj.
Qed.
Lemma inv2_spec (X : 'M[Cx]_2) :
  inv2 X = if \det X == 0 then None else Some (invmx X).
Proof.
rewrite /inv2 -det2; case: ifPn => // d0; congr Some.
have uX : X \in unitmx by rewrite unitmxE unitfE.
set Y := _ *: _; rewrite -[RHS]mulmx1.
suff <- : X *m Y = 1%:M by rewrite mulKmx.
rewrite /Y -scalemxAr; apply: (scalerI d0); rewrite scalerA mulfV // scale1r.
rewrite det2; apply/matrixP => i j; rewrite !mxE sum2 !mxE /=.
by case: (ord2P i) => ->; case: (ord2P j) => ->; rewrite /=; ring.
Qed.
