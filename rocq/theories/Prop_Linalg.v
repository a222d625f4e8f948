(** Properties C21-C25: inv2, eigh/eigh2, sqrtmh/invsqrtmh, gmeanmh, to_psd. *)
From Coq Require Import Reals Lra.
From mathcomp Require Import all_ssreflect all_algebra.
From Verif Require Import RStruct MxC CxR NpLin RealLemmas Eigh EighProofs Prop_IP1.
Import Order.TTheory GRing.Theory Num.Theory.
Set Implicit Arguments.
Unset Strict Implicit.
Unset Printing Implicit Defensive.
Local Open Scope ring_scope.

(** C21: inv2 returns the two-sided inverse of every matrix with non-zero
    determinant, and a non-finite result otherwise. *)
Theorem C21_inv2 (X : 'M[Cx]_2) :
  (X 0 0 * X 1 1 != X 0 1 * X 1 0 ->
     exists2 Y, inv2 X = Some Y & X *m Y = 1%:M /\ Y *m X = 1%:M) /\
  (X 0 0 * X 1 1 = X 0 1 * X 1 0 -> inv2 X = None).
Proof.
rewrite inv2_spec det2 -(inj_eq (addIr (- (X 0 1 * X 1 0)))) subrr.
split=> [d0|/eqP]; last by rewrite -subr_eq0 => ->.
have uX : X \in unitmx by rewrite unitmxE unitfE det2.
by rewrite (negbTE d0); eexists; [reflexivity|rewrite mulmxV // mulVmx].
Qed.
Example C21_instance : exW 0 0 * exW 1 1 != exW 0 1 * exW 1 0.
Proof. by rewrite !mxE /= mulr1 mulr0 oner_eq0. Qed.

(** C22: the generalised eigenproblem, for any eigen-solver and Cholesky routine
    meeting their contracts. *)
Theorem C22_type1 eig chol n (A B : 'M[Cx]_n) :
  eigh_contract eig -> chol_contract chol -> A^H = A -> pd B ->
  exists l Z, [/\ eigh eig chol A B 1 = Ok (l, Z),
    A *m Z = B *m Z *m rdiag l, Z^H *m B *m Z = 1%:M, Z \in unitmx &
    forall i j : 'I_n, (i <= j)%N -> (l 0%R i <= l 0%R j)%coqR].
Proof. by move=> He Hc hA pB; apply: geigh1 => //; apply: np_invE. Qed.

Theorem C22_type2 eig chol n (A B : 'M[Cx]_n) :
  eigh_contract eig -> chol_contract chol -> A^H = A -> pd B ->
  exists l Z, [/\ eigh eig chol A B 2 = Ok (l, Z),
    A *m B *m Z = Z *m rdiag l, Z^H *m B *m Z = 1%:M, Z \in unitmx &
    forall i j : 'I_n, (i <= j)%N -> (l 0%R i <= l 0%R j)%coqR].
Proof. by move=> He Hc hA pB; apply: geigh2 => //; apply: np_invE. Qed.

Theorem C22_type3 eig chol n (A B : 'M[Cx]_n) :
  eigh_contract eig -> chol_contract chol -> A^H = A -> pd B ->
  exists l Z, [/\ eigh eig chol A B 3 = Ok (l, Z),
    B *m A *m Z = Z *m rdiag l, Z^H *m invmx B *m Z = 1%:M, Z \in unitmx &
    forall i j : 'I_n, (i <= j)%N -> (l 0%R i <= l 0%R j)%coqR].
Proof. by move=> He Hc hA pB; apply: geigh3 => //; apply: np_invE. Qed.

Theorem C22_other_types eig chol n (A B : 'M[Cx]_n) type :
  chol_contract chol -> pd B -> type != 1%N -> type != 2%N -> type != 3%N ->
  eigh eig chol A B type = ValueError.
Proof.
move=> Hc pB t1 t2 t3; apply: geigh_other => //.
by rewrite !inE !negb_or t1 t2.
Qed.

(** C22: eigh2 is eigh on 2x2 matrices *)
Theorem C22_eigh2 eig chol (A B : 'M[Cx]_2) type :
  chol_contract chol -> pd B -> eigh2 eig chol A B type = eigh eig chol A B type.
Proof.
move=> Hc pB; have [L eL LB] := Hc _ _ pB; have uL := chol_unit pB LB.
have E (M : 'M[Cx]_2) : M \in unitmx -> inv2 M = np_inv M.
  by move=> uM; rewrite inv2_spec np_invE // -[_ == 0]negbK -unitfE -unitmxE uM.
by rewrite /eigh2 /eigh /geigh eL !E ?ctr_unit.
Qed.

Example C22_instance : exists eig chol,
  eigh_contract eig /\ chol_contract chol /\ (exU 0)^H = exU 0 /\ pd (exU 1).
Proof.
have [eig He] := eigh_contract_sat; have [chol Hc] := chol_contract_sat.
by exists eig, chol; do !split=> //; try exact: (proj1 (exU_pd _)); apply: (proj2 (exU_pd _)).
Qed.

Lemma forallRle n (l : 'rV[R]_n) :
  (forall i, (0 <= l 0%R i)%coqR) -> [forall i, Rleb 0 (l 0 i)].
Proof. by move=> H; apply/forallP => i; apply/RlebP. Qed.

(** C23: square root *)
Theorem C23_sqrtmh eig n (X : 'M[Cx]_n) : eigh_contract eig -> psd X ->
  exists S, [/\ sqrtmh eig X = Some S, psd S & S *m S = X].
Proof.
move=> He pX; have s := He n X (proj1 pX); rewrite /sqrtmh.
case: (eig n X) s => l P s; have l0 i := eigh_val_ge0 i pX s; simpl in *.
rewrite forallRle //; eexists; split; first reflexivity.
  by apply: recompose_psd => i; rewrite mxE; apply: sqrt_pos.
rewrite recomposeM; last exact: eigh_unitary s.
rewrite [RHS](eigh_recompose s); congr recompose.
by apply/rowP => i; rewrite !mxE -RmulE; apply: sqrt_sqrt; apply: l0.
Qed.

(** C23: inverse square root without flooring *)
Theorem C23_invsqrtmh eig n (X : 'M[Cx]_n) : eigh_contract eig -> pd X ->
  exists S, [/\ invsqrtmh eig identity_fl X = Some S, pd S,
    S *m X *m S = 1%:M & S *m S = invmx X].
Proof.
move=> He pX; have s := He n X (proj1 pX); rewrite /invsqrtmh /identity_fl.
case: (eig n X) s => l P s; have l0 i := eigh_val_gt0 i pX s; simpl in *.
have s0 i : (0 < R_sqrt.sqrt (l 0%R i))%coqR by apply: sqrt_lt_R0; apply: l0.
have -> : [forall i, Rleb 0 (l 0 i) && (R_sqrt.sqrt (l 0 i) != 0)].
  apply/forallP => i; apply/andP; split; first by apply/RlebP; apply: Rlt_le; apply: l0.
  by apply/eqP => e; have := s0 i; rewrite e => /Rlt_irrefl.
set S := recompose _ _.
have pS : pd S.
  apply: recompose_pd; first by apply: unitary_unit; apply: eigh_unitary s.
  by move=> i; rewrite mxE; apply: Rinv_0_lt_compat.
have SXS : S *m X *m S = 1%:M.
  rewrite [X](eigh_recompose s) /S !recomposeM; try exact: eigh_unitary s.
  rewrite -[RHS](recompose1 (eigh_unitary s)); congr recompose.
  apply/rowP => i; rewrite !mxE -!RmulE -[in X in (_ * X * _)%coqR](sqrt_sqrt (l 0%R i)).
    by have := s0 i; move: (R_sqrt.sqrt _) => q q0; rewrite -R1E; Rfield; lra.
  by apply: Rlt_le; apply: l0.
exists S; split=> //.
have uS := pd_unit pS; have uX := pd_unit pX.
have e : X = invmx S *m invmx S.
  rewrite -[LHS](mulmxK uS) -[X *m S in LHS](mulKmx uS).
  by rewrite [S *m (X *m S)]mulmxA SXS mulmx1.
by rewrite e invmx_mul ?unitmx_inv // !invmxK.
Qed.

(** C23: with max_flooring the result exists for every PSD matrix (singular ones
    included), is positive definite, and is bounded by 1/eps *)
Theorem C23_invsqrtmh_floored eig n (X : 'M[Cx]_n) eps :
  eigh_contract eig -> psd X -> (0 < eps)%coqR ->
  exists S, [/\ invsqrtmh eig (max_flooring eps) X = Some S, pd S &
    forall x, (re (form S x x) <= / eps * re (form 1%:M x x))%coqR].
Proof.
move=> He pX e0; have s := He n X (proj1 pX); rewrite /invsqrtmh /max_flooring.
case: (eig n X) s => l P s; have l0 i := eigh_val_ge0 i pX s; simpl in *.
set f := fun x => (/ Rmax (R_sqrt.sqrt x) eps)%coqR.
have m0 x : (0 < Rmax x eps)%coqR by apply: Rlt_le_trans (Rmax_r _ _).
have -> : [forall i, Rleb 0 (l 0 i) && (Rmax (R_sqrt.sqrt (l 0 i)) eps != 0)].
  apply/forallP => i; apply/andP; split; first by apply/RlebP; apply: l0.
  by apply/eqP => e; have := m0 (R_sqrt.sqrt (l 0%R i)); rewrite e => /Rlt_irrefl.
eexists; split; first reflexivity.
  apply: recompose_pd; first by apply: unitary_unit; apply: eigh_unitary s.
  by move=> i; rewrite mxE; apply: Rinv_0_lt_compat.
move=> x; rewrite form_recompose.
have -> : form 1%:M x x = form 1%:M (P^H *m x) (P^H *m x).
  by rewrite formM ctrK mulmx1 (unitaryC (eigh_unitary s)).
move: (P^H *m x) => y; rewrite form1E form_rdiag !rec RmulE mulr_sumr.
apply: sumR_le => i _; rewrite !mxE -RmulE; apply: Rmult_le_compat_r.
  by apply/RleP; rewrite sqr_ge0.
by apply: Rinv_le_contravar => //; apply: Rmax_r.
Qed.

Example C23_instance : psd (exU 0) /\ pd (exU 1).
Proof. by split; [apply: pd_psd|]; exact: exU_pd. Qed.

(** C24 *)
Lemma gmean_lamb_gt0 n (M Z : 'M[Cx]_n) l : pd M -> Z \in unitmx ->
  Z^H *m M *m Z = rdiag l -> forall i, (0 < l 0%R i)%coqR.
Proof.
move=> pM uZ e i; have [_ H] := pd_congr_unit pM uZ; rewrite e in H.
have /H : (delta_mx i 0 : 'cV[Cx]_n) != 0.
  apply/eqP => /matrixP/(_ i 0); rewrite !mxE !eqxx => /eqP; by rewrite oner_eq0.
rewrite form_rdiag -c0 clt => /RltP; rewrite (bigD1 i) //= big1 => [|j ji].
  by rewrite mxE !eqxx cabs1 expr1n mulr1 addr0.
by rewrite mxE (negbTE ji) cabs0 expr0n mulr0.
Qed.

Lemma rdiag_sqrt n (l : 'rV[R]_n) : (forall i, (0 < l 0%R i)%coqR) ->
  rdiag (map_mx R_sqrt.sqrt l) *m rdiag (map_mx R_sqrt.sqrt l) = rdiag l.
Proof.
move=> l0; rewrite rdiagM; congr rdiag; apply/rowP => i; rewrite !mxE -RmulE.
by apply: sqrt_sqrt; apply: Rlt_le.
Qed.

(** type 1: the geometric mean A # B *)
Theorem C24_type1 eig chol n (A B : 'M[Cx]_n) :
  eigh_contract eig -> chol_contract chol -> pd A -> pd B ->
  exists G, [/\ gmeanmh eig chol A B 1 = Ok G, pd G, G *m invmx A *m G = B,
    G *m invmx B *m G = A & forall H, pd H -> H *m invmx A *m H = B -> H = G].
Proof.
move=> He Hc pA pB.
have [l [Z [e AZ ZBZ uZ _]]] := C22_type1 He Hc (proj1 pA) pB.
have uA := pd_unit pA; have uB := pd_unit pB; have uZH : Z^H \in unitmx by rewrite ctr_unit.
have ZAZ : Z^H *m A *m Z = rdiag l by rewrite -mulmxA AZ !mulmxA ZBZ mul1mx.
have l0 := gmean_lamb_gt0 pA uZ ZAZ.
rewrite /gmeanmh e /= forallRle => [|i]; last exact: Rlt_le.
rewrite /= np_invE // -/(rdiag _).
set D := rdiag _.
have DD : D *m D = rdiag l by exact: rdiag_sqrt.
have pD : pd D by apply: pd_rdiag => i; rewrite mxE; apply: sqrt_lt_R0.
have eB : B = invmx Z^H *m invmx Z.
  by rewrite -[invmx Z]mul1mx -ZBZ -!mulmxA mulmxV // mulmx1 mulKmx.
have eA : A = invmx Z^H *m D *m D *m invmx Z.
  by rewrite -[_ *m D *m D]mulmxA DD -ZAZ -!mulmxA mulmxV // mulmx1 mulKmx.
have eG : B *m (Z *m D *m invmx Z) = invmx Z^H *m D *m invmx Z.
  by rewrite eB -!mulmxA mulKmx.
have uD := pd_unit pD.
have eAi : invmx A = Z *m invmx D *m invmx D *m Z^H.
  by rewrite eA !invmx_mul ?unitmx_mul ?unitmx_inv ?uZ ?uZH ?uD // !invmxK !mulmxA.
have eBi : invmx B = Z *m Z^H by rewrite eB invmx_mul ?unitmx_inv // !invmxK.
rewrite eG; set G := invmx Z^H *m D *m invmx Z.
have pG : pd G.
  by rewrite /G -ctr_inv; apply: pd_congr_unit; rewrite ?unitmx_inv.
have GAG : G *m invmx A *m G = B.
  by rewrite /G eAi eB -!mulmxA mulKmx // mulKVmx // mulKVmx // mulKmx.
exists G; split=> //.
  by rewrite /G eBi eA -!mulmxA mulKmx // mulKVmx.
move=> H pH HAH; apply: (@riccati_uniq _ (invmx A)) => //; first exact: pd_inv.
by rewrite HAH GAG.
Qed.

(** type 1 is symmetric in A and B *)
Theorem C24_type1_symmetric eig chol n (A B : 'M[Cx]_n) :
  eigh_contract eig -> chol_contract chol -> pd A -> pd B ->
  gmeanmh eig chol A B 1 = gmeanmh eig chol B A 1.
Proof.
move=> He Hc pA pB.
have [G [-> pG e1 e2 uniq]] := C24_type1 He Hc pA pB.
have [G' [-> pG' e1' e2' uniq']] := C24_type1 He Hc pB pA.
by rewrite (uniq G').
Qed.

(** type 2: the geometric mean of A^{-1} and B *)
Theorem C24_type2 eig chol n (A B : 'M[Cx]_n) :
  eigh_contract eig -> chol_contract chol -> pd A -> pd B ->
  exists G, [/\ gmeanmh eig chol A B 2 = Ok G, pd G, G *m A *m G = B &
    forall H, pd H -> H *m A *m H = B -> H = G].
Proof.
move=> He Hc pA pB.
have [l [Z [e ABZ ZBZ uZ _]]] := C22_type2 He Hc (proj1 pA) pB.
have uA := pd_unit pA; have uB := pd_unit pB; have uZH : Z^H \in unitmx by rewrite ctr_unit.
have eB : B = invmx Z^H *m invmx Z.
  by rewrite -[invmx Z]mul1mx -ZBZ -!mulmxA mulmxV // mulmx1 mulKmx.
have eBi : invmx B = Z *m Z^H by rewrite eB invmx_mul ?unitmx_inv // !invmxK.
have eA0 : A = Z *m rdiag l *m Z^H.
  have : A *m B *m Z *m invmx Z = Z *m rdiag l *m invmx Z by rewrite ABZ.
  rewrite -!mulmxA mulmxV // mulmx1 => eAB.
  by rewrite -[A](mulmxK uB) eAB eBi -!mulmxA mulKmx.
have l0 : forall i, (0 < l 0%R i)%coqR.
  apply: (@gmean_lamb_gt0 _ A (invmx Z^H)) => //; first by rewrite unitmx_inv.
  by rewrite ctr_inv ctrK eA0 -!mulmxA mulKmx // mulmxV // mulmx1.
rewrite /gmeanmh e /= forallRle => [|i]; last exact: Rlt_le.
rewrite /= np_invE // np_invE // -/(rdiag _).
set D := rdiag _.
have DD : D *m D = rdiag l by exact: rdiag_sqrt.
have pD : pd D by apply: pd_rdiag => i; rewrite mxE; apply: sqrt_lt_R0.
have uD := pd_unit pD.
have eA : A = Z *m D *m D *m Z^H by rewrite -[_ *m D *m D]mulmxA DD.
have eAi : invmx A = invmx Z^H *m invmx D *m invmx D *m invmx Z.
  by rewrite eA !invmx_mul ?unitmx_mul ?uZ ?uD // !mulmxA.
have -> : invmx A *m (Z *m D *m invmx Z) = invmx Z^H *m invmx D *m invmx Z.
  by rewrite eAi -!mulmxA mulKmx // mulKmx.
set G := _ *m _ *m _.
have pG : pd G.
  rewrite /G -ctr_inv; apply: pd_congr_unit; rewrite ?unitmx_inv //; exact: pd_inv.
have GAG : G *m A *m G = B.
  by rewrite /G eA eB -!mulmxA !mulKmx // mulKVmx // mulKVmx.
exists G; split=> // H pH HAH; apply: (@riccati_uniq _ A) => //.
by rewrite HAH GAG.
Qed.

(** type 3: the geometric mean of A and B^{-1} *)
Theorem C24_type3 eig chol n (A B : 'M[Cx]_n) :
  eigh_contract eig -> chol_contract chol -> pd A -> pd B ->
  exists G, [/\ gmeanmh eig chol A B 3 = Ok G, pd G, G *m B *m G = A &
    forall H, pd H -> H *m B *m H = A -> H = G].
Proof.
move=> He Hc pA pB.
have [l [Z [e BAZ ZBZ uZ _]]] := C22_type3 He Hc (proj1 pA) pB.
have uA := pd_unit pA; have uB := pd_unit pB; have uZH : Z^H \in unitmx by rewrite ctr_unit.
have eBi : invmx B = invmx Z^H *m invmx Z.
  by rewrite -[invmx Z]mul1mx -ZBZ -!mulmxA mulmxV // mulmx1 mulKmx.
have eB : B = Z *m Z^H by rewrite -[B]invmxK eBi invmx_mul ?unitmx_inv // !invmxK.
have ZAZ : Z^H *m A *m Z = rdiag l.
  by apply: (can_inj (mulKmx uZ)); rewrite -BAZ eB !mulmxA.
have l0 := gmean_lamb_gt0 pA uZ ZAZ.
rewrite /gmeanmh e /= forallRle => [|i]; last exact: Rlt_le.
rewrite /= np_invE // np_invE // -/(rdiag _).
set D := rdiag _.
have DD : D *m D = rdiag l by exact: rdiag_sqrt.
have pD : pd D by apply: pd_rdiag => i; rewrite mxE; apply: sqrt_lt_R0.
have eA : A = invmx Z^H *m D *m D *m invmx Z.
  by rewrite -[_ *m D *m D]mulmxA DD -ZAZ -!mulmxA mulmxV // mulmx1 mulKmx.
have -> : invmx B *m (Z *m D *m invmx Z) = invmx Z^H *m D *m invmx Z.
  by rewrite eBi -!mulmxA mulKmx.
set G := _ *m _ *m _.
have pG : pd G by rewrite /G -ctr_inv; apply: pd_congr_unit; rewrite ?unitmx_inv.
have GBG : G *m B *m G = A.
  by rewrite /G eA eB -!mulmxA mulKmx // mulKVmx.
exists G; split=> // H pH HBH; apply: (@riccati_uniq _ B) => //.
by rewrite HBH GBG.
Qed.

Theorem C24_other_types eig chol n (A B : 'M[Cx]_n) type :
  chol_contract chol -> pd B -> type != 1%N -> type != 2%N -> type != 3%N ->
  gmeanmh eig chol A B type = ValueError.
Proof. by move=> Hc pB t1 t2 t3; rewrite /gmeanmh C22_other_types. Qed.

Example C24_instance : pd (exU 0) /\ pd (exU 1) /\ exU 0 != exU 1.
Proof.
do !split; try exact: (proj1 (exU_pd _)); try exact: (proj2 (exU_pd _)).
apply/eqP => /matrixP/(_ 0 0); rewrite !mxE eqxx !mulr1n => /addIr/eqP.
by rewrite !mulr1 (eqr_nat _ 1 2).
Qed.

(** C25 *)
Lemma hpart_ctr n (X : 'M[Cx]_n) : (hpart X)^H = hpart X.
Proof. by rewrite /hpart ctrZ ctrD ctrK addrC fmorphV conjC_nat. Qed.
Lemma hpart_id n (X : 'M[Cx]_n) : X^H = X -> hpart X = X.
Proof.
move=> e; rewrite /hpart e -[X in X + _]scale1r -[X in _ + X]scale1r -scalerDl scalerA.
by rewrite mulVf ?scale1r // pnatr_eq0.
Qed.

(** the result is Hermitian whatever the solver returns, and [X] is only used
    through its Hermitian part *)
Theorem C25_hermitian eig n fl (X : 'M[Cx]_n) : (to_psd eig fl X)^H = to_psd eig fl X.
Proof. by rewrite /to_psd; case: (eig _ _) => l P; apply: hpart_ctr. Qed.

Theorem C25_lower_bound eig n (X : 'M[Cx]_n) eps x : eigh_contract eig ->
  (eps * re (form 1%:M x x) <= re (form (to_psd eig (max_flooring eps) X) x x))%coqR.
Proof.
move=> He; have s := He n _ (hpart_ctr X); rewrite /to_psd.
case: (eig n _) s => l P s; rewrite hpart_id ?recompose_ctr // form_recompose.
have -> : form 1%:M x x = form 1%:M (P^H *m x) (P^H *m x).
  by rewrite formM ctrK mulmx1 (unitaryC (eigh_unitary s)).
move: (P^H *m x) => y; rewrite form1E form_rdiag !rec RmulE mulr_sumr.
apply: sumR_le => i _; rewrite !mxE -RmulE; apply: Rmult_le_compat_r.
  by apply/RleP; rewrite sqr_ge0.
exact: Rmax_r.
Qed.

(** no change when [X] is Hermitian and all of its eigenvalues are at least
    [eps], i.e. [x^H X x >= eps |x|^2] *)
Theorem C25_identity eig n (X : 'M[Cx]_n) eps : eigh_contract eig -> X^H = X ->
  (forall x, (eps * re (form 1%:M x x) <= re (form X x x))%coqR) ->
  to_psd eig (max_flooring eps) X = X.
Proof.
move=> He hX lX; have s := He n _ (hpart_ctr X); rewrite /to_psd.
rewrite hpart_id // in s *.
case: (eig n _) s => l P s; rewrite hpart_id ?recompose_ctr //.
rewrite [RHS](eigh_recompose s); congr recompose.
apply/rowP => i; rewrite mxE; apply: Rmax_left.
have := lX (col i P); rewrite -(eigh_val i s) rec.
suff -> : form 1%:M (col i P) (col i P) = 1 by rewrite re1 -R1E Rmult_1_r.
have [uP _ _] := s; simpl in uP.
rewrite colE formM mulmx1 uP form1E (bigD1 i) //= big1 => [|j ji].
  by rewrite mxE !eqxx cabs1 expr1n addr0 c1.
by rewrite mxE (negbTE ji) cabs0 expr0n.
Qed.

(** the floored matrix is the result of replacing each eigenvalue by its floor:
    every eigenvector of the Hermitian part remains one *)
Theorem C25_spectrum eig n fl (X : 'M[Cx]_n) : eigh_contract eig ->
  exists (l : 'rV[R]_n) (P : 'M[Cx]_n), [/\ P^H *m P = 1%:M, 2%:R^-1 *: (X + X^H) = P *m rdiag l *m P^H &
    to_psd eig fl X = P *m rdiag (map_mx fl l) *m P^H].
Proof.
move=> He; have s := He n _ (hpart_ctr X).
exists (eig n (hpart X)).1, (eig n (hpart X)).2; split.
- by case: s.
- exact: eigh_recompose s.
by rewrite /to_psd; case: (eig n _) s => l P s; rewrite hpart_id ?recompose_ctr.
Qed.

Example C25_instance : (exU 0)^H = exU 0 /\
  forall x, ((1 / 2) * re (form 1%:M x x) <= re (form (exU 0%R) x x))%coqR.
Proof.
split; first exact: (proj1 (exU_pd _)).
move=> x; rewrite /exU {2}/form mulmxDr mulmxDl mxE -!/(form _ _ _) scale1r reD.
have [_ /(_ x)] := @psd_outer _ _ _ (const_mx 1 : 'cV[Cx]_2).
move=> /ge0_cre[_]; have [_] := ge0_cre (form1_ge0 x); toR.
by set a := re (form 1%:M x x); set b := re _ => a0 b0; lra.
Qed.
