(** Lemmas about scale restoration and whitening. *)
From Coq Require Import Reals Lra.
From mathcomp Require Import all_ssreflect all_algebra.
From mathcomp Require Import ring.
From Verif Require Import RStruct MxC CxR NpLin RealLemmas Eigh EighProofs Scale.
Import Order.TTheory GRing.Theory Num.Theory.
Set Implicit Arguments.
Unset Strict Implicit.
Unset Printing Implicit Defensive.
Local Open Scope ring_scope.

Lemma scale_rowsE m n s (A : 'M[Cx]_(m, n)) : scale_rows s A = diag_mx s *m A.
Proof. by apply/matrixP => i j; rewrite mul_diag_mx !mxE mulrC. Qed.
Lemma scale_rowsM m n p s (A : 'M[Cx]_(m, n)) (B : 'M[Cx]_(n, p)) :
  scale_rows s (A *m B) = scale_rows s A *m B.
Proof. by rewrite !scale_rowsE mulmxA. Qed.

Lemma diag_unit n (g : 'rV[Cx]_n) : (forall i, g 0 i != 0) -> diag_mx g \in unitmx.
Proof.
move=> h; rewrite unitmxE det_diag unitfE; apply/prodf_neq0 => i _; exact: h.
Qed.
Lemma diag_inv n (g : 'rV[Cx]_n) : (forall i, g 0 i != 0) ->
  invmx (diag_mx g) = diag_mx (map_mx (@GRing.inv _) g).
Proof.
move=> h; have u := diag_unit h.
apply: (can_inj (mulKmx u)); rewrite mulmxV //.
rewrite mulmx_diag -diag_const_mx; congr diag_mx; apply/rowP => i.
by rewrite !mxE mulfV.
Qed.

Lemma pb_filterE n (W : 'M[Cx]_n) r : W \in unitmx ->
  pb_filter W r = Some (diag_mx (row r (invmx W)) *m W).
Proof. by move=> u; rewrite /pb_filter np_invE // scale_rowsE. Qed.
Lemma pb_filterN n (W : 'M[Cx]_n) r : (pb_filter W r == None) = (W \notin unitmx).
Proof. by rewrite /pb_filter /np_inv; case: (W \in unitmx). Qed.

Lemma pb_filter_scale n (W : 'M[Cx]_n) r (g : 'rV[Cx]_n) : (forall i, g 0 i != 0) ->
  pb_filter (diag_mx g *m W) r = pb_filter W r.
Proof.
move=> h; have u := diag_unit h.
case uW : (W \in unitmx); last first.
  apply/eqP; rewrite eq_sym.
  have -> : pb_filter W r = None by apply/eqP; rewrite pb_filterN uW.
  by rewrite eq_sym pb_filterN unitmx_mul u uW.
rewrite !pb_filterE ?unitmx_mul ?u //; congr Some.
rewrite invmx_mul ?u // diag_inv // mulmxA mulmx_diag; congr (diag_mx _ *m _).
by apply/rowP => i; rewrite mxE [row _ _ _ _]mxE mul_mx_diag !mxE mulfVK.
Qed.

Lemma gram_unit n T (Y : 'M[Cx]_(n, T)) (A : 'M[Cx]_n) : A \in unitmx ->
  (A *m Y *m (A *m Y)^H \in unitmx) = (Y *m Y^H \in unitmx).
Proof.
move=> u; have -> : A *m Y *m (A *m Y)^H = A *m (Y *m Y^H) *m A^H by rewrite ctrM !mulmxA.
by rewrite !unitmx_mul u ctr_unit u andbT.
Qed.
Lemma gram_inv n T (Y : 'M[Cx]_(n, T)) (A : 'M[Cx]_n) : A \in unitmx -> Y *m Y^H \in unitmx ->
  invmx (A *m Y *m (A *m Y)^H) = invmx A^H *m invmx (Y *m Y^H) *m invmx A.
Proof.
move=> u uY; have -> : A *m Y *m (A *m Y)^H = A *m (Y *m Y^H) *m A^H by rewrite ctrM !mulmxA.
by rewrite !invmx_mul ?unitmx_mul ?ctr_unit ?u ?uY // mulmxA.
Qed.

Lemma pb_dataE n m T (Y : 'M[Cx]_(n, T)) (X : 'M[Cx]_(m, T)) r : Y *m Y^H \in unitmx ->
  pb_data Y X r = Some (diag_mx (row r (X *m Y^H *m invmx (Y *m Y^H))) *m Y).
Proof. by move=> u; rewrite /pb_data np_invE // scale_rowsE. Qed.
Lemma pb_dataN n m T (Y : 'M[Cx]_(n, T)) (X : 'M[Cx]_(m, T)) r :
  (pb_data Y X r == None) = (Y *m Y^H \notin unitmx).
Proof. by rewrite /pb_data /np_inv; case: (_ \in unitmx). Qed.

Lemma pb_data_lin n m T (Y : 'M[Cx]_(n, T)) (X : 'M[Cx]_(m, T)) (A : 'M[Cx]_n) :
  A \in unitmx -> Y *m Y^H \in unitmx ->
  X *m (A *m Y)^H *m invmx (A *m Y *m (A *m Y)^H) = X *m Y^H *m invmx (Y *m Y^H) *m invmx A.
Proof.
move=> u uY; rewrite gram_inv // ctrM !mulmxA; congr (_ *m _ *m _).
by rewrite mulmxK // ctr_unit.
Qed.

(** ** Least squares *)
Lemma c_sq_ge0 z : 0 <= c (cabs z ^+ 2).
Proof. by rewrite cabs_sqr mul_conjC_ge0. Qed.

Lemma sum_sq_eq0 T (x : 'I_T -> Cx) : (\sum_t c (cabs (x t) ^+ 2) == 0) = [forall t, x t == 0].
Proof.
rewrite psumr_eq0; last by move=> t _; exact: c_sq_ge0.
apply/allP/forallP => [h t|h t _].
  by have := h t (mem_index_enum t); rewrite /= c_eq0 expf_eq0 cabs_eq0.
by rewrite /= (eqP (h t)) cabs0 expr0n c0.
Qed.

(** the real-linear least squares problem of one source *)
Lemma ls_opt T (x y : 'I_T -> Cx) (a : Cx) : \sum_t c (cabs (y t) ^+ 2) != 0 ->
  \sum_t c (cabs (x t - ((\sum_t y t * (x t)^*) / \sum_t c (cabs (y t) ^+ 2))^* * y t) ^+ 2)
  <= \sum_t c (cabs (x t - a * y t) ^+ 2).
Proof.
set N := \sum_t c _; set b := (_ / N)^* => N0.
have N_real : N^* = N by rewrite /N rmorph_sum; apply: eq_bigr => t _; exact: c_conj.
have key d : \sum_t c (cabs (x t - (b + d) * y t) ^+ 2) =
   \sum_t c (cabs (x t - b * y t) ^+ 2) + d * d^* * N.
  have orth : \sum_t (x t - b * y t) * (y t)^* = 0.
    under eq_bigr do rewrite mulrBl -mulrA.
    rewrite sumrB -mulr_sumr; under [X in _ - _ * X]eq_bigr do rewrite -cabs_sqr.
    rewrite -/N /b fmorph_div N_real divfK // rmorph_sum; apply/eqP; rewrite subr_eq0; apply/eqP.
    by apply: eq_bigr => t _; rewrite rmorphM conjCK mulrC.
  have orthc : \sum_t (x t - b * y t)^* * y t = 0.
    by rewrite -[RHS]conjC0 -[in RHS]orth rmorph_sum; apply: eq_bigr => t _; rewrite rmorphM conjCK.
  rewrite /N mulr_sumr -big_split /=.
  under eq_bigr do rewrite cabs_sqr.
  have -> : \sum_t (c (cabs (x t - b * y t) ^+ 2) + d * d^* * c (cabs (y t) ^+ 2)) =
    \sum_t (c (cabs (x t - b * y t) ^+ 2) + d * d^* * c (cabs (y t) ^+ 2))
     - d^* * (\sum_t (x t - b * y t) * (y t)^*) - d * (\sum_t (x t - b * y t)^* * y t).
    by rewrite orth orthc !mulr0 !subr0.
  rewrite !mulr_sumr -!sumrB; apply: eq_bigr => t _.
  rewrite !cabs_sqr !rmorphB !rmorphM rmorphD /=; ring.
have -> : a = b + (a - b) by rewrite addrC subrK.
rewrite key ler_addl mulr_ge0 //; first exact: mul_conjC_ge0.
by apply: sumr_ge0 => t _; exact: c_sq_ge0.
Qed.
