(** C54: filters on whitened data stay unitary (FastICA, FastIVA, FasterIVA).
    C55: natural gradient is equivariant (ICA, FDICA, IVA). *)
From Coq Require Import Reals Lra FunctionalExtensionality.
From mathcomp Require Import all_ssreflect all_algebra.
From Verif Require Import RStruct MxC CxR NpLin RealLemmas Eigh EighProofs SpatialISS Scale Prox ProxProofs AuxIVA Gradient.
Import Order.TTheory GRing.Theory Num.Theory.
Set Implicit Arguments.
Unset Strict Implicit.
Unset Printing Implicit Defensive.
Local Open Scope ring_scope.

(** * C55 *)
Section C55.
Variables (K : fieldType) (cj : K -> K) (F n T : nat).
Notation spec := ('I_F -> 'M[K]_(n, T)).
Notation filt := ('I_F -> 'M[K]_n).
Variables (score : spec -> spec) (holonomic : bool) (step_size : K).
Local Notation nat_step := (natural_step cj score holonomic step_size).
Local Notation grad_step := (gradient_step cj score holonomic step_size).

(** the mixture seen through an invertible matrix [A], and the corresponding filters *)
Definition remix (A : filt) (X : spec) : spec := fun i => A i *m X i.
Definition refilter (A : filt) (W : filt) : filt := fun i => W i *m invmx (A i).
Lemma sep_remix A X W : (forall i, A i \in unitmx) -> sep (remix A X) (refilter A W) = sep X W.
Proof.
by move=> uA; apply: functional_extensionality => i; rewrite /sep /remix /refilter mulmxA -(mulmxA (W i)) mulVmx ?mulmx1.
Qed.
Lemma natural_step_remix A X W : (forall i, A i \in unitmx) ->
  nat_step (remix A X) (refilter A W) = omap (fun r => (refilter A r.1, r.2)) (nat_step X W).
Proof.
move=> uA; rewrite /natural_step; case: ifP => //= _; congr Some.
set W1 := (fun i => W i - _).
have -> : (fun i => refilter A W i - step_size *: (directions cj score holonomic (remix A X) (refilter A W) i *m refilter A W i)) =
  refilter A W1.
  apply: functional_extensionality => i; rewrite /directions sep_remix // /W1 /refilter /directions.
  by rewrite mulmxBl -scalemxAl mulmxA.
by rewrite sep_remix.
Qed.
(** C55: mixing the input by any invertible matrices (one per bin) and starting from the filters
    times their inverses gives, after any number of iterations, the same separated signals and the
    filters times the inverses. *)
Theorem C55_equivariant A k X W : (forall i, A i \in unitmx) ->
  run nat_step k (remix A X) (refilter A W) =
  omap (fun r => (refilter A r.1, r.2)) (run nat_step k X W).
Proof.
move=> uA; elim: k W => [|k IH] W /=; first by rewrite sep_remix.
by rewrite natural_step_remix //; case: (nat_step X W) => [[W1 Y1]|] //=.
Qed.
(** C55: the run is defined as soon as there are frames, and the output returned is the one of
    the returned filters. *)
Theorem C55_output k X W : T <> 0%N -> exists W', run nat_step k X W = Some (W', sep X W').
Proof.
move=> T0; elim: k W => [|k IH] W /=; first by exists W.
rewrite {1}/natural_step /has_frames; case: eqP => //= _; exact: IH.
Qed.
(** C55: the filters are a fixed point exactly when the condition of ICA holds: scores and
    outputs are uncorrelated across sources (and normalised, in the holonomic case). *)
Theorem C55_stationary X W : T <> 0%N -> step_size != 0 -> (forall i, W i \in unitmx) ->
  (nat_step X W = Some (W, sep X W) <->
   forall i a b, (holonomic || (a != b)) ->
     (T%:R)^-1 * (\sum_t score (sep X W) i a t * cj (sep X W i b t)) = (a == b)%:R).
Proof.
move=> T0 e0 uW; rewrite /natural_step /has_frames; case: eqP => //= _.
have key i : (W i - step_size *: (directions cj score holonomic X W i *m W i) = W i) <-> directions cj score holonomic X W i = 0.
  split=> [/eqP|->]; last by rewrite mul0mx scaler0 subr0.
  rewrite -subr_eq0 addrAC subrr add0r oppr_eq0 scaler_eq0 (negbTE e0) /= => /eqP h.
  by rewrite -[LHS](mulmxK (uW i)) h mul0mx.
split=> [[eW eY] i a b ab|H].
  have /key/matrixP/(_ a b) : W i - step_size *: (directions cj score holonomic X W i *m W i) = W i.
    exact: (congr1 (fun f => f i) eW).
  rewrite /directions /direction; move: ab; case: (holonomic) => /= ab; rewrite !mxE.
    by move/eqP; rewrite subr_eq0 => /eqP.
  by rewrite (negbTE ab) subr0 mul1r.
have D i : directions cj score holonomic X W i = 0.
  rewrite /directions /direction; case: (boolP holonomic) => hol; apply/matrixP => a b; rewrite !mxE.
    by rewrite H ?hol // subrr.
  case: (boolP (a == b)) => [_|ab]; first by rewrite subrr mul0r.
  by rewrite H ?ab ?orbT // (negbTE ab) mulr0.
suff -> : (fun i => W i - step_size *: (directions cj score holonomic X W i *m W i)) = W by [].
by apply: functional_extensionality => i; apply/key.
Qed.
End C55.

Section C55Relation.
Variables (K : fieldType) (cj : {rmorphism K -> K}) (F n T : nat).
Variables (score : ('I_F -> 'M[K]_(n, T)) -> ('I_F -> 'M[K]_(n, T))) (holonomic : bool) (step_size : K).
(** C55: the natural gradient is the gradient times W^H W. *)
Theorem C55_relation X W W1 Y1 W2 Y2 :
  gradient_step cj score holonomic step_size X W = Some (W1, Y1) ->
  natural_step cj score holonomic step_size X W = Some (W2, Y2) ->
  forall i, W2 i - W i = (W1 i - W i) *m ((map_mx cj (W i))^T *m W i).
Proof.
rewrite /gradient_step /natural_step; case: ifP => // /andP[-> /forallP uW] [<- _] [<- _] i.
rewrite ![W i - _]addrC !addrK mulNmx -scalemxAl -mulmxA; congr (- (_ *: (_ *m _))).
by rewrite mulmxA map_trmx -map_mxM -trmx_mul mulmxV // trmx1 map_mx1 mul1mx.
Qed.
(** C55: the plain gradient update is defined exactly when there are frames and the filters can
    be inverted *)
Theorem C55_gradient_defined X W :
  (exists r, gradient_step cj score holonomic step_size X W = Some r) <-> T <> 0%N /\ forall i, W i \in unitmx.
Proof.
rewrite /gradient_step /has_frames; split=> [[r]|[/eqP -> uW]].
  by case: ifP => // /andP[/eqP T0 /forallP uW].
by have -> : [forall i, W i \in unitmx] by [apply/forallP]; eexists.
Qed.
End C55Relation.
(** C55: the two directions never oppose each other. *)
Theorem C55_same_side F n T (score : ('I_F -> 'M[Cx]_(n, T)) -> ('I_F -> 'M[Cx]_(n, T))) holonomic step_size X W W1 Y1 W2 Y2 :
  gradient_step conjC score holonomic step_size X W = Some (W1, Y1) ->
  natural_step conjC score holonomic step_size X W = Some (W2, Y2) ->
  forall i, 0 <= \tr ((W1 i - W i)^H *m (W2 i - W i)).
Proof.
move=> E1 E2 i; have -> : W2 i - W i = (W1 i - W i) *m ((W i)^H *m W i) by have := C55_relation E1 E2 i.
set D := W1 i - W i; rewrite !mulmxA mxtrace_mulC !mulmxA.
have -> : W i *m D^H *m D *m (W i)^H = (D *m (W i)^H)^H *m (D *m (W i)^H) by rewrite ctrM ctrK !mulmxA.
rewrite /mxtrace; apply: sumr_ge0 => a _; rewrite mxE; apply: sumr_ge0 => b _.
by rewrite /ctr !mxE mulrC mul_conjC_ge0.
Qed.
(** The plain gradient is not equivariant. *)
Lemma gradient_scalar (x w : R) : w != 0 ->
  gradient_step id (fun Y : 'I_1 -> 'M[R]_1 => Y) true 1 (fun _ => x%:M) (fun _ => w%:M) =
  Some (fun _ => (w - (w * x * (w * x) - 1) / w)%:M, fun _ => ((w - (w * x * (w * x) - 1) / w) * x)%:M).
Proof.
move=> w0; rewrite /gradient_step /has_frames /=.
have -> : [forall i : 'I_1, (w%:M : 'M[R]_1) \in unitmx] by apply/forallP => i; rewrite unitmxE det_scalar1 unitfE.
have E : (fun i : 'I_1 => w%:M - 1 *: (directions id (fun Y : 'I_1 -> 'M[R]_1 => Y) true (fun _ => x%:M) (fun _ => w%:M) i *m
    map_mx id (invmx w%:M)^T)) = fun _ => (w - (w * x * (w * x) - 1) / w)%:M.
  apply: functional_extensionality => i; rewrite scale1r /directions /direction invmx_scalar /sep -scalar_mxM.
  have -> : PhiY id (w * x)%:M (w * x)%:M = (w * x * (w * x))%:M :> 'M[R]_1.
    by apply/matrixP => a b; rewrite !ord1 !mxE big_ord1 !mxE invr1 mul1r !mulr1n.
  rewrite tr_scalar_mx map_mx_id // -raddfB -scalar_mxM -raddfB //.
by congr (Some (_, _)); [rewrite -E|rewrite E /sep; apply: functional_extensionality => i; rewrite -scalar_mxM].
Qed.
Theorem C55_gradient_refuted : exists (score : ('I_1 -> 'M[R]_1) -> ('I_1 -> 'M[R]_1)) X W (A : 'I_1 -> 'M[R]_1) W1 Y1 W2 Y2,
  [/\ forall i, A i \in unitmx, gradient_step id score true 1 X W = Some (W1, Y1),
      gradient_step id score true 1 (remix A X) (refilter A W) = Some (W2, Y2) & Y1 <> Y2].
Proof.
have two : (2%:R : R) != 0 by rewrite pnatr_eq0.
pose A : 'I_1 -> 'M[R]_1 := fun _ => (2%:R)%:M.
exists id, (fun _ => (2%:R)%:M), (fun _ => 1%:M), A.
have -> : remix A (fun _ => (2%:R)%:M) = fun _ => (2%:R * 2%:R)%:M.
  by apply: functional_extensionality => i; rewrite /remix -scalar_mxM.
have -> : refilter A (fun _ => 1%:M) = fun _ => (2%:R^-1)%:M.
  by apply: functional_extensionality => i; rewrite /refilter mul1mx invmx_scalar.
rewrite !gradient_scalar ?oner_neq0 ?invr_eq0 //; do 4 eexists; split=> //.
  by move=> i; rewrite unitmxE det_scalar1 unitfE.
move=> /(congr1 (fun Y : 'I_1 -> 'M[R]_1 => Y ord0 ord0 ord0)); rewrite !mxE eqxx !mulr1n.
have -> : (2%:R : R)^-1 = (/ 2)%coqR by rewrite RinvE //; lra.
have -> : ((/ 2)%coqR : R)^-1 = 2%coqR by rewrite -RinvE; [rewrite Rinv_inv|lra].
by rewrite invr1 -!RnatE /=; toR; lra.
Qed.

(** two uncorrelated normalised outputs are a stationary point, whatever the step size *)
Example C55_instance (e : R) : e != 0 -> exists X W : 'I_1 -> 'M[R]_2, [/\ X ord0 <> 1%:M, W ord0 <> 1%:M &
  natural_step id (fun Y : 'I_1 -> 'M[R]_2 => Y) true e X W = Some (W, sep X W)].
Proof.
move=> e0; have n2 : (2%:R : R) != 0 by rewrite pnatr_eq0.
pose S : 'M[R]_2 := \matrix_(i, j) (if (i == 1) && (j == 1) then -1 else 1).
have S1 : S <> 1%:M by move=> /matrixP/(_ 0 1); rewrite !mxE /= => /eqP; rewrite oner_eq0.
exists (fun _ => 2%:R *: 1%:M), (fun _ => 2%:R^-1 *: S); split.
- move=> /matrixP/(_ 0 0); rewrite !mxE /= mulr1 => /eqP; by rewrite -subr_eq0 (natrD _ 1 1) addrK oner_eq0.
- move=> /matrixP/(_ 0 1); rewrite !mxE /= mulr1 => /eqP; by rewrite invr_eq0 (negbTE n2).
apply/C55_stationary => //.
  move=> i; rewrite unitmxE detZ (expand_det_row _ 0) !big_ord_recl big_ord0 /cofactor !det_mx11 !mxE /=.
  rewrite unitfE mulf_neq0 // ?expf_neq0 ?invr_eq0 //.
  rewrite /bump /= expr0 expr1 !mul1r mulr1 addr0 -opprD oppr_eq0; exact: n2.
move=> i a b _; rewrite /sep -scalemxAl -scalemxAr scalerA mulVf // scale1r mulmx1 big_ord_recl big_ord1 !mxE.
have [->|->] : a = 0 \/ a = 1 by case: a => [[|[|]]] //= h; [left|right]; apply/val_inj.
  have [->|->] : b = 0 \/ b = 1 by case: b => [[|[|]]] //= h; [left|right]; apply/val_inj.
    by rewrite /= !mulr1 mulVf.
  by rewrite /= !mulr1 !mulrN !mul1r subrr mulr0.
have [->|->] : b = 0 \/ b = 1 by case: b => [[|[|]]] //= h; [left|right]; apply/val_inj.
  by rewrite /= !mulr1 addrN mulr0.
by rewrite /= mulrNN !mulr1 mulVf.
Qed.
Print Assumptions C55_equivariant.
Print Assumptions C55_output.
Print Assumptions C55_stationary.
Print Assumptions C55_relation.
Print Assumptions C55_gradient_defined.
Print Assumptions C55_same_side.
Print Assumptions C55_gradient_refuted.
