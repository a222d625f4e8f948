(** C94: what complete calls of the time-domain methods of ica.py depend on. *)
From Coq Require Import Reals Lra FunctionalExtensionality.
From mathcomp Require Import all_ssreflect all_algebra all_fingroup.
From mathcomp Require Import ring.
From Verif Require Import RealLemmas NmfMM RStruct MxC CxR NpLin Eigh EighProofs SpatialISS Scale ScaleProofs AuxIVARun Gradient GradLoss GradRun IcaRun.
From Verif Require Import Prop_Scale Prop_Fast Prop_FastRun Prop_GradRun.
Import Order.TTheory GRing.Theory Num.Theory.
Set Implicit Arguments.
Unset Strict Implicit.
Unset Printing Implicit Defensive.
Local Open Scope ring_scope.

(** a sign for each source or channel *)
Definition signs n (E : 'I_n -> R) : Prop := forall s, E s * E s = 1.
Lemma sign_cases n (E : 'I_n -> R) s : signs E -> E s = 1 \/ E s = -1.
Proof.
move=> /(_ s) h; have : (E s - 1) * (E s + 1) = 0 by rewrite -subr_sqr expr2 h expr1n subrr.
by move/eqP; rewrite mulf_eq0 subr_eq0 addr_eq0 => /orP [/eqP|/eqP]; [left|right].
Qed.

(** * Gradient methods *)
Section Grad.
Variables (n T : nat) (d : descent) (holonomic : bool) (eta : R) (phi g : R -> R).
Notation spec := ('I_1 -> 'M[R]_(n, T)).
Notation filt := ('I_1 -> 'M[R]_n).
Implicit Types (X Y : spec) (W : filt).
Variables (pn : {perm 'I_n}) (pj : {perm 'I_T}) (E : 'I_n -> R) (A : 'M[R]_n).
Hypothesis hE : signs E.
Hypothesis uA : A \in unitmx.
Hypothesis oA : d = Plain -> A *m A^T = 1%:M.
(** the score commutes with the signs, and the contrast ignores them *)
Hypothesis hphi : forall s y, phi (E s * y)%R = E s * phi y.
Hypothesis hg : forall s y, g (E s * y)%R = g y.
(** separated signals in another order, with signs, and samples in another order *)
Definition oY Y : spec := fun i => \matrix_(s, t) (E s * Y i (pn s) (pj t)).
(** the recording mixed by [A], with the samples in another order, and the filter that goes with it *)
Definition oX X : spec := fun i => A *m col_perm pj (X i).
Definition oW W : filt := fun i => (\matrix_(s, k) (E s * W i (pn s) k)) *m invmx A.
Definition oshift : R := ln (Rabs (\det A)).

Let P : 'M[R]_n := \matrix_(s, k) (E s * (pn s == k)%:R).
Lemma P_mul p (B : 'M[R]_(n, p)) : P *m B = \matrix_(s, k) (E s * B (pn s) k).
Proof.
apply/matrixP => s k; rewrite !mxE (bigD1 (pn s)) //= big1 => [|j jp]; rewrite mxE.
  by rewrite eqxx mulr1 addr0.
by rewrite eq_sym (negbTE jp) mulr0 mul0r.
Qed.
Lemma P_ortho : P *m P^T = 1%:M.
Proof.
rewrite P_mul; apply/matrixP => s k; rewrite !mxE (inj_eq perm_inj) eq_sym.
by case: (s =P k) => [->|_]; rewrite ?mulr1 ?mulr0 ?hE.
Qed.
Lemma P_unit : P \in unitmx. Proof. by have [] := mulmx1_unit P_ortho. Qed.
Lemma oWE W i : oW W i = P *m W i *m invmx A.
Proof. by rewrite P_mul. Qed.
Lemma oYE Y i : oY Y i = P *m col_perm pj (Y i).
Proof. by rewrite P_mul; apply/matrixP => s t; rewrite !mxE. Qed.
Lemma col_permR p q (B : 'M[R]_(p, q)) (D : 'M[R]_(q, T)) : col_perm pj (B *m D) = B *m col_perm pj D.
Proof. by apply/matrixP => x y; rewrite !mxE; apply: eq_bigr => k _; rewrite mxE. Qed.
Lemma sep_o X W : sep (oX X) (oW W) = oY (sep X W).
Proof.
apply: functional_extensionality => i; rewrite /sep oYE oWE /oX col_permR !mulmxA -(mulmxA _ (invmx A)) mulVmx // mulmx1.
by [].
Qed.
Lemma score_o Y : each_score phi (oY Y) = oY (each_score phi Y).
Proof. by apply: functional_extensionality => i; apply/matrixP => s t; rewrite !mxE hphi. Qed.
Lemma PhiY_o (Phi Y : spec) i : PhiY id (oY Phi i) (oY Y i) = P *m PhiY id (Phi i) (Y i) *m P^T.
Proof.
have F (B C : 'M[R]_(n, T)) : PhiY id B C = (T%:R)^-1 *: (B *m C^T).
  by apply/matrixP => a b; rewrite !mxE; congr (_ * _); apply: eq_bigr => t _; rewrite mxE.
rewrite !F !oYE trmx_mul -!scalemxAr -scalemxAl; congr (_ *: _).
rewrite !mulmxA; congr (_ *m _); rewrite -!mulmxA; congr (_ *m _).
apply/matrixP => a b; rewrite !mxE [RHS](reindex_inj (@perm_inj _ pj)); apply: eq_bigr => t _.
by rewrite !mxE.
Qed.
Lemma direction_o (B : 'M[R]_n) : direction holonomic (P *m B *m P^T) = P *m direction holonomic B *m P^T.
Proof.
rewrite /direction; case: holonomic; first by rewrite mulmxBr mulmxBl mulmx1 P_ortho.
have S (C : 'M[R]_n) : P *m C *m P^T = \matrix_(a, b) (E a * C (pn a) (pn b) * E b).
  have -> : P *m C *m P^T = (P *m (P *m C)^T)^T by rewrite trmx_mul trmxK.
  by rewrite !P_mul; apply/matrixP => a b; rewrite !mxE mulrC.
by rewrite !S; apply/matrixP => a b; rewrite !mxE (inj_eq perm_inj) (mulrCA (E a)) -[RHS]mulrA.
Qed.
Lemma directions_o X W i : directions id (each_score phi) holonomic (oX X) (oW W) i =
  P *m directions id (each_score phi) holonomic X W i *m P^T.
Proof. by rewrite /directions sep_o score_o PhiY_o direction_o. Qed.
Lemma unit_o W i : (oW W i \in unitmx) = (W i \in unitmx).
Proof. by rewrite oWE !unitmx_mul P_unit unitmx_inv uA andbT. Qed.
Lemma once_o X W : ica_once d holonomic eta phi (oX X) (oW W) = omap oW (ica_once d holonomic eta phi X W).
Proof.
have PP : P^T *m P = 1%:M by apply: mulmx1C; exact: P_ortho.
rewrite /ica_once; case: d oA => hA; rewrite ?/gradient_step ?/natural_step.
- rewrite (eq_forallb (unit_o W)); case: (has_frames T); last by [].
  case: (altP (forallP (P := fun i => W i \in unitmx))) => //= uW.
  apply: (f_equal (fun q => Some q)); apply: functional_extensionality => i.
  rewrite directions_o oWE [RHS]oWE mulmxBr mulmxBl; congr (_ - _).
  have AT : A^T = invmx A by apply: (can_inj (mulKmx uA)); rewrite hA // mulmxV.
  have -> : invmx (P *m W i *m invmx A) = A *m invmx (W i) *m P^T.
    apply: (can_inj (mulKmx (_ : P *m W i *m invmx A \in unitmx))); first by rewrite -oWE unit_o.
    rewrite mulmxV; last by rewrite -oWE unit_o.
    rewrite !mulmxA -(mulmxA _ (invmx A)) mulVmx // mulmx1 -(mulmxA P) mulmxV ?mulmx1 ?P_ortho //; exact: uW.
  have mid (B : 'M[R]_n) : map_mx id B = B by apply/matrixP => a b; rewrite mxE.
  rewrite !mid !trmx_mul trmxK AT -!scalemxAr -!scalemxAl; congr (_ *: _).
  by rewrite !mulmxA -(mulmxA _ P^T) PP mulmx1.
- case: (has_frames T) => //=; apply: (f_equal (fun q => Some q)); apply: functional_extensionality => i.
  rewrite directions_o oWE [RHS]oWE mulmxBr mulmxBl; congr (_ - _).
  by rewrite -!scalemxAr -!scalemxAl !mulmxA -(mulmxA _ P^T) PP mulmx1.
Qed.
Lemma detP : Rabs (\det P) = 1.
Proof.
have : \det P * \det P = 1 by rewrite -{2}(det_tr P) -det_mulmx P_ortho det1.
move=> h; have := Rabs_mult (\det P) (\det P); rewrite [(\det P * \det P)%coqR]h Rabs_R1.
by have := Rabs_pos (\det P); move: (Rabs _) => x x0 e; rewrite -[1 : R]/1%coqR; apply: Rsqr_inj => //; [lra|by rewrite Rsqr_1 /Rsqr].
Qed.
Lemma loss_o X W : ica_loss (@each_contrast n T g) (oX X) (oW W) = omap (fun x => x + oshift) (ica_loss (@each_contrast n T g) X W).
Proof.
rewrite /ica_loss (eq_forallb (unit_o W)); case: (T != 0%N); last by [].
case: (altP (forallP (P := fun i => W i \in unitmx))) => //= uW.
apply: (f_equal (fun q => Some q)); rewrite sep_o.
have -> : \sum_s meanR (fun t => each_contrast g (oY (sep X W)) s t) = \sum_s meanR (fun t => each_contrast g (sep X W) s t).
  rewrite [RHS](reindex_inj (@perm_inj _ pn)); apply: eq_bigr => s _; rewrite /meanR; congr (_ * _).
  by rewrite [RHS](reindex_inj (@perm_inj _ pj)); apply: eq_bigr => t _; rewrite !mxE hg.
have -> : ln (Rabs (\det (oW W 0))) = ln (Rabs (\det (W 0))) - oshift.
  have nz (B : 'M[R]_n) : B \in unitmx -> (0 < Rabs (\det B))%coqR.
    by rewrite unitmxE unitfE => /eqP h; apply: Rabs_pos_lt.
  rewrite oWE !det_mulmx det_inv.
  have -> : Rabs (\det P * \det (W 0) * (\det A)^-1) = (Rabs (\det (W 0%R)) * / Rabs (\det A))%coqR.
    have := uA; rewrite unitmxE unitfE => /eqP h; rewrite -RinvE //; toR; rewrite !Rabs_mult detP -Rabs_inv; toR; lra.
  rewrite ln_mult; [|exact: nz|by apply: Rinv_0_lt_compat; exact: nz].
  by rewrite ln_Rinv //; exact: nz.
by rewrite opprB addrA addrAC.
Qed.

(** runs from corresponding filters give corresponding filters, and losses that differ by the
    logarithm of the determinant of the mixing *)
Theorem C94_run X k W : ica_run d holonomic eta phi g (oX X) k (oW W) =
  omap (fun p => (oW p.1, [seq x + oshift | x <- p.2])) (ica_run d holonomic eta phi g X k W).
Proof. by apply: recorded_shift => V; [exact: once_o|exact: loss_o]. Qed.
Theorem C94_call X k W : ica_call d holonomic eta phi g (oX X) k (oW W) =
  omap (fun p => (oY p.1, [seq x + oshift | x <- p.2])) (ica_call d holonomic eta phi g X k W).
Proof. by rewrite /ica_call C94_run; case: ica_run => //= -[V ls] /=; rewrite sep_o. Qed.
End Grad.

Section Channels.
Variables (n T : nat) (d : descent) (holonomic : bool) (eta : R).
Variables (pn : {perm 'I_n}) (pj : {perm 'I_T}) (E : 'I_n -> R).
Hypothesis hE : signs E.
Notation spec := ('I_1 -> 'M[R]_(n, T)).
Notation eye := (fun _ : 'I_1 => 1%:M : 'M[R]_n).
(** from the identity matrix, the default: channels in another order and with other signs, samples
    in another order *)
Theorem C94_channels (phi g : R -> R) (X : spec) k :
  (forall s y, phi (E s * y)%R = E s * phi y) -> (forall s y, g (E s * y)%R = g y) ->
  ica_call d holonomic eta phi g (oY pn pj E X) k eye =
  omap (fun p => (oY pn pj E p.1, p.2)) (ica_call d holonomic eta phi g X k eye).
Proof.
move=> hphi hg; pose P : 'M[R]_n := \matrix_(s, k) (E s * (pn s == k)%:R).
have PP : P *m P^T = 1%:M := P_ortho pn hE.
have uP : P \in unitmx by have [] := mulmx1_unit PP.
have -> : oY pn pj E X = oX pj P X by apply: functional_extensionality => i; rewrite oYE.
have -> : (fun _ => 1%:M) = oW pn E P eye.
  by apply: functional_extensionality => i; rewrite oWE mulmx1 mulmxV.
rewrite C94_call //; have -> : oshift P = 0 by rewrite /oshift (detP pn hE) ln_1.
have -> : oW pn E P eye = eye by apply: functional_extensionality => i; rewrite oWE mulmx1 mulmxV.
by case: ica_call => //= -[Y ls] /=; rewrite (eq_map (addr0 (V := _))) map_id.
Qed.
(** the Laplace classes *)
Lemma sign_odd s y : np_sign (E s * y)%R = E s * np_sign y.
Proof.
have [->|->] := sign_cases s hE; first by rewrite !mul1r.
rewrite !mulN1r -[(- y)%R]/(- y)%coqR /np_sign.
case: (Rlt_dec 0 (- y)) => h1; case: (Rlt_dec (- y) 0) => h2; case: (Rlt_dec 0 y) => h3; case: (Rlt_dec y 0) => h4; rewrite ?opprK ?oppr0 //; exfalso; lra.
Qed.
Lemma abs_even s y : Rabs (E s * y)%R = Rabs y.
Proof.
have [->|->] := sign_cases s hE; first by rewrite mul1r.
rewrite mulN1r; exact: Rabs_Ropp.
Qed.
Theorem C94_laplace (X : spec) k : laplace_ica_call d holonomic eta (oY pn pj E X) k eye =
  omap (fun p => (oY pn pj E p.1, p.2)) (laplace_ica_call d holonomic eta X k eye).
Proof. by apply: C94_channels; [exact: sign_odd|exact: abs_even]. Qed.
End Channels.

(** the natural gradient only uses the mixture through the signals separated by the first filter *)
Theorem C94_natural_start n T holonomic eta phi g (X : 'I_1 -> 'M[R]_(n, T)) k W : W 0 \in unitmx ->
  ica_call Natural holonomic eta phi g (sep X W) k (fun _ => 1%:M) =
  omap (fun p => (p.1, [seq x + ln (Rabs (\det (W 0))) | x <- p.2])) (ica_call Natural holonomic eta phi g X k W).
Proof.
move=> uW; pose E := fun _ : 'I_n => 1 : R; have hE : signs E by move=> s; rewrite mulr1.
have eX : sep X W = oX 1 (W 0) X.
  by apply: functional_extensionality => i; rewrite /oX col_perm1 ord1.
have oW1 : oW 1 E (W 0) W = fun _ => 1%:M.
  by apply: functional_extensionality => i; rewrite oWE (ord1 i) P_mul -[in X in X *m _]/(E) -[RHS](mulmxV uW); congr (_ *m _); apply/matrixP => a b; rewrite !mxE perm1 mul1r.
rewrite eX -oW1 C94_call //; first last.
- by move=> s y; rewrite mul1r.
- by move=> s y; rewrite !mul1r.
case: ica_call => //= -[Y ls] /=; congr (Some (_, _)).
by apply: functional_extensionality => i; apply/matrixP => a b; rewrite !mxE !perm1 mul1r.
Qed.

(** * FastICA *)
Lemma is_realP p q (B : 'M[Cx]_(p, q)) : reflect (B = map_mx c (map_mx re B)) (is_real B).
Proof.
apply: (iffP eqP) => [/matrixP h|->]; apply/matrixP => a b; last by rewrite !mxE c_conj.
by rewrite !mxE -real_cre //; apply/CrealP; have := h a b; rewrite mxE.
Qed.
Lemma reK p q (B : 'M[R]_(p, q)) : map_mx re (map_mx c B) = B.
Proof. by apply/matrixP => a b; rewrite !mxE rec. Qed.
Lemma real_c p q (B : 'M[R]_(p, q)) : is_real (map_mx c B).
Proof. by apply/is_realP; rewrite reK. Qed.
Lemma ctr_c p q (B : 'M[R]_(p, q)) : (map_mx c B)^H = map_mx c B^T.
Proof. by rewrite real_ctr ?real_c // map_trmx. Qed.
Lemma cmxM p q r (A : 'M[R]_(p, q)) (B : 'M[R]_(q, r)) : map_mx c (A *m B) = map_mx c A *m map_mx c B.
Proof. by apply/matrixP => a b; rewrite !mxE c_sum; apply: eq_bigr => k _; rewrite !mxE cM. Qed.
(** the routine for eigenvectors returns real ones for the covariance of [X] *)
Definition real_vectors n T (eig : eigh_t) (X : 'M[R]_(n, T)) : Prop := is_real (eig n (covariance (map_mx c X))).2.

(** signals with signs, their samples in another order *)
Definition signed n T (pj : {perm 'I_T}) (S : 'I_n -> R) (Z : 'M[R]_(n, T)) : 'M[R]_(n, T) := \matrix_(a, t) (S a * Z a (pj t)).
Section White.
Variables (n T : nat) (pj : {perm 'I_T}).
Implicit Type X : 'M[R]_(n, T).
Lemma white23 eig X : real_vectors eig X -> whiten eig 2 false (map_mx c X) = whiten eig 3 true (map_mx c X).
Proof.
rewrite /real_vectors /whiten /= /whiten_bin => h.
have -> : covariance_real (map_mx c X) = covariance (map_mx c X) by rewrite /covariance real_ctr ?real_c.
by case: (T == 0%N) => //; move: h; case: (eig n _) => l V /= h; rewrite real_ctr.
Qed.
Lemma white_real eig X Z : real_vectors eig X -> whiten eig 2 false (map_mx c X) = Ok Z -> is_real Z.
Proof.
rewrite /real_vectors /whiten /= /whiten_bin => h; case: (T == 0%N) => //.
have -> : covariance_real (map_mx c X) = covariance (map_mx c X) by rewrite /covariance real_ctr ?real_c.
move: h; case: (eig n _) => l V /= /is_realP eV; case: [forall a, _]; last by [].
move=> [<-]; set D := rdiag _; have /is_realP eD : is_real D.
  by apply/eqP/matrixP => a b; rewrite !mxE; case: (a == b); rewrite ?mulr1n ?mulr0n ?c_conj ?rmorph0.
by rewrite eV map_trmx eD -!cmxM real_c.
Qed.
Variables (eig1 eig2 : eigh_t).
Hypotheses (h1 : eigh_contract eig1) (h2 : eigh_contract eig2).
(** a recording multiplied by a factor and an orthogonal matrix, its samples in another order,
    whitened with any routine: the whitened channels change their signs *)
Lemma ica_white_rel X (e : R) (Q : 'M[R]_n) : e != 0 -> Q *m Q^T = 1%:M ->
  distinct (eig1 (covariance (map_mx c X))).1 -> real_vectors eig1 X -> real_vectors eig2 (e *: (Q *m col_perm pj X)) ->
  exists S, signs S /\ ica_white eig2 (e *: (Q *m col_perm pj X)) =
    omap (signed pj S) (ica_white eig1 X).
Proof.
move=> e0 uQ di r1 r2.
have E : map_mx c (e *: (Q *m col_perm pj X)) = c e *: (map_mx c Q *m col_perm pj (map_mx c X)).
  have -> : col_perm pj (map_mx c X) = map_mx c (col_perm pj X) by apply/matrixP => a b; rewrite !mxE.
  by rewrite -cmxM; apply/matrixP => a b; rewrite !mxE cM.
have ce : c e != 0 by apply: c_neq0; apply/eqP.
have cQ : map_mx c Q *m (map_mx c Q)^H = 1%:M.
  by rewrite ctr_c -cmxM uQ; apply/matrixP => a b; rewrite !mxE; case: (a == b); rewrite ?c0 ?c1.
have [dd [hd eZ]] := whiten_rel pj h1 h2 ce cQ di.
rewrite -E in eZ; have w1 := white23 r1; have w2 := white23 r2.
have q1 := white_real r1; have q2 := white_real r2.
rewrite /ica_white; move: eZ; rewrite -w1 -w2; case e1: (whiten eig1 2 false _) => [Z||] eZ.
- have /is_realP zE := q1 _ e1; have /is_realP zE' := q2 _ eZ.
  set Zr := map_mx re Z in zE.
  exists (fun a => if [exists t, Zr a t != 0] then re (dd 0 a) else 1).
  have dre a t : Zr a t != 0 -> dd 0 a = c (re (dd 0 a)).
    move=> nz; apply: real_cre; apply/CrealP.
    have hz : Z a t = c (Zr a t) by rewrite {1}zE mxE.
    have /matrixP/(_ a ((pj^-1)%g t)) := zE'; rewrite [LHS]diag_mulE [X in _ * X = _]mxE permKV hz [RHS]mxE => h.
    have cz : c (Zr a t) != 0 by apply: c_neq0; apply/eqP.
    have := congr1 (fun z : Cx => z^*) h; rewrite rmorphM !c_conj -h => k.
    exact: (mulIf cz k).
  split=> [a|].
    case: ifP => [/existsP [t nz]|_]; last by rewrite mulr1.
    by apply: c_inj; rewrite cM c1 -[RHS](hd a) (dre _ _ nz) c_conj rec.
  rewrite eZ /=; apply: (f_equal (fun q => Some q)); apply/matrixP => a t; rewrite [LHS]mxE [RHS]mxE -/Zr diag_mulE mxE zE [in LHS]mxE.
  case: ifP => [/existsP [u nz]|/existsPn z]; first by rewrite (dre _ _ nz) -cM rec.
  by have := z (pj t); rewrite negbK => /eqP ->; rewrite c0 mulr0 mulr0 -c0 rec.
- by exists (fun _ => 1); split=> [a|]; rewrite ?mulr1 // eZ.
- by exists (fun _ => 1); split=> [a|]; rewrite ?mulr1 // eZ.
Qed.
End White.

Section Steps.
Variables (n T : nat) (phi dphi g : R -> R) (pj : {perm 'I_T}) (E S : 'I_n -> R).
Hypotheses (hE : signs E) (hS : signs S).
(** an odd score with an even derivative, and an even contrast *)
Hypotheses (odd_phi : forall y, phi (- y)%R = - phi y) (even_dphi : forall y, dphi (- y)%R = dphi y) (even_g : forall y, g (- y)%R = g y).
Implicit Types (Z : 'M[R]_(n, T)) (W : 'M[R]_n).
(** the filter with signs of the sources and of the whitened channels *)
Definition twisted W : 'M[R]_n := \matrix_(s, k) (E s * W s k * S k).
Lemma phiE s y : phi (E s * y)%R = E s * phi y.
Proof. by have [->|->] := sign_cases s hE; rewrite ?mul1r // !mulN1r. Qed.
Lemma dphiE s y : dphi (E s * y)%R = dphi y.
Proof. by have [->|->] := sign_cases s hE; rewrite ?mul1r // !mulN1r. Qed.
Lemma gE s y : g (E s * y)%R = g y.
Proof. by have [->|->] := sign_cases s hE; rewrite ?mul1r // !mulN1r. Qed.
Lemma rmean_perm (x : 'rV[R]_T) : rmean (\row_t x 0 (pj t)) = rmean x.
Proof. by rewrite /rmean [in RHS](reindex_inj (@perm_inj _ pj)); congr (_ * _); apply: eq_bigr => t _; rewrite mxE. Qed.
Lemma rmeanZ a (x : 'rV[R]_T) : rmean (a *: x) = a * rmean x.
Proof. by rewrite /rmean [RHS]mulrCA; congr (_ * _); rewrite mulr_sumr; apply: eq_bigr => t _; rewrite mxE. Qed.
(** a row of a filter with the signs *)
Definition trow s (w : 'rV[R]_n) : 'rV[R]_n := \row_k (E s * w 0 k * S k).
Lemma trowE s W : row s (twisted W) = trow s (row s W).
Proof. by apply/rowP => k; rewrite !mxE. Qed.
Lemma trow_mul s w Z : trow s w *m signed pj S Z = \row_t (E s * (w *m Z) 0 (pj t)).
Proof.
apply/rowP => t; rewrite !mxE mulr_sumr; apply: eq_bigr => k _; rewrite !mxE.
by rewrite mulrA -(mulrA _ (S k) (S k)) hS mulr1 mulrA.
Qed.
Lemma raw_t s w Z : ica_raw (map_mx phi) (map_mx dphi) (signed pj S Z) (trow s w) = trow s (ica_raw (map_mx phi) (map_mx dphi) Z w).
Proof.
rewrite /ica_raw trow_mul; set y := w *m Z.
have -> : rmean (map_mx dphi (\row_t (E s * y 0 (pj t)))) = rmean (map_mx dphi y).
  by rewrite -[RHS]rmean_perm; apply: f_equal; apply/rowP => t; rewrite !mxE dphiE.
apply/rowP => k; rewrite [LHS]mxE [RHS]mxE.
have -> : (- (\row_k0 rmean (\row_t (map_mx phi (\row_t0 (E s * y 0 (pj t0))) 0 t * signed pj S Z k0 t)))) 0 k =
   - (E s * S k * rmean (\row_t (map_mx phi y 0 t * Z k t))).
  rewrite mxE [X in - X = _]mxE; apply: f_equal; rewrite -rmeanZ -[RHS]rmean_perm; apply: f_equal.
  by apply/rowP => t; rewrite !mxE phiE; rewrite mulrACA.
rewrite [X in X + _ = _]mxE [X in _ * X + _]mxE [X in _ = _ * X * _]mxE [X in _ = _ * (X + _) * _]mxE.
rewrite [X in _ = _ * (_ + X) * _]mxE [X in _ = _ * (_ - X) * _]mxE.
by move: (rmean (map_mx dphi y)) (rmean _) (w 0 k) (E s) (S k) => a b x u v; ring.
Qed.
Lemma dot_t i s W (w : 'rV[R]_n) : \sum_k twisted W i k * trow s w 0 k = E i * E s * \sum_k W i k * w 0 k.
Proof.
rewrite mulr_sumr; apply: eq_bigr => k _; rewrite !mxE.
have -> : E i * W i k * S k * (E s * w 0 k * S k) = E i * E s * (W i k * w 0 k) * (S k * S k).
  by move: (E i) (W i k) (S k) (E s) (w 0 k) => a b x u v; ring.
by rewrite hS mulr1.
Qed.
Lemma deflate_t s W (w : 'rV[R]_n) : deflate (twisted W) s (trow s w) = trow s (deflate W s w).
Proof.
rewrite /deflate; case: (0 < s)%N; last by [].
apply/rowP => k; rewrite [LHS]mxE [RHS]mxE [X in _ = _ * X * _]mxE mulrDr mulrDl; congr (_ + _); first by rewrite mxE.
rewrite [LHS]mxE [X in _ = _ * X * _]mxE mulrN mulNr; congr (- _); rewrite summxE [X in _ = _ * X * _]summxE.
rewrite mulr_sumr mulr_suml; apply: eq_bigr => i _.
rewrite dot_t [LHS]mxE [X in _ = _ * X * _]mxE; move: (\sum_k0 _) => x; rewrite trowE mxE.
have := hE i; move: (E i) (E s) (row i W 0 k) (S k) => a b y v h.
have -> : a * b * x * (a * y * v) = (a * a) * (b * (x * y) * v).
  by ring.
by rewrite h mul1r.
Qed.
Lemma source_t Z W s : ica_source (map_mx phi) (map_mx dphi) (signed pj S Z) (twisted W) s =
  omap twisted (ica_source (map_mx phi) (map_mx dphi) Z W s).
Proof.
rewrite /ica_source trowE raw_t deflate_t; set w := deflate _ _ _.
have -> : \sum_k trow s w 0 k ^+ 2 = \sum_k w 0 k ^+ 2.
  apply: eq_bigr => k _; rewrite mxE !exprMn !expr2 hE mul1r hS mulr1 //.
move: (R_sqrt.sqrt _) => a; case: (a == 0); first by [].
rewrite /=; apply: (f_equal (fun q => Some q)); apply/matrixP => i k; rewrite [LHS]mxE [RHS]mxE [X in _ = _ * X * _]mxE.
case: (altP (i =P s)) => [->|_]; last by rewrite mxE.
rewrite [LHS]mxE [X in _ = _ * X * _]mxE [X in _ * X = _]mxE; move: (w 0 k) (E s) (S k) (a^-1) => x u v b; ring.
Qed.
Lemma step_t Z W : omap fst (fastica_step (map_mx phi) (map_mx dphi) (signed pj S Z) (twisted W)) =
  omap twisted (omap fst (fastica_step (map_mx phi) (map_mx dphi) Z W)).
Proof.
rewrite /fastica_step; case: (T == 0%N); first by [].
have -> : Some (twisted W) = omap twisted (Some W) by [].
elim: (enum 'I_n) (Some W) => [|s l IH] o /=; first by case: o.
by rewrite -IH; congr (omap _ (omap _ (foldl _ _ _))); case: o => //= V; exact: source_t.
Qed.
Lemma out_t Z W : twisted W *m signed pj S Z = signed pj E (W *m Z).
Proof. by apply/matrixP => s t; have := trow_mul s (row s W) Z => /rowP/(_ t); rewrite -trowE -!row_mul !mxE. Qed.
Lemma floss_t Z W : fastica_loss g (signed pj S Z) (twisted W) = fastica_loss g Z W.
Proof.
rewrite /fastica_loss; case: (T != 0%N); last by [].
apply: (f_equal (fun q => Some q)); rewrite out_t; apply: eq_bigr => s _; rewrite -[RHS](meanR_perm pj); apply: f_equal.
by apply: functional_extensionality => t; rewrite mxE gE.
Qed.
Lemma rec_t Z k W : fastica_rec phi dphi g (signed pj S Z) k (twisted W) =
  omap (fun p => (twisted p.1, p.2)) (fastica_rec phi dphi g Z k W).
Proof.
rewrite /fastica_rec (recorded_shift (g := twisted) (v := 0) (st := fun V => omap fst (fastica_step (map_mx phi) (map_mx dphi) Z V)) (l := fastica_loss g Z)).
- by case: recorded => //= -[V ls] /=; rewrite (eq_map (@addr0 _)) map_id.
- by move=> V; exact: step_t.
- by move=> V; rewrite floss_t; case: fastica_loss => //= x; rewrite addr0.
Qed.
End Steps.

Section Fast.
Variables (n T : nat) (phi dphi g : R -> R) (pj : {perm 'I_T}) (eig1 eig2 : eigh_t).
Hypotheses (h1 : eigh_contract eig1) (h2 : eigh_contract eig2).
Hypotheses (odd_phi : forall y, phi (- y)%R = - phi y) (even_dphi : forall y, dphi (- y)%R = dphi y) (even_g : forall y, g (- y)%R = g y).
(** two calls of FastICA with any two routines for eigenvectors, the second on the recording
    multiplied by a factor and an orthogonal matrix and with its samples in another order: there are
    signs of the whitened channels such that corresponding filters give corresponding signals *)
Theorem C94_fast (X : 'M[R]_(n, T)) (e : R) (Q : 'M[R]_n) : e != 0 -> Q *m Q^T = 1%:M ->
  distinct (eig1 (covariance (map_mx c X))).1 -> real_vectors eig1 X -> real_vectors eig2 (e *: (Q *m col_perm pj X)) ->
  exists2 S, signs S & forall E, signs E -> forall k W,
    fastica_call eig2 phi dphi g (e *: (Q *m col_perm pj X)) k (twisted E S W) =
    omap (fun p => (signed pj E p.1, p.2)) (fastica_call eig1 phi dphi g X k W).
Proof.
move=> e0 uQ di r1 r2; have [S [hS eZ]] := ica_white_rel h1 h2 e0 uQ di r1 r2.
exists S => // E hE k W; rewrite /fastica_call eZ; case: (ica_white eig1 X) => [Z|] //=.
rewrite rec_t //; case: fastica_rec => [[V ls]|] //=; apply: (f_equal (fun q => Some q)).
by rewrite /= out_t.
Qed.
(** from the identity matrix, the default: the separated signals are the same up to signs *)
Theorem C94_fast_default (X : 'M[R]_(n, T)) (e : R) (Q : 'M[R]_n) : e != 0 -> Q *m Q^T = 1%:M ->
  distinct (eig1 (covariance (map_mx c X))).1 -> real_vectors eig1 X -> real_vectors eig2 (e *: (Q *m col_perm pj X)) ->
  exists2 S, signs S & forall k,
    fastica_call eig2 phi dphi g (e *: (Q *m col_perm pj X)) k 1%:M =
    omap (fun p => (signed pj S p.1, p.2)) (fastica_call eig1 phi dphi g X k 1%:M).
Proof.
move=> e0 uQ di r1 r2; have [S hS h] := C94_fast e0 uQ di r1 r2; exists S => // k.
rewrite -h //; apply: f_equal; apply/matrixP => a b; rewrite !mxE.
by case: (a =P b) => [->|_]; rewrite ?mulr1n ?mulr0n ?mulr1 ?mulr0 ?mul0r ?hS.
Qed.
End Fast.

(** every call of FastICA from an orthogonal filter returns signals whose sample covariance is the
    identity matrix *)
Lemma white_pos n T (X : 'M[Cx]_(n, T)) w V : eigh_spec (covariance X) (w, V) -> [forall i, Rltb 0 (w 0 i)] ->
  covariance (rdiag (map_mx (fun w => 1 / R_sqrt.sqrt w)%coqR w) *m V^H *m X) = 1%:M.
Proof.
move=> s /forallP p; have w0 i : (0 < w 0%R i)%coqR by apply/RltbP; exact: p.
rewrite covarianceM; have [/= u e _] := s.
rewrite ctrM ctrK rdiag_ctr !mulmxA -(mulmxA _ V^H) -(mulmxA _ (V^H *m _) V) -(mulmxA V^H) e.
rewrite (mulmxA V^H) u mul1mx !rdiagM -rdiag1; congr rdiag; apply/rowP => i; rewrite !mxE; toR.
have s0 := sqrt_lt_R0 _ (w0 i); have ss := sqrt_sqrt (w 0%R i) (Rlt_le _ _ (w0 i)).
rewrite -{2}ss; Rfield; lra.
Qed.
Lemma ica_white_cov n T (eig : eigh_t) (X Z : 'M[R]_(n, T)) : eigh_contract eig -> real_vectors eig X ->
  ica_white eig X = Some Z -> (T%:R)^-1 *: (Z *m Z^T) = 1%:M.
Proof.
move=> hc hr; rewrite /ica_white; case e1: (whiten eig 2 false _) => [Z0||] // [<-].
have /is_realP zr := white_real hr e1; move: e1; rewrite (white23 hr) => e1.
have : covariance Z0 = 1%:M.
  have s := hc n _ (cov_herm (map_mx c X)).
  move: e1 s; rewrite /whiten /= /whiten_bin; case: (T == 0%N) => //; case: (eig n _) => w V.
  by case p: [forall i, _] => // -[<-] s; exact: white_pos.
rewrite zr /covariance ctr_c -cmxM reK => /matrixP h; apply/matrixP => a b.
apply: c_inj; have := h a b; rewrite [LHS]mxE [X in _ * X]mxE => {}h; rewrite [X in c X = _]mxE cM.
have cn (m : nat) : c m%:R = m%:R by elim: m => [|m IH]; rewrite ?c0 // !mulrSr cD c1 IH.
by rewrite cV cn h !mxE cn.
Qed.
Lemma fastica_rec_ortho n T phi dphi g (Z : 'M[R]_(n, T)) k W V ls : W *m W^T = 1%:M ->
  fastica_rec phi dphi g Z k W = Some (V, ls) -> V *m V^T = 1%:M.
Proof.
rewrite /fastica_rec; elim: k W V ls => [|k IH] W V ls oW /=; case: (fastica_loss g Z W) => // x.
  by case=> <- _.
case es: (fastica_step (map_mx phi) (map_mx dphi) Z W) => [[W' Y']|] //=.
have [oW' _ _ _] := C54_fastica es.
case er: (recorded (fun U => omap fst (fastica_step (map_mx phi) (map_mx dphi) Z U)) (fastica_loss g Z) k W') => [[V1 l1]|] //.
case=> <- _; exact: IH oW' er.
Qed.
Theorem C94_fast_white n T eig phi dphi g (X : 'M[R]_(n, T)) k W Y ls : eigh_contract eig -> real_vectors eig X ->
  W *m W^T = 1%:M -> fastica_call eig phi dphi g X k W = Some (Y, ls) -> (T%:R)^-1 *: (Y *m Y^T) = 1%:M.
Proof.
move=> hc hr oW; rewrite /fastica_call.
case eZ: (ica_white eig X) => [Z|] //; have zz := ica_white_cov hc hr eZ.
case er: (fastica_rec phi dphi g Z k W) => [[V ls']|] //= [<- _].
have oV := fastica_rec_ortho oW er.
have -> : V *m Z *m (V *m Z)^T = V *m (Z *m Z^T) *m V^T by rewrite trmx_mul !mulmxA.
by rewrite scalemxAl scalemxAr zz mulmx1.
Qed.

(** * Concrete calls *)
Section Concrete.
(** a routine that returns the standard basis for diagonal matrices whose entries increase, the first
    vector having the sign [u] *)
Variable u : R.
Hypothesis hu : u * u = 1.
Definition increasing n (A : 'M[Cx]_n) : bool :=
  (A == rdiag (\row_i re (A i i))) && [forall i : 'I_n, [forall j : 'I_n, (i <= j)%N ==> Rleb (re (A i i)) (re (A j j))]].
Definition first_sign n : 'rV[R]_n := \row_(i < n) (if val i == 0%N then u else 1).
Definition eig_signed (eig : eigh_t) : eigh_t := fun n A =>
  if increasing A then (\row_i re (A i i), rdiag (first_sign n)) else eig n A.
Lemma eig_signed_contract eig : eigh_contract eig -> eigh_contract (eig_signed eig).
Proof.
move=> H n A hA; rewrite /eig_signed; case: ifP => [/andP [/eqP eA /forallP up]|_]; last exact: H.
split; cbn [fst snd].
- rewrite rdiag_ctr rdiagM -rdiag1; apply: f_equal; apply/rowP => i; rewrite !mxE.
  by case: (val i == 0%N); rewrite ?hu ?mulr1.
- by rewrite {1}eA !rdiagM; apply: f_equal; apply/rowP => i; rewrite !mxE mulrC.
- by move=> i j ij; rewrite !mxE; have /forallP/(_ j)/implyP/(_ ij)/RlebP := up i.
Qed.
(** two channels, four samples *)
Definition z1 (t : 'I_4) : R := if t == 3%N :> nat then -1 else 1.
Definition z2 (t : 'I_4) : R := if t == 1%N :> nat then -1 else 1.
Definition Zs : 'M[R]_(2, 4) := \matrix_(a, t) (if val a == 0%N then u * z1 t else z2 t).
Definition Xs : 'M[R]_(2, 4) := \matrix_(a, t) (if val a == 0%N then z1 t else 2%:R * z2 t).
Lemma sum4 (V : zmodType) (f : 'I_4 -> V) : \sum_t f t = f (inord 0) + f (inord 1) + f (inord 2) + f (inord 3).
Proof.
rewrite !big_ord_recl big_ord0 addr0 !addrA.
by congr (_ + _ + _ + _); congr f; apply: val_inj; rewrite /= inordK.
Qed.
Lemma z1v : (z1 (inord 0) = 1) * (z1 (inord 1) = 1) * (z1 (inord 2) = 1) * (z1 (inord 3) = -1).
Proof. by rewrite /z1 !inordK. Qed.
Lemma z2v : (z2 (inord 0) = 1) * (z2 (inord 1) = -1) * (z2 (inord 2) = 1) * (z2 (inord 3) = 1).
Proof. by rewrite /z2 !inordK. Qed.
Definition l4 : 'rV[R]_2 := \row_i (if val i == 0%N then 1 else 4%:R).
Lemma cov_s : covariance (map_mx c Xs) = rdiag l4.
Proof.
rewrite /covariance ctr_c -cmxM.
have -> : (4%:R : Cx)^-1 = c (4%:R)^-1 by rewrite cV; congr (_^-1); rewrite !mulrSr !mulr0n !add0r !cD c1.
apply/matrixP => a b; rewrite rdiagE [LHS]mxE [X in _ * X]mxE -cM [X in c (_ * X)]mxE sum4 !mxE !z1v !z2v.
have n4 : (4%:R : R) != 0 by rewrite pnatr_eq0.
by case: (ord2P a) => ->; case: (ord2P b) => -> /=; rewrite ?mulr1n ?mulr0n -?c0; congr c; field.
Qed.
Lemma inc_s : increasing (rdiag l4).
Proof.
apply/andP; split.
  by apply/eqP; apply: f_equal; apply/rowP => i; rewrite mxE rdiagE eqxx mulr1n rec.
apply/forallP => i; apply/forallP => j; apply/implyP; rewrite !rdiagE !eqxx !mulr1n !rec !mxE.
have h : ((1 : R)%R <= (4%:R : R)%R)%coqR by rewrite -RnatE; toR; rewrite /=; lra.
by case: (ord2P i) => ->; case: (ord2P j) => -> //= _; apply/RlebP => //; exact: Rle_refl.
Qed.
Variable eig : eigh_t.
Lemma eig_s : eig_signed eig (covariance (map_mx c Xs)) = (l4, rdiag (first_sign 2)).
Proof.
rewrite cov_s /eig_signed inc_s; congr pair.
by apply/rowP => i; rewrite mxE rdiagE eqxx mulr1n rec.
Qed.
Lemma real_s : real_vectors (eig_signed eig) Xs.
Proof.
rewrite /real_vectors eig_s; apply/eqP/matrixP => a b; rewrite mxE rdiagE.
by case: (a == b); rewrite ?mulr1n ?mulr0n ?c_conj ?rmorph0.
Qed.
Lemma distinct_s : distinct (eig_signed eig (covariance (map_mx c Xs))).1.
Proof.
rewrite eig_s => a b /=; rewrite !mxE.
have h : (1 : R) != 4%:R by rewrite eq_sym (eqr_nat _ 4 1).
by case: (ord2P a) => ->; case: (ord2P b) => -> //= /eqP; rewrite ?(negbTE h) // eq_sym (negbTE h).
Qed.
Lemma white_s : ica_white (eig_signed eig) Xs = Some Zs.
Proof.
rewrite /ica_white /whiten /= /whiten_bin /=.
have -> : covariance_real (map_mx c Xs) = covariance (map_mx c Xs) by rewrite /covariance real_ctr ?real_c.
rewrite eig_s; have -> : [forall i, Rltb 0 (l4 0 i)].
  apply/forallP => i; apply/RltbP; rewrite mxE; apply/RltP.
  by case: (val i == 0%N); rewrite ?ltr01 // ltr0n.
apply: (f_equal (fun q => Some q)); apply/matrixP => a t.
have -> : (rdiag (first_sign 2))^T = rdiag (first_sign 2) by rewrite /rdiag tr_diag_mx.
rewrite rdiagM mxE /rdiag mul_diag_mx !mxE -cM rec.
have s2 : R_sqrt.sqrt 4%:R = 2%coqR.
  have -> : (4%:R : R) = (2 * 2)%coqR by rewrite -RnatE /=; lra.
  by rewrite sqrt_square //; lra.
case: (ord2P a) => -> /=.
  by rewrite sqrt_1; toR; lra.
rewrite s2 -RnatE /=; toR; rewrite /=; lra.
Qed.
(** a score that is neither odd nor even: the derivative of [y^3/3 + y^4/4] *)
Definition phi3 (y : R) : R := (y ^+ 2 + y ^+ 3)%R.
Definition dphi3 (y : R) : R := (2%:R * y + 3%:R * y ^+ 2)%R.
Definition g3 (y : R) : R := (y ^+ 3 / 3%:R + y ^+ 4 / 4%:R)%R.
Let h2 : 2%:R != 0 :> R. Proof. by rewrite pnatr_eq0. Qed.
Let h4 : 4%:R != 0 :> R. Proof. by rewrite pnatr_eq0. Qed.
Lemma rmean4 (x : 'rV[R]_4) : rmean x = (4%:R)^-1 * (x 0 (inord 0) + x 0 (inord 1) + x 0 (inord 2) + x 0 (inord 3)).
Proof. by rewrite /rmean sum4. Qed.
Lemma raw3 s (w : 'rV[R]_2) k : w = row s 1%:M -> ica_raw (map_mx phi3) (map_mx dphi3) Zs w 0 k =
  rmean (\row_t dphi3 (Zs s t)) * (s == k)%:R - rmean (\row_t (phi3 (Zs s t) * Zs k t)).
Proof.
move=> ->; rewrite /ica_raw -row_mul mul1mx [LHS]mxE [X in X + _]mxE [X in _ + X]mxE [X in _ - X]mxE [X in _ * X - _]mxE [X in _ * X - _]mxE.
have -> : map_mx dphi3 (row s Zs) = \row_t dphi3 (Zs s t) by apply/rowP => t; rewrite !mxE.
by congr (_ - rmean _); apply/rowP => t; rewrite !mxE.
Qed.
Lemma u_cases : u = 1 \/ u = -1.
Proof. exact: (@sign_cases 1 (fun _ => u) 0 (fun _ => hu)). Qed.
Lemma raw0 k : ica_raw (map_mx phi3) (map_mx dphi3) Zs (row 0 1%:M) 0 k = if k == 0 then 2%:R + u / 2%:R else - (2%:R)^-1.
Proof.
rewrite (raw3 (s := 0)) // !rmean4 !mxE /= !z1v !z2v /phi3 /dphi3.
by case: (ord2P k) => -> /=; case: u_cases => ->; field.
Qed.
Lemma raw1 (W : 'M[R]_2) k : row 1 W = row 1 1%:M -> ica_raw (map_mx phi3) (map_mx dphi3) Zs (row 1 W) 0 k =
  if k == 0 then - (u / 2%:R) else 5%:R / 2%:R.
Proof.
move=> /(raw3) ->; rewrite !rmean4 !mxE /= !z1v !z2v /phi3 /dphi3.
by case: (ord2P k) => -> /=; [case: u_cases => ->|]; field.
Qed.
(** the norm of the first direction *)
Definition na : R := R_sqrt.sqrt ((2%:R + u / 2%:R) ^+ 2 + (2%:R)^-1 ^+ 2)%R.
Lemma na_sqr : na * na = (2%:R + u / 2%:R) ^+ 2 + (2%:R)^-1 ^+ 2.
Proof.
apply: sqrt_sqrt; apply: Rplus_le_le_0_compat; rewrite -RpowE; exact: pow2_ge_0.
Qed.
Lemma na_neq0 : na != 0.
Proof.
apply/eqP => e; have := na_sqr; rewrite e mul0r; case: u_cases => ->.
  by rewrite -!RnatE -!RinvE /=; try lra; rewrite -!RpowE; toR; lra.
by rewrite -!RnatE -!RinvE /=; try lra; rewrite -!RpowE; toR; lra.
Qed.
Lemma step_s : exists W' : 'M[R]_2, fastica_step (map_mx phi3) (map_mx dphi3) Zs 1%:M = Some (W', W' *m Zs) /\
  forall k, W' 0 k = na^-1 * (if k == 0 then 2%:R + u / 2%:R else - (2%:R)^-1).
Proof.
pose r := ica_raw (map_mx phi3) (map_mx dphi3) Zs (row 0 1%:M).
have nr : R_sqrt.sqrt (\sum_k r 0 k ^+ 2) = na by rewrite sum2 !raw0 /= sqrrN.
pose V := set_row 1%:M 0 (na^-1 *: r).
have V0 k : V 0 k = na^-1 * (if k == 0 then 2%:R + u / 2%:R else - (2%:R)^-1).
  by rewrite mxE eqxx mxE raw0.
have V1 : row 1 V = row 1 1%:M by apply/rowP => k; rewrite !mxE.
pose q := deflate V 1 (ica_raw (map_mx phi3) (map_mx dphi3) Zs (row 1 V)).
have q1 : q 0 1 = 5%:R / 2%:R - (na ^+ 2)^-1 * (u / 2%:R + 3%:R / 4%:R).
  rewrite /q /deflate /= [LHS]mxE (raw1 _ V1) /= [X in _ + X]mxE summxE big_mkcond sum2 /=.
  rewrite addr0; congr (_ - _); rewrite [LHS]mxE [X in _ * X = _]mxE sum2 !(raw1 _ V1) !V0 /=.
  have := na_neq0; move: na => a a0; case: u_cases => ->; field; exact: a0.
have nq : R_sqrt.sqrt (\sum_k q 0 k ^+ 2) != 0.
  apply/eqP => e.
  have ge : (0 <= \sum_k q 0 k ^+ 2)%coqR by apply/RleP; apply: sumr_ge0 => t _; exact: sqr_ge0.
  have /eqP := sqrt_eq_0 _ ge e; rewrite psumr_eq0; last by move=> t _; exact: sqr_ge0.
  move=> /allP/(_ (1 : 'I_2) (mem_index_enum _)); rewrite sqrf_eq0 q1 expr2 na_sqr.
  by case: u_cases => ->; apply/negP; [rewrite (_ : _ - _ = 30%:R / 13%:R)|rewrite (_ : _ - _ = 12%:R / 5%:R)]; rewrite ?mulf_neq0 ?invr_neq0 ?pnatr_eq0 //; field.
exists (set_row V 1 ((R_sqrt.sqrt (\sum_k q 0 k ^+ 2))^-1 *: q)); split; last first.
  by move=> k; rewrite mxE /=.
rewrite /fastica_step /=.
have -> : enum 'I_2 = [:: 0; 1] by apply: (inj_map val_inj); rewrite val_enum_ord.
rewrite /= {1}/ica_source /deflate /= -/r nr (negbTE na_neq0) -/V.
by rewrite /ica_source -/q (negbTE nq).
Qed.
Lemma call3 : exists Y ls, fastica_call (eig_signed eig) phi3 dphi3 g3 Xs 1 1%:M = Some (Y, ls) /\ Y 0 (inord 0) ^+ 2 = 4%:R / na ^+ 2.
Proof.
rewrite /fastica_call white_s /fastica_rec /=; have [W' [-> hW]] := step_s.
rewrite /fastica_loss /=; do 2 eexists; split; first by [].
rewrite mxE sum2 !hW !mxE /= z1v z2v.
by have := na_neq0; move: na => a a0; case: u_cases => ->; field.
Qed.
(** the score [y^3] *)
Definition cube (y : R) : R := (y ^+ 3)%R.
Definition dcube (y : R) : R := (3%:R * y ^+ 2)%R.
Definition quart (y : R) : R := (y ^+ 4 / 4%:R)%R.
Lemma raw_cube s : ica_raw (map_mx cube) (map_mx dcube) Zs (row s 1%:M) = 2%:R *: row s 1%:M.
Proof.
rewrite /ica_raw -row_mul mul1mx; apply/rowP => k; rewrite !mxE !rmean4 !mxE /cube /dcube !z1v !z2v.
by case: (ord2P s) => ->; case: (ord2P k) => -> /=; try (case: u_cases => ->); field.
Qed.
Lemma source_cube s : ica_source (map_mx cube) (map_mx dcube) Zs 1%:M s = Some 1%:M.
Proof.
rewrite /ica_source raw_cube.
have -> : deflate 1%:M s (2%:R *: row s 1%:M) = 2%:R *: row s 1%:M.
  rewrite /deflate; case: (0 < s)%N => //; rewrite big1 ?subr0 // => i si.
  rewrite sum2 !mxE; have /negbTE h : i != s by apply: contraTneq si => ->; rewrite ltnn.
  by move: h; case: (ord2P i) => ->; case: (ord2P s) => -> // _; rewrite !(mulr0, mul0r, mulr1, add0r, addr0) scale0r.
have -> : R_sqrt.sqrt (\sum_k (2%:R *: row s 1%:M) 0 k ^+ 2) = 2%:R.
  have -> : \sum_k (2%:R *: row s 1%:M) 0 k ^+ 2 = (2%:R * 2%:R)%coqR.
    by rewrite sum2 !mxE; case: (ord2P s) => -> /=; rewrite mulr0 mulr1 expr0n /= ?addr0 ?add0r expr2.
  by rewrite sqrt_square // -RnatE /=; lra.
rewrite (negbTE h2); apply: (f_equal (fun q => Some q)); apply/matrixP => i k; rewrite !mxE.
by case: (altP (i =P s)) => [->|//]; rewrite mulrA mulVf // mul1r.
Qed.
Lemma call_cube k : exists ls, fastica_call (eig_signed eig) cube dcube quart Xs k 1%:M = Some (Zs, ls).
Proof.
have st : fastica_step (map_mx cube) (map_mx dcube) Zs 1%:M = Some (1%:M, Zs).
  rewrite /fastica_step /=; have -> : enum 'I_2 = [:: 0; 1] by apply: (inj_map val_inj); rewrite val_enum_ord.
  by rewrite /= !source_cube /= mul1mx.
rewrite /fastica_call white_s /fastica_rec; elim: k => [|k [ls IH]] /=.
  by rewrite /fastica_loss /=; eexists; rewrite mul1mx.
rewrite {1}/fastica_loss /= st /=; case: (recorded _ _ k 1%:M) IH => [[V l]|] //= [-> _].
by eexists.
Qed.
End Concrete.

(** C94: with a score that is not odd, the signs that the routine for eigenvectors gives to its vectors
    change more than the signs of the result of FastICA *)
Theorem C94_parity_refuted : exists (phi dphi g : R -> R) (eig1 eig2 : eigh_t) (X Y1 Y2 : 'M[R]_(2, 4)) ls1 ls2,
  [/\ eigh_contract eig1, eigh_contract eig2, distinct (eig1 2%N (covariance (map_mx c X))).1,
      real_vectors eig1 X & real_vectors eig2 X] /\
  [/\ fastica_call eig1 phi dphi g X 1 1%:M = Some (Y1, ls1), fastica_call eig2 phi dphi g X 1 1%:M = Some (Y2, ls2) &
      ~ exists2 S, signs S & Y2 = signed 1 S Y1].
Proof.
have [eig hc] := eigh_contract_sat.
have p1 : (1 * 1 = 1 :> R)%R by rewrite mulr1.
have m1 : (-1 * -1 = 1 :> R)%R by rewrite mulrNN mulr1.
have [Y1 [ls1 [e1 v1]]] := call3 p1 eig; have [Y2 [ls2 [e2 v2]]] := call3 m1 eig.
exists phi3, dphi3, g3, (eig_signed 1 eig), (eig_signed (-1) eig), Xs, Y1, Y2, ls1, ls2; split.
  by split; [exact: eig_signed_contract|exact: eig_signed_contract|exact: distinct_s|exact: real_s|exact: real_s].
split=> // -[S hS e]; move: v2; rewrite e mxE perm1 exprMn expr2 hS mul1r v1 !expr2 !na_sqr.
have h2 : (2%:R : R) != 0 by rewrite pnatr_eq0.
have -> : (2%:R + 1 / 2%:R) ^+ 2 + (2%:R)^-1 ^+ 2 = 13%:R / 2%:R :> R by field.
have -> : (2%:R + -1 / 2%:R) ^+ 2 + (2%:R)^-1 ^+ 2 = 5%:R / 2%:R :> R by field.
have n5 : (5%:R : R) != 0 by rewrite pnatr_eq0.
have n13 : (13%:R : R) != 0 by rewrite pnatr_eq0.
have -> : 4%:R / (13%:R / 2%:R) = 8%:R / 13%:R :> R by field.
have -> : 4%:R / (5%:R / 2%:R) = 8%:R / 5%:R :> R by field.
move/eqP; rewrite eqr_div // -!natrM eqr_nat //.
Qed.

(** two routines, a recording and calls that meet the hypotheses of the theorems on FastICA *)
Example C94_fast_instance : exists eig1 eig2 : eigh_t,
  [/\ eigh_contract eig1, eigh_contract eig2, distinct (eig1 2%N (covariance (map_mx c Xs))).1,
      real_vectors eig1 Xs & real_vectors eig2 Xs] /\
  [/\ forall y, cube (- y)%R = - cube y, forall y, dcube (- y)%R = dcube y, forall y, quart (- y)%R = quart y &
      forall k, exists ls1 ls2, [/\ fastica_call eig1 cube dcube quart Xs k 1%:M = Some (Zs 1, ls1),
        fastica_call eig2 cube dcube quart Xs k 1%:M = Some (Zs (-1), ls2) & Zs 1 <> Zs (-1)]].
Proof.
have [eig hc] := eigh_contract_sat.
have p1 : (1 * 1 = 1 :> R)%R by rewrite mulr1.
have m1 : (-1 * -1 = 1 :> R)%R by rewrite mulrNN mulr1.
exists (eig_signed 1 eig), (eig_signed (-1) eig); split.
  by split; [exact: eig_signed_contract|exact: eig_signed_contract|exact: distinct_s|exact: real_s|exact: real_s].
split=> [y|y|y|k]; rewrite /cube /dcube /quart ?sqrrN //; first by rewrite exprNn -signr_odd mulN1r.
  by rewrite exprNn -signr_odd mul1r.
have [ls1 e1] := call_cube p1 eig k; have [ls2 e2] := call_cube m1 eig k; exists ls1, ls2; split=> //.
move=> /matrixP/(_ 0 (inord 0)); rewrite !mxE /= z1v => /eqP; rewrite !mulr1 -subr_eq0 opprK -mulr2n.
by rewrite pnatr_eq0.
Qed.

Lemma rec1 S (st : S -> option S) l s s1 x0 x1 : l s = Some x0 -> st s = Some s1 -> l s1 = Some x1 -> recorded st l 1 s = Some (s1, [:: x0; x1]).
Proof. by move=> /= -> -> ->. Qed.
(** a call of NaturalGradLaplaceICA: the losses before and after one iteration *)
Example C94_laplace_instance : exists Y : 'I_1 -> 'M[R]_(2, 4),
  laplace_ica_call Natural true (2%:R)^-1 (fun _ => Xs) 1 (fun _ => 1%:M) = Some (Y, [:: 3%:R; 2%:R + ln 2%:R]).
Proof.
have n2 : (2%:R : R) != 0 by rewrite pnatr_eq0.
have n4 : (4%:R : R) != 0 by rewrite pnatr_eq0.
have two : (2%:R : R) = 2%coqR by rewrite -RnatE.
have sp (x : R) : (0 < x)%coqR -> np_sign x = 1 /\ Rabs x = x.
  move=> x0; rewrite /np_sign Rabs_pos_eq; last exact: Rlt_le.
  by case: Rlt_dec => h.
have sn (x : R) : (0 < x)%coqR -> np_sign (- x)%R = -1 /\ Rabs (- x)%R = x.
  move=> x0; rewrite /np_sign -[(- x)%R]/(- x)%coqR Rabs_Ropp Rabs_pos_eq; last exact: Rlt_le.
  by split=> //; case: Rlt_dec => h; [lra|case: Rlt_dec => // h'; lra].
have [s1 a1] : np_sign 1%R = 1 /\ Rabs 1%R = 1 by apply: sp; exact: Rlt_0_1.
have [s2 a2] : np_sign (2%:R)%R = 1 /\ Rabs (2%:R)%R = 2%:R by apply: sp; rewrite two; lra.
have [s3 a3] : np_sign (-1)%R = -1 /\ Rabs (-1)%R = 1 by apply: sn; exact: Rlt_0_1.
have [s4 a4] : np_sign (- 2%:R)%R = -1 /\ Rabs (- 2%:R)%R = 2%:R by apply: sn; rewrite two; lra.
pose e1 : 'rV[R]_2 := \row_i (if val i == 0%N then 1 else (2%:R)^-1).
pose W1 := fun _ : 'I_1 => diag_mx e1.
have st : ica_once Natural true (2%:R)^-1 np_sign (fun _ => Xs) (fun _ => 1%:M) = Some W1.
  rewrite /ica_once /natural_step /=; apply: (f_equal (fun q => Some q)); apply: functional_extensionality => i.
  rewrite /directions /sep !mul1mx mulmx1 /direction /PhiY; apply/matrixP => a b; rewrite !mxE sum4 !mxE.
  case: (ord2P a) => ->; case: (ord2P b) => -> /=; rewrite ?z1v ?z2v ?mulrN ?mulr1 ?s1 ?s2 ?s3 ?s4 ?mulr1n ?mulr0n; by field.
have l0 : ica_loss (@each_contrast 2 4 Rabs) (fun _ => Xs) (fun _ => 1%:M) = Some 3%:R.
  rewrite /ica_loss /= (introT forallP) => [|i]; last exact: unitmx1.
  apply: (f_equal (fun q => Some q)); rewrite /sep mul1mx det1 Rabs_R1 ln_1 subr0 sum2 /meanR !sum4 !mxE /= !z1v !z2v.
  by rewrite !mulrN !mulr1 a1 a2 a3 a4; field.
have dW : \det (diag_mx e1) = (2%:R)^-1 by rewrite det_diag big_ord_recl big_ord1 !mxE mul1r.
have l1 : ica_loss (@each_contrast 2 4 Rabs) (fun _ => Xs) W1 = Some (2%:R + ln 2%:R).
  rewrite /ica_loss /= (introT forallP) => [|i]; last by rewrite unitmxE dW unitrV unitfE.
  apply: (f_equal (fun q => Some q)); rewrite /sep /W1 dW; congr (_ + _); last first.
    rewrite -RinvE; last exact/eqP.
    rewrite Rabs_inv a2 ln_Rinv; last by rewrite two; lra.
    exact: opprK.
  have eE (a : 'I_2) (t : 'I_4) : each_contrast Rabs (fun _ : 'I_1 => diag_mx e1 *m Xs) a t = Rabs (e1 0 a * Xs a t)%R by rewrite mxE mul_diag_mx mxE.
  rewrite sum2 /meanR !sum4 !eE !mxE /= !z1v !z2v.
  have h (x : R) : (2%:R)^-1 * (2%:R * x) = x by rewrite mulrA mulVf // mul1r.
  by rewrite !h !mul1r !a1 !a3; field.
by rewrite /laplace_ica_call /ica_call /ica_run (rec1 l0 st l1); eexists.
Qed.

Print Assumptions C94_run.
Print Assumptions C94_call.
Print Assumptions C94_channels.
Print Assumptions C94_laplace.
Print Assumptions C94_natural_start.
Print Assumptions C94_fast.
Print Assumptions C94_fast_default.
Print Assumptions C94_fast_white.
Print Assumptions C94_parity_refuted.
