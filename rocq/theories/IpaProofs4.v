(** When every bin of a call of [lqpqm2] starts at a root, the call succeeds without
    warning. *)
From Coq Require Import Reals Lra Classical.
From mathcomp Require Import all_ssreflect all_algebra.
From Verif Require Import RStruct MxC CxR NpLin RealLemmas Eigh EighProofs.
From Verif Require Import Cubic Lqpqm LqpqmProofs Lqpqm2 Lqpqm2Proofs Prop_Lqpqm Prop_Lqpqm2.
Import Order.TTheory GRing.Theory Num.Theory.
Set Implicit Arguments.
Unset Strict Implicit.
Unset Printing Implicit Defensive.
Local Open Scope ring_scope.

Section Ready.
Variables (eig : eigh_t) (m : nat) (fl : R -> R) (sing : R -> bool) (n : nat).
Implicit Types b : lqin m.
Definition bin_start b : lqbin := odflt bin0 (lq_prep fl true (lq_bin eig b)).
Definition start_lam b : R := lq_init fl (lq_max (bin_start b)) (lq_vmax (bin_start b)) (lq_z (bin_start b)).
Definition starts b : Prop :=
  if lq_is_singular sing b then lq_singular (eig b.1.1).1 (eig b.1.1).2 b.2 <> None
  else [/\ lq_prep fl true (lq_bin eig b) = Some (bin_start b),
        lq_conv fl (lq_l (bin_start b)) (lq_z (bin_start b)) (start_lam b) &
        lq_regular (eig b.1.1).1 (eig b.1.1).2 (lq_tilde (eig b.1.1).2 b.1.2)
          (start_lam b * lq_scale (bin_start b))%coqR <> None].

Lemma lqpqm2_starts (bins : seq (lqin m)) : (forall i, (i < size bins)%N -> starts (nth (0, 0, 0) bins i)) ->
  exists ys, lqpqm2 eig fl sing n.+1 bins = Some (ys, false).
Proof.
move=> h; rewrite /lqpqm2; set reg := [seq b <- bins | ~~ lq_is_singular sing b].
have hp : oseq [seq lq_prep fl true b | b <- [seq lq_bin eig b | b <- reg]] = Some [seq bin_start b | b <- reg].
  apply/oseqE; rewrite -!map_comp /reg.
  elim: bins {reg} h => //= b bins IH h; have := h 0%N isT; rewrite /starts /=.
  have IH' := IH (fun i hi => h i.+1 hi).
  by case: ifP => //= _ [-> _ _]; rewrite IH'.
have hc : all (fun bl : lqbin * R => lq_conv fl (lq_l bl.1) (lq_z bl.1) bl.2)
   (zip [seq bin_start b | b <- reg] [seq lq_init fl (lq_max b) (lq_vmax b) (lq_z b) | b <- [seq bin_start b | b <- reg]]).
  rewrite /reg; elim: bins {reg hp} h => //= b bins IH h; have := h 0%N isT; rewrite /starts /=.
  have IH' := IH (fun i hi => h i.+1 hi).
  by case: ifP => //= _ [_ -> _]; rewrite IH'.
rewrite /solve_equation hp -/(is_true _) [lq_loop _ _ n.+1 _]/= hc /= hc /=.
set lams := [seq _ | bl <- zip _ _].
have -> : lams = [seq (start_lam b * lq_scale (bin_start b))%coqR | b <- reg].
  by rewrite /lams; elim: (reg) => //= b l ->.
rewrite {lams hp hc}/reg.
suff [ys ->] : exists ys, oseq (lq_scatter eig sing bins [seq (start_lam b * lq_scale (bin_start b))%coqR
    | b <- bins & ~~ lq_is_singular sing b]) = Some ys by exists ys.
elim: bins h => [|b bins IH] h; first by exists [::].
have := h 0%N isT; rewrite /starts /=.
have [ys e] := IH (fun i hi => h i.+1 hi).
case: (eig b.1.1) => phi P /=; case: ifP => /= sb.
  by case: lq_singular => // y _; rewrite e; eexists.
by case=> _ _; case: lq_regular => // y _; rewrite e; eexists.
Qed.
End Ready.

(** one-dimensional bins with unit coefficient *)
Lemma starts_one eig fl (sing : R -> bool) (v : 'cV[Cx]_1) z : eigh_contract eig -> (0 <= z)%coqR ->
  (sing (vnorm v) = false -> [/\ v != 0, fl 1%coqR = 1%coqR, (0 <= fl 0)%coqR & (fl 0%coqR <= cabs (v 0%R 0%R) ^ 2)%coqR]) ->
  starts eig fl sing (1%:M, v, z).
Proof.
move=> He z0 h; rewrite /starts /lq_is_singular /=.
have H1 : 1%:M = (c 1)%:M :> 'M[Cx]_1 by rewrite c1.
have pH : psd (1%:M : 'M[Cx]_1) by apply: pd_psd; apply: pd1.
have s := He _ _ pH.1; case er: (eig _ _) s => [phi P] s /=.
have ph : phi 0 0 = 1%coqR by rewrite H1 in s; apply: spec1 s.
case: ifP => [_|/h [v0 f1 f00 f0]].
  by rewrite /lq_singular (ord1 ord_max) ph; case: eqP => // /eqP; rewrite oner_eq0.
have uP := eigh_unitary s; have tE := tilde1 v uP.
have u0 : (P^H *m v) 0 0 != 0 by rewrite -cabs_eq0 tE cabs_eq0 col1_neq0.
have [|bn [ep sc hx [hf _]]] := @one_entry fl 1%coqR ((P^H *m v) 0 0) z 0%N Rlt_0_1 u0 z0 f1; first by rewrite tE Rmult_1_l.
have eb : lq_bin eig (1%:M, v, z) = ([:: (1%coqR, (P^H *m v) 0 0)], z).
  by rewrite /lq_bin /= er pairs1 ph.
have bE : bin_start eig fl (1%:M, v, z) = bn by rewrite /bin_start eb ep.
rewrite /start_lam bE eb; split=> //.
  by apply: le_conv; rewrite -/(lq_iter fl bn 0) hf Rabs_R0.
rewrite /lq_regular; case: forallP => [_ //|]; case=> j; rewrite (ord1 j) ph sc; apply/eqP.
by move: hx; rewrite /lq_iter /=; toR; lra.
Qed.

Lemma eigh_trace n (H : 'M[Cx]_n) r : eigh_spec H r -> \tr H = c (\sum_j r.1 0 j).
Proof.
move=> s; rewrite (eigh_recompose s) /recompose mxtrace_mulC mulmxA (eigh_unitary s) mul1mx c_sum.
by apply: eq_bigr => j _; rewrite !mxE eqxx.
Qed.

(** in diag(h0, h1) with h1 < h0 the eigenvectors are the two unit vectors in reverse order *)
Definition diag2 (h0 h1 : R) : 'M[Cx]_2 := rdiag (\row_j if j == 0 then h0 else h1).
Lemma diag2_eigh h0 h1 phi P : (h1 < h0)%coqR -> eigh_spec (diag2 h0 h1) (phi, P) ->
  [/\ phi 0 0 = h1, phi 0 1 = h0, P 0 0 = 0, P 1 1 = 0 & P 0 1 != 0].
Proof.
move=> lt s; have [/= uP e srt] := s.
pose h (i : 'I_2) := if i == 0 then h0 else h1.
have ent i j : h i <> phi 0 j -> P i j = 0.
  move=> n0; have := congr1 (fun M : 'M_2 => M i j) e; rewrite mul_diag_mx mul_mx_diag !mxE -/(h i) => /eqP.
  rewrite -subr_eq0 [P i j * _]mulrC -mulrBl mulf_eq0 -cB c_eq0 subr_eq0 => /orP[/eqP//|/eqP//].
have cases j : phi 0 j = h0 \/ phi 0 j = h1.
  have [e0|n0] := classic (h 0 = phi 0 j); first by left; rewrite -e0.
  have [e1|n1] := classic (h 1 = phi 0 j); first by right; rewrite -e1.
  have := eigh_col_neq0 j s => /negP[]; apply/eqP/matrixP => i l; rewrite !mxE /=.
  by case: (ord2P i) => ->; apply: ent.
have tr : (phi 0%R 0%R + phi 0%R 1%R = h0 + h1)%coqR.
  apply: c_inj; have := eigh_trace s; rewrite /= sum2 => <-.
  by rewrite /mxtrace sum2 !mxE /= cD !mulr1n.
have le : (phi 0%R 0%R <= phi 0%R 1%R)%coqR by apply: srt.
have [p0 p1] : phi 0 0 = h1 /\ phi 0 1 = h0.
  by case: (cases 0) (cases 1) => a [] b; move: tr le; rewrite a b => tr le; split=> //; lra.
split=> //.
- by apply: ent; rewrite p0 /h /=; lra.
- by apply: ent; rewrite p1 /h /=; lra.
- apply/eqP => p01.
  have := congr1 (fun M : 'M_2 => M 1 1) uP; rewrite mxE sum2 !ctrE p01 [P 1 1]ent ?p1 /h /=; last lra.
  by rewrite !mulr0 addr0 mxE eqxx => /eqP; rewrite eq_sym oner_eq0.
Qed.

(** two-dimensional bins whose linear term has a component in the top direction only *)
Lemma starts_two eig (sing : R -> bool) h0 h1 (v : 'cV[Cx]_2) z : eigh_contract eig -> (0 < h1 < h0)%coqR ->
  (0 <= z)%coqR -> v 0 0 != 0 -> v 1 0 = 0 -> sing (vnorm v) = false ->
  starts eig identity_fl sing (diag2 h0 h1, v, z).
Proof.
move=> He [h10 h1h] z0 v0 v1 sv; rewrite /starts /lq_is_singular /= sv.
have pH : psd (diag2 h0 h1) by apply: psd_rdiag => j; rewrite mxE; case: eqP => _; lra.
have s := He _ _ pH.1; case er: (eig _ _) s => [phi P] s /=.
have [p0 p1 P00 P11 P01] := diag2_eigh h1h s.
set u := (P 0 1)^* * v 0 0; have u0 : u != 0 by rewrite mulf_neq0 // conjC_eq0.
have eb : lq_bin eig (diag2 h0 h1, v, z) = ([:: (h1, 0); (h0, u)], z).
  rewrite /lq_bin /= er /lq_pairs /lq_tilde enum_ordSl enum_ordSl /= (_ : enum 'I_0 = [::]) /=; last first.
    by apply: size0nil; rewrite size_enum_ord.
  have -> : lift ord0 ord0 = 1 :> 'I_2 by apply: val_inj.
  congr ([:: (_, _); (_, _)], _) => //.
    by rewrite mxE sum2 !ctrE P00 v1 conjC0 mul0r mulr0 addr0.
  by rewrite mxE sum2 !ctrE v1 mulr0 addr0.
have rd : ready identity_fl ([:: (h1, 0); (h0, u)], z).
  apply: exact_ready; split=> //=.
    by move=> p; rewrite !inE => /orP[/eqP->|/eqP->] /=; lra.
  move=> p; rewrite !inE => /orP[/eqP->|/eqP->] /= h; last by split=> //; lra.
  by have := h (h0, u); rewrite !inE eqxx orbT => /(_ isT) /=; lra.
have mk : [seq lq_mask identity_fl p | p <- [:: (h1, 0); (h0, u)]] = [:: (h1, 0); (h0, u)].
  by apply: mask0 => p; rewrite !inE => /orP[/eqP->|/eqP->] /=; lra.
have [pm [ep g s0 pml pmx]] := prep_true rd.
rewrite [([:: _; _], z).1]/= mk in pml pmx; rewrite [([:: _; _], z).1]/= [([:: _; _], z).2]/= in ep g.
have mE s' : [seq scale_pv s' (lq_mask identity_fl p) | p <- [:: (h1, 0); (h0, u)]] =
  [seq scale_pv s' p | p <- [:: (h1, 0); (h0, u)]] by rewrite -[in RHS]mk -map_comp.
rewrite mE in ep g.
have pmE : pm = (h0, u).
  move: pml; rewrite !inE => /orP[/eqP epm|/eqP//]; have := pmx (h0, u).
  by rewrite !inE eqxx orbT epm => /(_ isT) /=; lra.
rewrite {pm}pmE [(h0, u).1]/= in ep g s0 pml pmx; set bn := LqBin _ _ _ _ _ in ep g.
have bE : bin_start eig identity_fl (diag2 h0 h1, v, z) = bn by rewrite /bin_start eb ep.
rewrite /start_lam bE eb.
have hh : (h0 / h0 = 1)%coqR by Rfield; lra.
have f0 : lq_fn (lq_l bn) (lq_z bn) (lq_init identity_fl (lq_max bn) (lq_vmax bn) (lq_z bn)) = 0.
  pose b1 := LqBin [:: (1%coqR, lq_vmax bn)] (lq_z bn) 1%coqR (lq_vmax bn) h0.
  have g1 : good b1.
    have [_ _ q3 _ q5] := g; split=> //=; first exact: Rlt_0_1.
      by move=> p; rewrite inE => /eqP -> /=; lra.
    by rewrite inE eqxx.
  rewrite -[RHS](one_bin_conv identity_fl g1 erefl) /b1 [lq_max _]/= [lq_max bn]/= [lq_vmax (LqBin _ _ _ _ _)]/=.
  rewrite [lq_z (LqBin _ _ _ _ _)]/= [lq_l _]/= [lq_l (LqBin _ _ _ _ h0)]/=.
  move: (lq_init _ _ _ _) => x; rewrite /lq_fn /= mul0r cabs0 /scale_pv /= hh.
  by congr (_ - _ + _)%coqR; congr (_ * _)%coqR; rewrite /Rdiv; toR; Rring.
split=> //; first by apply: le_conv; rewrite f0 Rabs_R0; exact: Rle_refl.
have [mx _] := init_ok identity_fl g; rewrite [X in (X < _)%coqR]/= in mx.
have hx := Rmult_lt_compat_r h0 _ _ s0 mx.
rewrite /lq_regular; case: forallP => [_ //|]; case=> j; rewrite -[lq_scale bn]/h0; apply/eqP.
by case: (ord2P j) => ->; rewrite ?p0 ?p1; move: hx; move: (lq_init _ _ _ _) => x; toR; lra.
Qed.
