(** Model of GaussMNMF and FastGaussMNMF of /repo/ssspy/bss/mnmf.py.

    NMF parameters are functions on finite index ranges as in Ilrma.v; [None] is an exception
    or a non-finite value.  [recon] and [recon_lat] (Ilrma.v) are the same code as
    [reconstruct_nmf], mnmf.py:288-297. *)
From Coq Require Import Reals.
From mathcomp Require Import all_ssreflect all_algebra.
From Verif Require Import RStruct MxC CxR NpLin NmfReal Eigh.
From Verif Require Import SpatialIP SpatialISS SpatialIP2 Scale AuxIVA Ilrma.
Import Order.TTheory GRing.Theory Num.Theory.
Set Implicit Arguments.
Unset Strict Implicit.
Unset Printing Implicit Defensive.
Local Open Scope ring_scope.

(** [np.sqrt(num / denom)] is finite *)
Definition ratio_ok (num den : R) : bool := (den != 0) && Rleb 0 (num / den)%coqR.

Section MNMF.
Variables (N M F T K : nat) (fl : R -> R).
Notation cells := ('I_N -> 'I_F -> 'I_T -> R).
Notation basis := ('I_N -> 'I_F -> 'I_K -> R).
Notation activ := ('I_N -> 'I_K -> 'I_T -> R).
Implicit Types (B : basis) (V : activ) (L : cells).

(** The end of [separate], mnmf.py:752-763 and 1206-1217: multichannel Wiener filter built from
    the source covariances [Rn], applied to [X], read at reference channel [r] *)
Definition wiener (eig : eigh_t) (Rn : 'I_N -> 'I_F -> 'I_T -> 'M[Cx]_M) (X : 'I_F -> 'M[Cx]_(M, T)) (r : 'I_M) :
    option ('I_N -> 'I_F -> 'I_T -> Cx) :=
  let Rp i j := to_psd eig fl (\sum_n Rn n i j) in
  if [forall i, [forall j, Rp i j \in unitmx]] then
    Some (fun n i j => let W_Hermite := invmx (Rp i j) *m Rn n i j in \sum_a (W_Hermite^H r a * X i a j))
  else None.

(** ** FastGaussMNMF *)
Section Fast.
Notation spec := ('I_F -> 'M[Cx]_(M, T)).
Notation diagz := ('I_F -> 'M[Cx]_M).
Notation spat := ('I_F -> 'I_N -> 'I_M -> R).
Implicit Types (X : spec) (Q : diagz) (D : spat).

(** [LambD], mnmf.py:1251-1252, 1348-1349 *)
Definition lambd L D (i : 'I_F) (m : 'I_M) (j : 'I_T) : R := \sum_n L n i j * D i n m.
(** [np.abs(Q @ X)], mnmf.py:1253-1254, 1350-1351 *)
Definition qx X Q (i : 'I_F) (m : 'I_M) (j : 'I_T) : R := cabs ((Q i *m X i) m j).
Definition all_imj (p : 'I_F -> 'I_M -> 'I_T -> bool) : bool :=
  [forall i, [forall m, [forall j, p i m j]]].

(** mnmf.py:1241-1261 *)
Definition fast_loss X Q D L : option R :=
  if [&& T != 0%N, [forall i, Q i \in unitmx] & all_imj (fun i m j => Rltb 0 (lambd L D i m j))] then
    Some (\sum_i (meanR (fun j => \sum_m ((qx X Q i m j ^ 2 / lambd L D i m j + ln (lambd L D i m j))%coqR)) -
                  (2 * ln (cabs (\det (Q i))))%coqR))
  else None.

(** mnmf.py:1330-1360 [update_basis] *)
Definition fb_num X Q D B V n i k : R :=
  \sum_j V n k j * \sum_m D i n m * (qx X Q i m j / lambd (recon B V) D i m j)%coqR ^+ 2.
Definition fb_den D B V n i k : R :=
  \sum_j V n k j * \sum_m (D i n m / lambd (recon B V) D i m j)%coqR.
Definition fast_basis X Q D B V : option basis :=
  if all_imj (fun i m j => lambd (recon B V) D i m j != 0) &&
     [forall n, [forall i, [forall k, ratio_ok (fb_num X Q D B V n i k) (fb_den D B V n i k)]]] then
    Some (fun n i k => fl (B n i k * R_sqrt.sqrt (fb_num X Q D B V n i k / fb_den D B V n i k)))
  else None.
(** mnmf.py:1387-1417 [update_activation] *)
Definition fa_num X Q D B V n k j : R :=
  \sum_i B n i k * \sum_m D i n m * (qx X Q i m j / lambd (recon B V) D i m j)%coqR ^+ 2.
Definition fa_den D B V n k j : R :=
  \sum_i B n i k * \sum_m (D i n m / lambd (recon B V) D i m j)%coqR.
Definition fast_activation X Q D B V : option activ :=
  if all_imj (fun i m j => lambd (recon B V) D i m j != 0) &&
     [forall n, [forall k, [forall j, ratio_ok (fa_num X Q D B V n k j) (fa_den D B V n k j)]]] then
    Some (fun n k j => fl (V n k j * R_sqrt.sqrt (fa_num X Q D B V n k j / fa_den D B V n k j)))
  else None.
(** mnmf.py:1647-1675 [update_spatial]: the result is not floored *)
Definition fs_num X Q D L i n m : R :=
  \sum_j (L n i j / lambd L D i m j ^ 2)%coqR * (qx X Q i m j ^ 2)%coqR.
Definition fs_den D L i n m : R := \sum_j (L n i j / lambd L D i m j)%coqR.
Definition fast_spatial X Q D L : option spat :=
  if all_imj (fun i m j => lambd L D i m j != 0) &&
     [forall i, [forall n, [forall m, ratio_ok (fs_num X Q D L i n m) (fs_den D L i n m)]]] then
    Some (fun i n m => R_sqrt.sqrt (fs_num X Q D L i n m / fs_den D L i n m)%coqR * D i n m)
  else None.

(** mnmf.py:1503-1514 and 1623-1636: weighted covariances, then IP1 or IP2 on the diagonaliser *)
Definition fast_phi D L i : 'M[R]_(M, T) := \matrix_(m, j) (1 / lambd L D i m j)%coqR.
Definition fast_diag_ip1 X D L Q : option diagz :=
  if (T != 0%N) && all_imj (fun i m j => lambd L D i m j != 0) then
    all_bins Q (fun i => ip1 fl (wcov (fast_phi D L i) (X i)) (Q i))
  else None.
Definition fast_diag_ip2 (eig : eigh_t) (chol : chol_t) X D L (ps : seq ('I_M * 'I_M)) Q : option diagz :=
  if (T != 0%N) && all_imj (fun i m j => lambd L D i m j != 0) then
    all_bins Q (fun i => ip2 eig chol fl (wcov (fast_phi D L i) (X i)) ps (Q i))
  else None.

(** mnmf.py:666-678 [normalize_by_power] *)
Definition fast_psi X Q (m : 'I_M) : R :=
  fl (R_sqrt.sqrt ((F * T)%:R^-1 * \sum_i \sum_j (qx X Q i m j ^ 2)%coqR)).
Definition fast_norm X Q D : option (diagz * spat) :=
  if (F * T != 0)%N && [forall m, fast_psi X Q m != 0] then
    Some (fun i => \matrix_(m, a) (Q i m a / c (fast_psi X Q m)),
          fun i n m => (D i n m / fast_psi X Q m ^ 2)%coqR)
  else None.

(** mnmf.py:1186-1217 [separate] *)
Definition fast_rn Q D L n i j : 'M[Cx]_M :=
  \matrix_(a, b) \sum_m (c (L n i j * D i n m) * (invmx (Q i) a m * (invmx (Q i))^H m b)).
Definition fast_separate (eig : eigh_t) X Q D L (r : 'I_M) : option ('I_N -> 'I_F -> 'I_T -> Cx) :=
  if [forall i, Q i \in unitmx] then wiener eig (fast_rn Q D L) X r else None.

(** mnmf.py:1294-1303 [update_once] with [diagonalizer_algorithm] IP1 *)
Record fast_state := FastState { fs_Q : diagz; fs_D : spat; fs_B : basis; fs_V : activ }.
Definition fast_once (normalization : bool) X (s : fast_state) : option fast_state :=
  let: FastState Q D B V := s in
  if fast_basis X Q D B V is Some B1 then
    if fast_activation X Q D B1 V is Some V1 then
      if fast_diag_ip1 X D (recon B1 V1) Q is Some Q1 then
        if fast_spatial X Q1 D (recon B1 V1) is Some D1 then
          if normalization then
            if fast_norm X Q1 D1 is Some (Q2, D2) then Some (FastState Q2 D2 B1 V1) else None
          else Some (FastState Q1 D1 B1 V1)
        else None
      else None
    else None
  else None.
End Fast.

(** ** GaussMNMF *)
Section Gauss.
Variables (eig : eigh_t) (chol : chol_t).
Notation spec := ('I_F -> 'M[Cx]_(M, T)).
Notation spat := ('I_N -> 'I_F -> 'M[Cx]_M).
Notation covs := ('I_F -> 'I_T -> 'M[Cx]_M).
Implicit Types (X : spec) (H : spat) (XX : covs).

(** mnmf.py:185-188 [_init_instant_covariance] *)
Definition inst_cov X : covs := fun i j => to_psd eig fl (col j (X i) *m (col j (X i))^H).
(** mnmf.py:386-387 [reconstruct_mnmf] *)
Definition rmodel L H (i : 'I_F) (j : 'I_T) : 'M[Cx]_M := \sum_n c (L n i j) *: H n i.
(** ... followed by [to_psd], as in every use *)
Definition rpsd L H i j : 'M[Cx]_M := to_psd eig fl (rmodel L H i j).
Definition all_ij (p : 'I_F -> 'I_T -> bool) : bool := [forall i, [forall j, p i j]].
Definition rpsd_unit L H : bool := all_ij (fun i j => rpsd L H i j \in unitmx).

(** mnmf.py:771-803 [compute_loss] *)
Definition gauss_loss XX L H : option R :=
  if (T != 0%N) && rpsd_unit L H then
    Some (\sum_i meanR (fun j => re (\tr (invmx (rpsd L H i j) *m XX i j)) + ln (cabs (\det (rpsd L H i j)))))
  else None.

(** mnmf.py:741-763 [separate] *)
Definition gauss_separate X L H (r : 'I_M) : option ('I_N -> 'I_F -> 'I_T -> Cx) :=
  wiener eig (fun n i j => c (L n i j) *: H n i) X r.

(** mnmf.py:858-873 [_compute_traces] *)
Definition tr_RXXRH XX L H n i j : R :=
  let Ri := invmx (rpsd L H i j) in re (\tr (Ri *m XX i j *m (Ri *m H n i))).
Definition tr_RH L H n i j : R := re (\tr (invmx (rpsd L H i j) *m H n i)).

(** mnmf.py:852-901 [update_basis] *)
Definition gb_num XX H B V n i k : R := \sum_j V n k j * tr_RXXRH XX (recon B V) H n i j.
Definition gb_den H B V n i k : R := \sum_j V n k j * tr_RH (recon B V) H n i j.
Definition gauss_basis XX H B V : option basis :=
  if rpsd_unit (recon B V) H &&
     [forall n, [forall i, [forall k, ratio_ok (gb_num XX H B V n i k) (gb_den H B V n i k)]]] then
    Some (fun n i k => fl (B n i k * R_sqrt.sqrt (gb_num XX H B V n i k / gb_den H B V n i k)))
  else None.
(** mnmf.py:919-968 [update_activation] *)
Definition ga_num XX H B V n k j : R := \sum_i B n i k * tr_RXXRH XX (recon B V) H n i j.
Definition ga_den H B V n k j : R := \sum_i B n i k * tr_RH (recon B V) H n i j.
Definition gauss_activation XX H B V : option activ :=
  if rpsd_unit (recon B V) H &&
     [forall n, [forall k, [forall j, ratio_ok (ga_num XX H B V n k j) (ga_den H B V n k j)]]] then
    Some (fun n k j => fl (V n k j * R_sqrt.sqrt (ga_num XX H B V n k j / ga_den H B V n k j)))
  else None.

(** mnmf.py:986-1016 [update_spatial] *)
Definition sp_P L H n i : 'M[Cx]_M := \sum_j c (L n i j) *: invmx (rpsd L H i j).
Definition sp_Q XX L H n i : 'M[Cx]_M :=
  \sum_j c (L n i j) *: (invmx (rpsd L H i j) *m XX i j *m invmx (rpsd L H i j)).
Definition gauss_spatial_at XX L H n i : option 'M[Cx]_M :=
  let P := to_psd eig fl (sp_P L H n i) in
  let HQH := to_psd eig fl (H n i *m sp_Q XX L H n i *m H n i) in
  if gmeanmh eig chol P HQH 2 is Ok G then Some (to_psd eig fl G) else None.
Definition gauss_spatial XX L H : option spat :=
  if rpsd_unit L H && [forall n, [forall i, isSome (gauss_spatial_at XX L H n i)]] then
    Some (fun n i => odflt 0 (gauss_spatial_at XX L H n i))
  else None.

(** mnmf.py:391-414 [normalize], without partitioning *)
Definition gauss_norm H B : option (spat * basis) :=
  if [forall n, [forall i, re (\tr (H n i)) != 0]] then
    Some (fun n i => (c (re (\tr (H n i))))^-1 *: H n i, fun n i k => re (\tr (H n i)) * B n i k)
  else None.

(** mnmf.py:805-838 [update_once], without partitioning *)
Record gauss_state := GaussState { gs_H : spat; gs_B : basis; gs_V : activ }.
Definition gauss_once (normalization : bool) XX (s : gauss_state) : option gauss_state :=
  let: GaussState H B V := s in
  if gauss_basis XX H B V is Some B1 then
    if gauss_activation XX H B1 V is Some V1 then
      if gauss_spatial XX (recon B1 V1) H is Some H1 then
        if normalization then
          if gauss_norm H1 B1 is Some (H2, B2) then Some (GaussState H2 B2 V1) else None
        else Some (GaussState H1 B1 V1)
      else None
    else None
  else None.

(** *** With [partitioning=True]: basis (F, K), activation (K, T), latent (N, K) *)
Notation pbasis := ('I_F -> 'I_K -> R).
Notation pactiv := ('I_K -> 'I_T -> R).
Notation latent := ('I_N -> 'I_K -> R).
Implicit Types (C : pbasis) (A : pactiv) (Z : latent).
(** mnmf.py:879-890 *)
Definition gpb_num XX H Z C A i k : R :=
  \sum_n Z n k * \sum_j A k j * tr_RXXRH XX (recon_lat Z C A) H n i j.
Definition gpb_den H Z C A i k : R := \sum_n Z n k * \sum_j A k j * tr_RH (recon_lat Z C A) H n i j.
Definition gauss_pbasis XX H Z C A : option pbasis :=
  if rpsd_unit (recon_lat Z C A) H &&
     [forall i, [forall k, ratio_ok (gpb_num XX H Z C A i k) (gpb_den H Z C A i k)]] then
    Some (fun i k => fl (C i k * R_sqrt.sqrt (gpb_num XX H Z C A i k / gpb_den H Z C A i k)))
  else None.
(** mnmf.py:946-957 *)
Definition gpa_num XX H Z C A k j : R :=
  \sum_n Z n k * \sum_i C i k * tr_RXXRH XX (recon_lat Z C A) H n i j.
Definition gpa_den H Z C A k j : R := \sum_n Z n k * \sum_i C i k * tr_RH (recon_lat Z C A) H n i j.
Definition gauss_pactivation XX H Z C A : option pactiv :=
  if rpsd_unit (recon_lat Z C A) H &&
     [forall k, [forall j, ratio_ok (gpa_num XX H Z C A k j) (gpa_den H Z C A k j)]] then
    Some (fun k j => fl (A k j * R_sqrt.sqrt (gpa_num XX H Z C A k j / gpa_den H Z C A k j)))
  else None.
(** mnmf.py:1034-1073 [update_latent]: multiplicative step, then [Z / Z.sum(axis=0)] *)
Definition gl_num XX H Z C A n k : R :=
  \sum_i C i k * \sum_j A k j * tr_RXXRH XX (recon_lat Z C A) H n i j.
Definition gl_den H Z C A n k : R := \sum_i C i k * \sum_j A k j * tr_RH (recon_lat Z C A) H n i j.
Definition gauss_latent_step XX H Z C A : option latent :=
  if rpsd_unit (recon_lat Z C A) H &&
     [forall n, [forall k, ratio_ok (gl_num XX H Z C A n k) (gl_den H Z C A n k)]] then
    Some (fun n k => Z n k * R_sqrt.sqrt (gl_num XX H Z C A n k / gl_den H Z C A n k))
  else None.
Definition gauss_latent XX H Z C A : option latent :=
  if gauss_latent_step XX H Z C A is Some Z1 then latent_normalise Z1 else None.
(** mnmf.py:391-414 [normalize] with partitioning: the basis is left alone *)
Definition gauss_pnorm H : option spat :=
  if [forall n, [forall i, re (\tr (H n i)) != 0]] then
    Some (fun n i => (c (re (\tr (H n i))))^-1 *: H n i)
  else None.
End Gauss.
End MNMF.
