(** Model of GaussILRMA, TILRMA and GGDILRMA of /repo/ssspy/bss/ilrma.py: the MM and ME
    updates of the NMF source models (with and without partitioning function), the IP1, IP2,
    ISS1 and ISS2 updates of the spatial model, both normalisations and the loss.

    The three classes share their structure: they differ in the per-cell numerator [h], the
    exponent [e] of the multiplicative update, the per-cell loss [ell] and the spatial weight.
    A constant factor of the numerator (GGD's [beta / 2]) is taken inside the sum.
    NMF parameters are functions on finite index ranges; [None] is an exception or a
    non-finite value. *)
From Coq Require Import Reals.
From mathcomp Require Import all_ssreflect all_algebra.
From Verif Require Import RStruct MxC CxR NpLin NmfReal Eigh.
From Verif Require Import SpatialIP SpatialISS SpatialIP2 SpatialISS2 Scale AuxIVA.
Import Order.TTheory GRing.Theory Num.Theory.
Set Implicit Arguments.
Unset Strict Implicit.
Unset Printing Implicit Defensive.
Local Open Scope ring_scope.

(** the three classes with their parameters [domain], [dof], [beta]; [source_algorithm] *)
Inductive model := Gauss (p : R) | Student (nu p : R) | GGD (be p : R).
Inductive source_alg := MM | ME.

(** constructor checks: ilrma.py:784-789 (Gauss), 2177-2185 (t), 3522-3525 (GGD);
    TILRMA does not check [dof], [0 < dof] is its documented domain *)
Definition valid (m : model) (alg : source_alg) : Prop :=
  match m with
  | Gauss p => (0 < p <= 2)%coqR /\ (alg = ME -> p = 2%coqR)
  | Student nu p => (0 < nu)%coqR /\ (0 < p <= 2)%coqR /\ (alg = ME -> p = 2%coqR)
  | GGD be p => (0 < be < 2)%coqR /\ (0 < p <= 2)%coqR /\ alg = MM
  end.

Definition domain (m : model) : R := match m with Gauss p => p | Student _ p => p | GGD _ p => p end.

(** numerator of a cell with amplitude [y] and model value [q]:
    Gauss MM ilrma.py:1098-1124 [Y2 / TV ** ((p + 2) / p)], ME 1315-1317 [Y2 / TV ** 2];
    t MM 2485-2513 [Y2 / (R_tilde * TV)], ME 2732-2735; GGD 3792-3816 *)
Definition num_cell (m : model) (alg : source_alg) (y q : R) : R :=
  match m, alg with
  | Gauss p, MM => (y ^ 2 / pw q ((p + 2) / p))%coqR
  | Gauss _, ME => (y ^ 2 / q ^ 2)%coqR
  | Student nu p, MM => (y ^ 2 / ((nu / (nu + 2) * pw q (2 / p) + (1 - nu / (nu + 2)) * y ^ 2) * q))%coqR
  | Student nu _, ME => (y ^ 2 / ((nu / (nu + 2) * q + (1 - nu / (nu + 2)) * y ^ 2) * q))%coqR
  | GGD be p, _ => (be / 2 * (pw y be / pw q ((be + p) / p)))%coqR
  end.
(** exponents: [p_p2 = p / (p + 2)], 1 for ME, [p_bp = p / (beta + p)] *)
Definition expo (m : model) (alg : source_alg) : R :=
  match m, alg with
  | Gauss p, MM => (p / (p + 2))%coqR
  | Student _ p, MM => (p / (p + 2))%coqR
  | GGD be p, _ => (p / (be + p))%coqR
  | _, ME => 1%coqR
  end.
(** per-cell loss: ilrma.py:1961-1962, 3304-3305, 4380-4381 *)
Definition cell_loss (m : model) (y q : R) : R :=
  match m with
  | Gauss p => (y ^ 2 / pw q (2 / p) + 2 / p * ln q)%coqR
  | Student nu p => ((1 + nu / 2) * ln (1 + 2 / nu * (y ^ 2 / pw q (2 / p))) + 2 / p * ln q)%coqR
  | GGD be p => (pw y be / pw q (be / p) + 2 / p * ln q)%coqR
  end.
(** spatial weight [varphi]: ilrma.py:1495-1496, 2930-2933, 3994-4011.  GGD's ISS1 computes
    the equal [beta / (2 * Y2b * TVbp)], 4218-4220 *)
Definition spatial_weight (m : model) (fl : R -> R) (y q : R) : R :=
  match m with
  | Gauss p => (1 / pw q (2 / p))%coqR
  | Student nu p => (1 / (nu / (nu + 2) * pw q (2 / p) + (1 - nu / (nu + 2)) * y ^ 2))%coqR
  | GGD be p => (1 / (2 / be * fl (pw y (2 - be)) * pw q (be / p)))%coqR
  end.
(** divisor of the weight, which must not vanish; only GGD's is not a function of [q] alone *)
Definition weight_ok (m : model) (fl : R -> R) (y : R) : bool :=
  if m is GGD be _ then fl (pw y (2 - be)) != 0 else true.

Section ILRMA.
Variables (N F T K : nat) (m : model) (alg : source_alg) (fl : R -> R).
Notation spec := ('I_F -> 'M[Cx]_(N, T)).
Notation filt := ('I_F -> 'M[Cx]_N).
Notation cells := ('I_N -> 'I_F -> 'I_T -> R).
Notation basis := ('I_N -> 'I_F -> 'I_K -> R).
Notation activ := ('I_N -> 'I_K -> 'I_T -> R).
Implicit Types (X Y : spec) (W : filt) (B : basis) (V : activ) (q : cells).

(** [np.abs(Y)], axes (source, bin, frame) *)
Definition amp Y : cells := fun n i j => cabs (Y i n j).
(** ilrma.py:318-320 [reconstruct_nmf] without latent variables *)
Definition recon B V : cells := fun n i j => \sum_k B n i k * V n k j.
Definition nz (q : cells) : bool := [forall n, [forall i, [forall j, q n i j != 0]]].

(** ** Source model without partitioning *)
(** [update_basis_mm] / [update_basis_me]: ilrma.py:1110-1128, 1311-1325, 2505-2521,
    2728-2743, 3810-3824 *)
Definition basis_num B V Y n i k : R :=
  \sum_j V n k j * num_cell m alg (amp Y n i j) (recon B V n i j).
Definition basis_den B V n i k : R := \sum_j (V n k j / recon B V n i j)%coqR.
Definition update_basis Y B V : option basis :=
  if nz (recon B V) && [forall n, [forall i, [forall k, basis_den B V n i k != 0]]] then
    Some (fun n i k => fl (pw (basis_num B V Y n i k / basis_den B V n i k)%coqR (expo m alg) * B n i k))
  else None.
(** [update_activation_mm] / [update_activation_me]: ilrma.py:1190-1204, 1387-1401,
    2592-2608, 2812-2827, 3891-3905 *)
Definition act_num B V Y n k j : R :=
  \sum_i B n i k * num_cell m alg (amp Y n i j) (recon B V n i j).
Definition act_den B V n k j : R := \sum_i (B n i k / recon B V n i j)%coqR.
Definition update_activation Y B V : option activ :=
  if nz (recon B V) && [forall n, [forall k, [forall j, act_den B V n k j != 0]]] then
    Some (fun n k j => fl (pw (act_num B V Y n k j / act_den B V n k j)%coqR (expo m alg) * V n k j))
  else None.

(** ** Loss *)
(** ilrma.py:1934-1967, 3280-3312, 4356-4388: sum over bins of
    [sum_n mean_j loss - 2 logdet], for a given model value per cell *)
Definition loss_of Y W q : R :=
  \sum_i (\sum_n meanR (fun j => cell_loss m (amp Y n i j) (q n i j)) -
          (2 * ln (cabs (\det (W i))))%coqR).
Definition pos (q : cells) : bool := [forall n, [forall i, [forall j, Rltb 0 (q n i j)]]].
(** [demix_filter] given *)
Definition loss_filter X W q : option R :=
  if [&& T != 0%N, [forall i, W i \in unitmx] & pos q] then
    Some (loss_of (separate_all X W) W q)
  else None.
(** [demix_filter is None] *)
Definition loss_output X Y q : option R :=
  if all_bins (fun _ => 0) (fun i => refit (Y i) (X i)) is Some W then
    if [&& T != 0%N, [forall i, W i \in unitmx] & pos q] then Some (loss_of Y W q) else None
  else None.

(** ** Spatial model *)
(** [varphi] transposed to one matrix per bin *)
Definition varphi Y q (i : 'I_F) : 'M[R]_(N, T) :=
  \matrix_(n, j) spatial_weight m fl (amp Y n i j) (q n i j).
Definition varphi_ok Y q : bool :=
  nz q && [forall n, [forall i, [forall j, weight_ok m fl (amp Y n i j)]]].
(** [update_spatial_model_ip1]: ilrma.py:1481-1507, 2909-2942, 3987-4020 *)
Definition spatial_ip1 X W q : option filt :=
  let Y := separate_all X W in
  if (T != 0%N) && varphi_ok Y q then
    all_bins W (fun i => ip1 fl (wcov (varphi Y q i) (X i)) (W i))
  else None.
(** [update_spatial_model_iss1]: ilrma.py:1678-1696, 3126-3145, 4199-4222 *)
Definition spatial_iss1 Y q : option spec :=
  if varphi_ok Y q then all_bins Y (fun i => iss1 fl (varphi Y q i) (Y i)) else None.
Section Pairwise.
Variables (eig : eigh_t) (chol : chol_t).
(** [update_spatial_model_ip2]: ilrma.py:1607-1633, 3041-3074, 4117-4152 *)
Definition spatial_ip2 X (ps : seq ('I_N * 'I_N)) W q : option filt :=
  let Y := separate_all X W in
  if (T != 0%N) && varphi_ok Y q then
    all_bins W (fun i => ip2 eig chol fl (wcov (varphi Y q i) (X i)) ps (W i))
  else None.
(** [update_spatial_model_iss2]: ilrma.py:1773-1792, 3229-3250, 4300-4327 *)
Definition spatial_iss2 (ps : seq (nat * nat)) Y q : option spec :=
  if varphi_ok Y q then
    all_bins Y (fun i => omap (@of_rows N T) (iss2 eig chol fl (to_rows (varphi Y q i)) ps (to_rows (Y i))))
  else None.
End Pairwise.

(** ** Normalisation *)
(** ilrma.py:418-420: [psi = flooring_fn(sqrt(mean(|Y|^2, axis=(-2, -1))))] *)
Definition psi Y (n : 'I_N) : R :=
  fl (R_sqrt.sqrt ((F * T)%:R^-1 * \sum_i \sum_j (amp Y n i j ^ 2)%coqR)).
Definition psi_ok Y : bool := (F * T != 0)%N && [forall n, psi Y n != 0].
(** division of the rows of every bin: ilrma.py:439, 443 *)
Definition div_rows p (s : 'I_N -> R) (A : 'M[Cx]_(N, p)) : 'M[Cx]_(N, p) :=
  \matrix_(n, t) (A n t / c (s n)).
(** [normalize_by_power], ilrma.py:408-444, filter given / output given *)
Definition norm_power X W B : option (filt * basis) :=
  let Y := separate_all X W in
  if psi_ok Y then
    Some (fun i => div_rows (psi Y) (W i), fun n i k => (B n i k / pw (psi Y n) (domain m))%coqR)
  else None.
Definition norm_power_output Y B : option (spec * basis) :=
  if psi_ok Y then
    Some (fun i => div_rows (psi Y) (Y i), fun n i k => (B n i k / pw (psi Y n) (domain m))%coqR)
  else None.
(** [normalize_by_projection_back], ilrma.py:484-514, filter given / output given *)
Definition norm_pb (r : 'I_N) W B : option (filt * basis) :=
  if all_bins (fun _ => 0) (fun i => np_inv (W i)) is Some s then
    Some (fun i => scale_rows (row r (s i)) (W i), fun n i k => B n i k * pw (cabs (s i r n)) (domain m))
  else None.
Definition norm_pb_output (r : 'I_N) X Y B : option (spec * basis) :=
  if all_bins (fun _ => 0) (fun i => omap (mulmx (X i *m (Y i)^H)) (np_inv (Y i *m (Y i)^H))) is Some s then
    Some (fun i => scale_rows (row r (s i)) (Y i), fun n i k => B n i k * pw (cabs (s i r n)) (domain m))
  else None.

(** ** One iteration, ilrma.py:916-922, normalization="power" or None *)
Record state_w := StateW { st_W : filt; st_B : basis; st_V : activ }.
Record state_y := StateY { st_Y : spec; st_yB : basis; st_yV : activ }.
Definition ilrma_once_ip1 (normalization : bool) X (s : state_w) : option state_w :=
  let: StateW W B V := s in
  let Y := separate_all X W in
  if update_basis Y B V is Some B1 then
    if update_activation Y B1 V is Some V1 then
      if spatial_ip1 X W (recon B1 V1) is Some W1 then
        if normalization then
          if norm_power X W1 B1 is Some (W2, B2) then Some (StateW W2 B2 V1) else None
        else Some (StateW W1 B1 V1)
      else None
    else None
  else None.
Definition ilrma_once_iss1 (normalization : bool) (s : state_y) : option state_y :=
  let: StateY Y B V := s in
  if update_basis Y B V is Some B1 then
    if update_activation Y B1 V is Some V1 then
      if spatial_iss1 Y (recon B1 V1) is Some Y1 then
        if normalization then
          if norm_power_output Y1 B1 is Some (Y2, B2) then Some (StateY Y2 B2 V1) else None
        else Some (StateY Y1 B1 V1)
      else None
    else None
  else None.

(** ** With partitioning function *)
Notation latent := ('I_N -> 'I_K -> R).
Notation pbasis := ('I_F -> 'I_K -> R).
Notation pactiv := ('I_K -> 'I_T -> R).
Implicit Types (Z : latent) (C : pbasis) (A : pactiv).
(** ilrma.py:321-325 *)
Definition recon_lat Z C A : cells := fun n i j => \sum_k Z n k * (C i k * A k j).
(** ilrma.py:1098-1128 (and the other classes), axes (0, 3) *)
Definition pbasis_num Z C A Y i k : R :=
  \sum_n \sum_j (Z n k * A k j) * num_cell m alg (amp Y n i j) (recon_lat Z C A n i j).
Definition pbasis_den Z C A i k : R := \sum_n \sum_j (Z n k * A k j / recon_lat Z C A n i j)%coqR.
Definition update_pbasis Y Z C A : option pbasis :=
  if nz (recon_lat Z C A) && [forall i, [forall k, pbasis_den Z C A i k != 0]] then
    Some (fun i k => fl (pw (pbasis_num Z C A Y i k / pbasis_den Z C A i k)%coqR (expo m alg) * C i k))
  else None.
(** ilrma.py:1175-1204, axes (0, 1) *)
Definition pact_num Z C A Y k j : R :=
  \sum_n \sum_i (Z n k * C i k) * num_cell m alg (amp Y n i j) (recon_lat Z C A n i j).
Definition pact_den Z C A k j : R := \sum_n \sum_i (Z n k * C i k / recon_lat Z C A n i j)%coqR.
Definition update_pactivation Y Z C A : option pactiv :=
  if nz (recon_lat Z C A) && [forall k, [forall j, pact_den Z C A k j != 0]] then
    Some (fun k j => fl (pw (pact_num Z C A Y k j / pact_den Z C A k j)%coqR (expo m alg) * A k j))
  else None.
(** [update_latent_mm] / [update_latent_me], ilrma.py:1021-1049, 1229-1247, 2404-2432,
    2631-2657, 3717-3743: first the multiplicative step ... *)
Definition latent_num Z C A Y n k : R :=
  \sum_i \sum_j (C i k * A k j) * num_cell m alg (amp Y n i j) (recon_lat Z C A n i j).
Definition latent_den Z C A n k : R := \sum_i \sum_j (C i k * A k j / recon_lat Z C A n i j)%coqR.
Definition latent_step Y Z C A : option latent :=
  if nz (recon_lat Z C A) && [forall n, [forall k, latent_den Z C A n k != 0]] then
    Some (fun n k => pw (latent_num Z C A Y n k / latent_den Z C A n k)%coqR (expo m alg) * Z n k)
  else None.
(** ... then [Z = Z / Z.sum(axis=0)] *)
Definition latent_normalise Z : option latent :=
  if [forall k, \sum_n Z n k != 0] then Some (fun n k => (Z n k / (\sum_n' Z n' k)%R)%coqR) else None.
Definition update_latent Y Z C A : option latent :=
  if latent_step Y Z C A is Some Z1 then latent_normalise Z1 else None.
(** [normalize_by_power] with partitioning, ilrma.py:422-430 *)
Definition norm_power_latent X W Z C : option (filt * latent * pbasis) :=
  let Y := separate_all X W in
  let Zp n k := (Z n k / pw (psi Y n) (domain m))%coqR in
  let scale k := \sum_n Zp n k in
  if psi_ok Y && [forall k, scale k != 0] then
    Some (fun i => div_rows (psi Y) (W i), fun n k => (Zp n k / scale k)%coqR, fun i k => C i k * scale k)
  else None.
End ILRMA.
