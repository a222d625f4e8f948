(** Model of GaussIPSDTA and TIPSDTA of /repo/ssspy/bss/ipsdta.py.

    The frequency axis is split into [B] blocks as in Blocks.v; block [b] holds [d b] bins, which
    is [n_neighbors] for the first blocks and [n_neighbors + 1] for the last [n_remains] ones.  The
    code keeps the blocks of either size in one array (low and high frequencies); [hi b] tells in
    which of the two block [b] lies (never in the second one if [n_remains = 0]).  [None] is an
    exception or a non-finite value. *)
From Coq Require Import Reals.
From mathcomp Require Import all_ssreflect all_algebra.
From Verif Require Import RStruct MxC CxR NpLin NmfReal Eigh SpatialISS Mnmf Vcd.
Import Order.TTheory GRing.Theory Num.Theory.
Set Implicit Arguments.
Unset Strict Implicit.
Unset Printing Implicit Defensive.
Local Open Scope ring_scope.

Section IPSDTA.
Variables (N T K B : nat) (d : 'I_B -> nat) (hi : 'I_B -> bool).
(** [fl0]: default flooring of [to_psd], special/psd.py:12-14; [fl]: the flooring of the method *)
Variables (eig : eigh_t) (chol : chol_t) (fl0 fl : R -> R).

Notation spec := (forall b, 'I_(d b) -> 'M[Cx]_(N, T)).
Notation filt := (forall b, 'I_(d b) -> 'M[Cx]_N).
Notation basis := ('I_N -> 'I_K -> forall b, 'M[Cx]_(d b)).
Notation activ := ('I_N -> 'I_K -> 'I_T -> R).
(** one matrix per source, frame and block *)
Notation covs := ('I_N -> 'I_T -> forall b, 'M[Cx]_(d b)).
Implicit Types (X : spec) (W : filt) (Tb : basis) (V : activ) (Rs : covs).

Definition n_bins : nat := (\sum_b d b)%N.

(** [separate] (ipsdta.py:235-258), split into blocks: the vector of the bins of one block *)
Definition ysep X W (n : 'I_N) (t : 'I_T) b : 'cV[Cx]_(d b) := \col_i (W b i *m X b i) n t.

(** ipsdta.py:643-647, before and after [to_psd] (called without a flooring function) *)
Definition rsum Tb V n t b : 'M[Cx]_(d b) := \sum_k c (V n k t) *: Tb n k b.
Definition recon_psdtf Tb V : covs := fun n t b => to_psd eig fl0 (rsum Tb V n t b).

Definition all_ntb (p : 'I_N -> 'I_T -> 'I_B -> bool) : bool :=
  [forall n, [forall t, [forall b, p n t b]]].
(** [np.linalg.inv(R)] succeeds *)
Definition covs_unit Rs : bool := all_ntb (fun n t b => Rs n t b \in unitmx).

(** [np.mean] of matrices over the frames *)
Definition meanM m1 m2 (F : 'I_T -> 'M[Cx]_(m1, m2)) : 'M[Cx]_(m1, m2) := c (T%:R)^-1 *: \sum_t F t.

(** ipsdta.py:929-930, 998-999, 1474-1475, 1584-1585 *)
Definition ryyr X W Rs : covs := fun n t b =>
  let Ri := invmx (Rs n t b) in let y := ysep X W n t b in Ri *m (y *m y^H) *m Ri.
(** ipsdta.py:932-939, 1478-1485; [M] is [RYYR] or [piRYYR] *)
Definition bas_P V Rs n k b : 'M[Cx]_(d b) := meanM (fun t => c (V n k t) *: invmx (Rs n t b)).
Definition bas_Q V (M : covs) n k b : 'M[Cx]_(d b) := meanM (fun t => c (V n k t) *: M n t b).

(** one basis matrix for every source, basis and block *)
Definition all_basis (f : 'I_N -> 'I_K -> forall b, option 'M[Cx]_(d b)) : option basis :=
  if [forall n, [forall k, [forall b, isSome (f n k b)]]] then Some (fun n k b => odflt 0 (f n k b)) else None.

(** ipsdta.py:1001-1004, 1027-1028, 1589-1592, 1619-1620 *)
Definition act_num Tb (M : covs) n k t : R := \sum_b re (\tr (M n t b *m Tb n k b)).
Definition act_den Tb Rs n k t : R := \sum_b re (\tr (invmx (Rs n t b) *m Tb n k b)).
(** ipsdta.py:1033, 1632 *)
Definition act_new Tb V (M : covs) Rs : option activ :=
  if [forall n, [forall k, [forall t, ratio_ok (act_num Tb M n k t) (act_den Tb Rs n k t)]]] then
    Some (fun n k t => V n k t * R_sqrt.sqrt (act_num Tb M n k t / act_den Tb Rs n k t))
  else None.

(** ipsdta.py:666-697 *)
Definition bas_trace Tb n k : R := \sum_b re (\tr (Tb n k b)).
Definition psdtf_norm Tb V : option (basis * activ) :=
  if [forall n, [forall k, bas_trace Tb n k != 0]] then
    Some (fun n k b => (c (bas_trace Tb n k))^-1 *: Tb n k b, fun n k t => V n k t * bas_trace Tb n k)
  else None.

(** ipsdta.py:1093-1102: [R_inverse.transpose(2, 4, 3, 0, 1)] swaps the two neighbour axes *)
Definition vcd_cov (Pi : covs) X b : vcov N (d b) := fun i j n =>
  meanM (fun t => Pi n t b j i *: (col t (X b i) *m (col t (X b j))^H)).
Arguments vcd_cov Pi X b : clear implicits.
(** update_spatial_model_vcd: the blocks are independent *)
Definition all_blocks W (f : forall b, option (vfilter N (d b))) : option filt :=
  if [forall b, isSome (f b)] then Some (fun b => odflt (W b) (f b)) else None.

(** [y^H R^-1 y], linalg/quadratic.py:22-23 *)
Definition quad_yry X W Rs n t b : Cx :=
  let y := ysep X W n t b in (y^H *m invmx (Rs n t b) *m y) 0 0.
Definition logdets_ok W : bool := [forall b, [forall i, W b i \in unitmx]].

(** ** GaussIPSDTA *)
(** ipsdta.py:889-973 *)
Definition gauss_basis_at X W Tb V n k b : option 'M[Cx]_(d b) :=
  let Rs := recon_psdtf Tb V in
  let P := to_psd eig fl (bas_P V Rs n k b) in
  let TQT := to_psd eig fl (Tb n k b *m bas_Q V (ryyr X W Rs) n k b *m Tb n k b) in
  if gmeanmh eig chol P TQT 2 is Ok G then Some (to_psd eig fl G) else None.
Definition gauss_basis X W Tb V : option basis :=
  if (T != 0%N) && covs_unit (recon_psdtf Tb V) then all_basis (gauss_basis_at X W Tb V) else None.
(** ipsdta.py:975-1033 *)
Definition gauss_activation X W Tb V : option activ :=
  let Rs := recon_psdtf Tb V in
  if covs_unit Rs then act_new Tb V (ryyr X W Rs) Rs else None.
(** ipsdta.py:842-887, [source_algorithm="MM"] *)
Definition gauss_source (nrm : bool) X W Tb V : option (basis * activ) :=
  if gauss_basis X W Tb V is Some T1 then
    if gauss_activation X W T1 V is Some V1 then
      if nrm then psdtf_norm T1 V1 else Some (T1, V1)
    else None
  else None.
(** ipsdta.py:1058-1147 *)
Definition gauss_vcd X W Tb V : option filt :=
  let Rs := recon_psdtf Tb V in
  if (T != 0%N) && covs_unit Rs then
    all_blocks W (fun b => vcd (sing_floor fl) (vcd_cov (fun n t b => invmx (Rs n t b)) X b) (W b))
  else None.
(** ipsdta.py:820-840 *)
Record state := State { st_W : filt; st_T : basis; st_V : activ }.
Definition gauss_once (nrm : bool) X (s : state) : option state :=
  if gauss_source nrm X (st_W s) (st_T s) (st_V s) is Some (T1, V1) then
    omap (fun W1 => State W1 T1 V1) (gauss_vcd X (st_W s) T1 V1)
  else None.
(** ipsdta.py:1156-1187, one of the two arrays of blocks *)
Definition gauss_loss_part X W Rs (h : bool) : R :=
  (meanR (fun t => Rmax (re (\sum_n \sum_(b | hi b == h) quad_yry X W Rs n t b)) 0
             + \sum_n \sum_(b | hi b == h) ln (cabs (\det (Rs n t b))))
   - (2 * \sum_(b | hi b == h) \sum_i ln (cabs (\det (W b i)))))%R.
(** ipsdta.py:1149-1227; without remainder the second part is empty and contributes 0 *)
Definition gauss_loss X (s : state) : option R :=
  let Rs := recon_psdtf (st_T s) (st_V s) in
  if [&& T != 0%N, covs_unit Rs & logdets_ok (st_W s)] then
    Some (gauss_loss_part X (st_W s) Rs false + gauss_loss_part X (st_W s) Rs true)%R
  else None.

(** ** TIPSDTA *)
Variable nu : R.
(** ipsdta.py:1425-1446, 1500-1513: the maximum with 0 is taken block by block *)
Definition t_yry X W Rs n t : R := \sum_b Rmax (re (quad_yry X W Rs n t b)) 0.
Definition t_pi X W Rs n t : R := ((nu + 2 * n_bins%:R) / (nu + 2 * t_yry X W Rs n t))%coqR.
Definition t_pi_ok X W Rs : bool := [forall n, [forall t, (nu + 2 * t_yry X W Rs n t)%coqR != 0]].
Definition t_ryyr X W Rs : covs := fun n t b => c (t_pi X W Rs n t) *: ryyr X W Rs n t b.
(** ipsdta.py:1448-1497 *)
Definition t_basis_at X W Tb V n k b : option 'M[Cx]_(d b) :=
  let Rs := recon_psdtf Tb V in
  let P := bas_P V Rs n k b in
  let Q := to_psd eig fl (bas_Q V (t_ryyr X W Rs) n k b) in
  if sqrtmh eig Q is Some Qs then
    let QTPTQ := to_psd eig fl (Qs *m Tb n k b *m P *m Tb n k b *m Qs) in
    if invsqrtmh eig fl QTPTQ is Some Qi then
      Some (to_psd eig fl (Tb n k b *m Qs *m Qi *m Qs *m Tb n k b))
    else None
  else None.
Definition t_basis X W Tb V : option basis :=
  let Rs := recon_psdtf Tb V in
  if [&& T != 0%N, covs_unit Rs & t_pi_ok X W Rs] then all_basis (t_basis_at X W Tb V) else None.
(** ipsdta.py:1532-1632 *)
Definition t_activation X W Tb V : option activ :=
  let Rs := recon_psdtf Tb V in
  if covs_unit Rs && t_pi_ok X W Rs then act_new Tb V (t_ryyr X W Rs) Rs else None.
(** ipsdta.py:1356-1402 *)
Definition t_source (nrm : bool) X W Tb V : option (basis * activ) :=
  if t_basis X W Tb V is Some T1 then
    if t_activation X W T1 V is Some V1 then
      if nrm then psdtf_norm T1 V1 else Some (T1, V1)
    else None
  else None.
(** ipsdta.py:1657-1777 *)
Definition t_vcd X W Tb V : option filt :=
  let Rs := recon_psdtf Tb V in
  if [&& T != 0%N, covs_unit Rs & t_pi_ok X W Rs] then
    all_blocks W (fun b => vcd (sing_floor fl)
      (vcd_cov (fun n t b => c (t_pi X W Rs n t) *: invmx (Rs n t b)) X b) (W b))
  else None.
(** ipsdta.py:1335-1354 *)
Definition t_once (nrm : bool) X (s : state) : option state :=
  if t_source nrm X (st_W s) (st_T s) (st_V s) is Some (T1, V1) then
    omap (fun W1 => State W1 T1 V1) (t_vcd X (st_W s) T1 V1)
  else None.
(** ipsdta.py:1779-1869 *)
Definition t_loss X (s : state) : option R :=
  let Rs := recon_psdtf (st_T s) (st_V s) in
  let W := st_W s in
  if [&& T != 0%N, covs_unit Rs, logdets_ok W, nu != 0 &
      [forall n, [forall t, Rltb 0 (1 + 2 / nu * t_yry X W Rs n t)%coqR]]] then
    Some (meanR (fun t => \sum_n ((nu + 2 * n_bins%:R) / 2 * ln (1 + 2 / nu * t_yry X W Rs n t))%coqR
                          + \sum_n \sum_b ln (cabs (\det (Rs n t b))))
          - (2 * \sum_b \sum_i ln (cabs (\det (W b i)))))%R
  else None.
End IPSDTA.
Arguments vcd_cov {N T B d} Pi X b _ _ _.
Arguments st_W {N T K B d} _ _ _.
Arguments st_T {N T K B d} _ _ _ _.
