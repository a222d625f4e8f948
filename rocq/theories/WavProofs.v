(** Proofs about the WAV codec model. *)
From Coq Require Import List ZArith QArith Lia Bool.
From Verif Require Import Wav.
Import ListNotations.
Local Open Scope Z_scope.
Local Open Scope list_scope.
Ltac Zify.zify_post_hook ::= Z.div_mod_to_equations.

(* ------------------------------------------------------------------ *)
(** ** little-endian integers *)
Lemma le_bytes_length k x : length (le_bytes k x) = k.
Proof. revert x; induction k as [|k IH]; intros x; simpl; [|rewrite IH]; reflexivity. Qed.

Lemma le_bytes_byte k x : Forall (fun b => 0 <= b < 256) (le_bytes k x).
Proof.
  revert x; induction k as [|k IH]; intros x; cbn [le_bytes]; constructor; [|apply IH].
  apply Z.mod_pos_bound; lia.
Qed.

Lemma pow256_succ k : 256 ^ Z.of_nat (S k) = 256 * 256 ^ Z.of_nat k.
Proof. rewrite Nat2Z.inj_succ, Z.pow_succ_r by lia. reflexivity. Qed.

Lemma pow256_pos k : 0 < 256 ^ Z.of_nat k.
Proof. apply Z.pow_pos_nonneg; lia. Qed.

Lemma le_val_le_bytes k x : le_val (le_bytes k x) = x mod 256 ^ Z.of_nat k.
Proof.
  revert x; induction k as [|k IH]; intros x.
  - simpl. rewrite Z.mod_1_r. reflexivity.
  - cbn [le_bytes le_val]. rewrite IH, pow256_succ, Z.rem_mul_r; [reflexivity|lia|].
    apply pow256_pos.
Qed.

Lemma le_val_pack k x : 0 <= x < 256 ^ Z.of_nat k -> le_val (le_bytes k x) = x.
Proof. intros H. rewrite le_val_le_bytes. apply Z.mod_small. exact H. Qed.

Lemma le_val_bound bs : Forall (fun b => 0 <= b < 256) bs ->
  0 <= le_val bs < 256 ^ Z.of_nat (length bs).
Proof.
  induction 1 as [|b bs Hb _ IH]; [simpl; lia|]. cbn [le_val length].
  rewrite pow256_succ. lia.
Qed.

Lemma pow256_2 k : 256 ^ Z.of_nat k = 2 ^ (8 * Z.of_nat k).
Proof. rewrite Z.pow_mul_r by lia. reflexivity. Qed.

Lemma pow2_half k : (0 < k)%nat -> 2 ^ (8 * Z.of_nat k) = 2 * 2 ^ (8 * Z.of_nat k - 1).
Proof. intros Hk. rewrite <- Z.pow_succ_r by lia. f_equal. lia. Qed.

Lemma signed_val_le_bytes k x : (0 < k)%nat ->
  - 2 ^ (8 * Z.of_nat k - 1) <= x < 2 ^ (8 * Z.of_nat k - 1) ->
  signed_val (le_bytes k x) = x.
Proof.
  intros Hk Hx. unfold signed_val. rewrite le_bytes_length, le_val_le_bytes, pow256_2.
  pose proof (pow2_half k Hk) as Hp.
  assert (Hpos : 0 < 2 ^ (8 * Z.of_nat k - 1)) by (apply Z.pow_pos_nonneg; lia).
  set (h := 2 ^ (8 * Z.of_nat k - 1)) in *. rewrite Hp.
  destruct (Z.ltb_spec x 0) as [Hneg|Hnn].
  - assert (Hm : x mod (2 * h) = x + 2 * h).
    { symmetry. apply Z.mod_unique_pos with (q := -1); lia. }
    rewrite Hm. destruct (Z.ltb_spec (x + 2 * h) h); lia.
  - rewrite Z.mod_small by lia. destruct (Z.ltb_spec x h); lia.
Qed.

Lemma signed_val_bound bs : (0 < length bs)%nat -> Forall (fun b => 0 <= b < 256) bs ->
  - 2 ^ (8 * Z.of_nat (length bs) - 1) <= signed_val bs < 2 ^ (8 * Z.of_nat (length bs) - 1).
Proof.
  intros Hk Hb. pose proof (le_val_bound bs Hb) as Hv. rewrite pow256_2 in Hv.
  pose proof (pow2_half _ Hk) as Hp. unfold signed_val.
  destruct (Z.ltb_spec (le_val bs) (2 ^ (8 * Z.of_nat (length bs) - 1))); lia.
Qed.

(* ------------------------------------------------------------------ *)
(** ** samples and chunks *)
Lemma samples_length k n bs : length (samples k n bs) = n.
Proof. revert bs; induction n as [|n IH]; intros bs; simpl; [|rewrite IH]; reflexivity. Qed.

Lemma skipn_add {A} a b (l : list A) : skipn a (skipn b l) = skipn (b + a) l.
Proof.
  revert l; induction b as [|b IH]; intros l; [reflexivity|].
  destruct l as [|x l]; cbn [skipn plus]; [apply skipn_nil|apply IH].
Qed.

Lemma samples_app k a b bs :
  samples k (a + b) bs = samples k a bs ++ samples k b (skipn (k * a) bs).
Proof.
  revert bs; induction a as [|a IH]; intros bs; cbn [samples plus app].
  - rewrite Nat.mul_0_r. reflexivity.
  - rewrite IH, skipn_add. replace (k * S a)%nat with (k + k * a)%nat by lia. reflexivity.
Qed.

Lemma samples_slice k N o c bs : (o + c <= N)%nat ->
  samples k c (skipn (k * o) bs) = firstn c (skipn o (samples k N bs)).
Proof.
  intros H. replace N with (o + (c + (N - o - c)))%nat by lia.
  rewrite samples_app, skipn_app, samples_length, Nat.sub_diag.
  assert (Hs : skipn o (samples k o bs) = []) by (apply skipn_all2; rewrite samples_length; lia).
  rewrite Hs. cbn [app skipn].
  rewrite samples_app, firstn_app, samples_length, Nat.sub_diag. cbn [firstn].
  rewrite app_nil_r, firstn_all2 by (rewrite samples_length; lia). reflexivity.
Qed.

Lemma samples_enc k xs rest : (0 < k)%nat ->
  Forall (fun x => - 2 ^ (8 * Z.of_nat k - 1) <= x < 2 ^ (8 * Z.of_nat k - 1)) xs ->
  samples k (length xs) (flat_map (le_bytes k) xs ++ rest) = xs.
Proof.
  intros Hk. induction 1 as [|x xs Hx _ IH]; [reflexivity|].
  cbn [flat_map length samples]. rewrite <- app_assoc.
  rewrite firstn_app, skipn_app, le_bytes_length, Nat.sub_diag. cbn [firstn skipn].
  rewrite app_nil_r, firstn_all2, skipn_all2 by (rewrite le_bytes_length; lia).
  cbn [app]. rewrite IH, signed_val_le_bytes by assumption. reflexivity.
Qed.

Lemma chunks_app {A} n a b (l : list A) :
  chunks n (a + b) l = chunks n a l ++ chunks n b (skipn (n * a) l).
Proof.
  revert l; induction a as [|a IH]; intros l; cbn [chunks plus app].
  - rewrite Nat.mul_0_r. reflexivity.
  - rewrite IH, skipn_add. replace (n * S a)%nat with (n + n * a)%nat by lia. reflexivity.
Qed.

Lemma chunks_length {A} n c (l : list A) : length (chunks n c l) = c.
Proof. revert l; induction c as [|c IH]; intros l; simpl; [|rewrite IH]; reflexivity. Qed.

Lemma chunks_firstn {A} n c (l : list A) m : (n * c <= m)%nat ->
  chunks n c (firstn m l) = chunks n c l.
Proof.
  revert l m; induction c as [|c IH]; intros l m H; [reflexivity|]. cbn [chunks].
  rewrite firstn_firstn. replace (Nat.min n m) with n by lia.
  f_equal. rewrite skipn_firstn_comm. apply IH. lia.
Qed.

Lemma chunks_slice {A} n N o c (l : list A) : (o + c <= N)%nat ->
  chunks n c (firstn (n * c) (skipn (n * o) l)) = firstn c (skipn o (chunks n N l)).
Proof.
  intros H. replace N with (o + (c + (N - o - c)))%nat by lia.
  rewrite chunks_app, skipn_app, chunks_length, Nat.sub_diag.
  assert (Hs : skipn o (chunks n o l) = []) by (apply skipn_all2; rewrite chunks_length; lia).
  rewrite Hs. cbn [app skipn].
  rewrite chunks_app, firstn_app, chunks_length, Nat.sub_diag. cbn [firstn].
  rewrite app_nil_r, (firstn_all2 (n := c)) by (rewrite chunks_length; lia).
  apply chunks_firstn. lia.
Qed.

Lemma chunks_concat {A} n (rows : list (list A)) :
  Forall (fun r => length r = n) rows -> chunks n (length rows) (concat rows) = rows.
Proof.
  induction 1 as [|r rows Hr _ IH]; [reflexivity|]. cbn [length chunks concat].
  rewrite firstn_app, skipn_app, Hr, Nat.sub_diag. cbn [firstn skipn].
  rewrite app_nil_r, firstn_all2, skipn_all2 by lia. cbn [app]. rewrite IH. reflexivity.
Qed.

Lemma concat_length_const {A} n (rows : list (list A)) :
  Forall (fun r => length r = n) rows -> length (concat rows) = (n * length rows)%nat.
Proof.
  induction 1 as [|r rows Hr _ IH]; [simpl; lia|]. cbn [concat length].
  rewrite app_length, IH. lia.
Qed.

Lemma reshape_concat {A} n (rows : list (list A)) : (0 < n)%nat ->
  Forall (fun r => length r = n) rows -> reshape n (concat rows) = Ok rows.
Proof.
  intros Hn H. unfold reshape. rewrite (concat_length_const n) by assumption.
  rewrite (Nat.mul_comm n), Nat.mod_mul, Nat.div_mul by lia. cbn [Nat.eqb].
  rewrite chunks_concat by assumption. reflexivity.
Qed.

Lemma transpose_rows {A} (d : A) cols rows :
  Forall (fun r => length r = length rows) (transpose d cols rows).
Proof.
  apply Forall_map, Forall_forall. intros j _. apply map_length.
Qed.

Lemma transpose_length {A} (d : A) cols rows : length (transpose d cols rows) = cols.
Proof. unfold transpose. rewrite map_length, seq_length. reflexivity. Qed.

Lemma nth_map_seq {A} (f : nat -> A) d n j : (j < n)%nat -> nth j (map f (seq 0 n)) d = f j.
Proof.
  intros H. rewrite nth_indep with (d' := f 0%nat) by (rewrite map_length, seq_length; exact H).
  rewrite map_nth, seq_nth by exact H. reflexivity.
Qed.

Lemma list_as_map {A} (d : A) l : l = map (fun i => nth i l d) (seq 0 (length l)).
Proof.
  induction l as [|x l IH]; [reflexivity|]. cbn [length seq map nth]. f_equal.
  rewrite <- seq_shift, map_map. exact IH.
Qed.

Lemma transpose_involutive {A} (d : A) cols rows :
  Forall (fun r => length r = cols) rows ->
  transpose d (length rows) (transpose d cols rows) = rows.
Proof.
  intros H. unfold transpose. transitivity (map (fun i => nth i rows []) (seq 0 (length rows)));
    [|symmetry; apply list_as_map].
  apply map_ext_in. intros i Hi. apply in_seq in Hi. rewrite map_map.
  assert (Hr : length (nth i rows []) = cols).
  { rewrite Forall_forall in H. apply H, nth_In. lia. }
  transitivity (map (fun j => nth j (nth i rows []) d) (seq 0 cols));
    [|symmetry; rewrite <- Hr; apply list_as_map].
  apply map_ext_in. intros j Hj. apply in_seq in Hj.
  rewrite nth_indep with (d' := (fun r => nth j r d) []) by (rewrite map_length; lia).
  rewrite (map_nth (fun r => nth j r d)). reflexivity.
Qed.

(* ------------------------------------------------------------------ *)
(** ** Reading a file with a well formed header *)
Definition mk_file (size n sr br ba bits dsize : Z) (data : list Z) : list Z :=
  b_RIFF ++ le_bytes 4 size ++ b_WAVE ++
  (b_fmt ++ le_bytes 4 16 ++ le_bytes 2 1 ++ le_bytes 2 n ++ le_bytes 4 sr ++
   le_bytes 4 br ++ le_bytes 2 ba ++ le_bytes 2 bits) ++
  b_data ++ le_bytes 4 dsize ++ data.

Lemma bytes_eqb_refl b : bytes_eqb b b = true.
Proof. unfold bytes_eqb. destruct (list_eq_dec Z.eq_dec b b); congruence. Qed.
Lemma bytes_eqb_eq a b : bytes_eqb a b = true -> a = b.
Proof. unfold bytes_eqb. destruct (list_eq_dec Z.eq_dec a b); congruence. Qed.

Lemma unpack_le k x : 0 <= x < 256 ^ Z.of_nat k -> unpack k (le_bytes k x) = Ok x.
Proof.
  intros H. unfold unpack. rewrite le_bytes_length, Nat.eqb_refl, le_val_pack by exact H. reflexivity.
Qed.

Lemma wavread_mk_file size n sr br ba bits dsize data off nf r2d cf :
  0 <= size < 256 ^ 4 -> 0 <= n < 256 ^ 2 -> 0 <= sr < 256 ^ 4 -> 0 <= br < 256 ^ 4 ->
  0 <= ba < 256 ^ 2 -> 0 <= bits < 256 ^ 2 -> bits * sr * n = 8 * br ->
  wavread (mk_file size n sr br ba bits dsize data) off nf r2d cf =
  bind (read_data_chunk (mk_file size n sr br ba bits dsize data) 40 n ba off nf r2d cf)
       (fun a => Ok (a, sr)).
Proof.
  intros Hsize Hn Hsr Hbr Hba Hbits Hcons. unfold wavread.
  set (file := mk_file size n sr br ba bits dsize data).
  assert (E0 : fread file 0 4 = b_RIFF) by reflexivity.
  assert (E4 : fread file 4 4 = le_bytes 4 size) by reflexivity.
  assert (E8 : fread file 8 4 = b_WAVE) by reflexivity.
  assert (E12 : fread file 12 4 = b_fmt) by reflexivity.
  assert (E36 : fread file 36 4 = b_data) by reflexivity.
  rewrite E0, E4, E8, E12, E36, !bytes_eqb_refl. cbn [guard bind].
  rewrite unpack_le by exact Hsize. cbn [bind].
  unfold read_fmt_chunk.
  assert (E16 : fread file 16 4 = le_bytes 4 16) by reflexivity.
  assert (E20 : fread file (16 + 4) 2 = le_bytes 2 1) by reflexivity.
  assert (E22 : fread file (16 + 6) 14 = le_bytes 2 n ++ le_bytes 4 sr ++ le_bytes 4 br
                  ++ le_bytes 2 ba ++ le_bytes 2 bits) by reflexivity.
  rewrite E16, E20, E22. rewrite !unpack_le by (vm_compute; split; congruence). cbn [bind].
  cbn [Z.eqb Pos.eqb guard bind].
  set (b := le_bytes 2 n ++ le_bytes 4 sr ++ le_bytes 4 br ++ le_bytes 2 ba ++ le_bytes 2 bits).
  assert (F0 : length b = 14%nat) by reflexivity.
  assert (F1 : firstn 2 b = le_bytes 2 n) by reflexivity.
  assert (F2 : firstn 4 (skipn 2 b) = le_bytes 4 sr) by reflexivity.
  assert (F3 : firstn 4 (skipn 6 b) = le_bytes 4 br) by reflexivity.
  assert (F4 : firstn 2 (skipn 10 b) = le_bytes 2 ba) by reflexivity.
  assert (F5 : firstn 2 (skipn 12 b) = le_bytes 2 bits) by reflexivity.
  rewrite F0, F1, F2, F3, F4, F5. rewrite !le_val_pack by assumption. cbn [Nat.eqb guard bind].
  rewrite Hcons, Z.eqb_refl. cbn [guard bind]. reflexivity.
Qed.

Lemma mk_file_length size n sr br ba bits dsize data :
  length (mk_file size n sr br ba bits dsize data) = (44 + length data)%nat.
Proof. reflexivity. Qed.

Lemma mk_file_skipn size n sr br ba bits dsize data :
  skipn 44 (mk_file size n sr br ba bits dsize data) = data.
Proof. reflexivity. Qed.

Lemma mk_file_dsize size n sr br ba bits dsize data :
  fread (mk_file size n sr br ba bits dsize data) 40 4 = le_bytes 4 dsize.
Proof. reflexivity. Qed.

(* ------------------------------------------------------------------ *)
(** ** Writing *)
Lemma flat_map_le_length k xs : length (flat_map (le_bytes k) xs) = (k * length xs)%nat.
Proof.
  induction xs as [|x xs IH]; [simpl; lia|]. cbn [flat_map length].
  rewrite app_length, le_bytes_length, IH. lia.
Qed.

Definition fits (c : nat) (bits sr : Z) (xs : list Z) : Prop :=
  0 < sr /\ (1 <= c <= 2)%nat /\ (bits = 8 \/ bits = 16) /\
  bits / 8 * sr * Z.of_nat c < 2 ^ 32 /\
  36 + bits / 8 * Z.of_nat (length xs) < 2 ^ 32.

Lemma pack_ok k x : 0 <= x < 256 ^ Z.of_nat k -> pack k x = Ok (le_bytes k x).
Proof.
  intros H. unfold pack. destruct (Z.leb_spec 0 x), (Z.ltb_spec x (256 ^ Z.of_nat k)); try lia.
  reflexivity.
Qed.

Lemma wavwrite_prepare ovf w sr cf c bits xs :
  prepare ovf w cf = Ok (c, bits, xs) -> fits c bits sr xs ->
  wavwrite ovf true w sr cf =
  Ok (mk_file (36 + bits / 8 * Z.of_nat (length xs)) (Z.of_nat c) sr (bits / 8 * sr * Z.of_nat c)
        (bits / 8 * Z.of_nat c) bits (bits / 8 * Z.of_nat (length xs))
        (flat_map (le_bytes (Z.to_nat (bits / 8))) xs)).
Proof.
  intros Hp (Hsr & Hc & Hbits & Hbr & Hsize). unfold wavwrite. cbn [guard bind].
  rewrite Hp. cbn [bind]. destruct (Z.eqb_spec sr 0); [lia|]. cbn [negb guard bind].
  change (2 ^ 32) with 4294967296 in *.
  assert (Ebr : bits * sr * Z.of_nat c / 8 = bits / 8 * sr * Z.of_nat c).
  { destruct Hbits as [-> | ->].
    - change (8 / 8) with 1. replace (8 * sr * Z.of_nat c) with (sr * Z.of_nat c * 8) by lia.
      rewrite Z.div_mul; lia.
    - change (16 / 8) with 2. replace (16 * sr * Z.of_nat c) with (2 * sr * Z.of_nat c * 8) by lia.
      rewrite Z.div_mul; lia. }
  rewrite Ebr.
  assert (Eba : bits / 8 * sr * Z.of_nat c / sr = bits / 8 * Z.of_nat c).
  { replace (bits / 8 * sr * Z.of_nat c) with (bits / 8 * Z.of_nat c * sr) by lia.
    apply Z.div_mul; lia. }
  rewrite Eba. unfold write_fmt_chunk, write_data_chunk.
  assert (H8 : bits / 8 = 1 \/ bits / 8 = 2) by (destruct Hbits as [-> | ->]; auto).
  change (256 ^ Z.of_nat 4) with 4294967296 in *.
  assert (P4 : forall x, 0 <= x < 4294967296 -> pack 4 x = Ok (le_bytes 4 x))
    by (intros x Hx; apply pack_ok; exact Hx).
  assert (P2 : forall x, 0 <= x < 65536 -> pack 2 x = Ok (le_bytes 2 x))
    by (intros x Hx; apply pack_ok; exact Hx).
  rewrite (P4 16), (P2 1) by lia. cbn [bind].
  rewrite (P2 (Z.of_nat c)) by lia. cbn [bind].
  rewrite (P4 sr) by nia. cbn [bind].
  rewrite (P4 (bits / 8 * sr * Z.of_nat c)) by nia. cbn [bind].
  rewrite (P2 (bits / 8 * Z.of_nat c)) by nia. cbn [bind].
  rewrite (P2 bits) by lia. cbn [bind].
  rewrite (Z.mul_comm (Z.of_nat (length xs))).
  rewrite (P4 (bits / 8 * Z.of_nat (length xs))) by nia. cbn [bind].
  match goal with |- bind (pack 4 ?e) _ = _ => replace e with (36 + bits / 8 * Z.of_nat (length xs)) end.
  - rewrite P4 by lia. reflexivity.
  - rewrite !app_length, flat_map_le_length, ?le_bytes_length.
    cbn [length b_WAVE b_fmt b_data]. lia.
Qed.

(* ------------------------------------------------------------------ *)
(** ** Round trip *)

(** layout of decoded frames required by the flags *)
Definition layout {A} (d : A) (c : nat) (return_2d channels_first : bool) (frames : list (list A))
  : ndarray A :=
  if orb (Nat.ltb 1 c) return_2d then
    (if channels_first then Arr2 (length frames) (transpose d c frames) else Arr2 c frames)
  else Arr1 (concat frames).

Definition map_array {A B} (f : A -> B) (a : ndarray A) : ndarray B :=
  match a with Arr1 xs => Arr1 (map f xs) | Arr2 c rows => Arr2 c (map (map f) rows) end.

Lemma scale_map v a : scale v a = map_array (fun x => x # v)%Q a.
Proof. destruct a; reflexivity. Qed.

Lemma ltb_Z_nat c : (1 <? Z.of_nat c) = Nat.ltb 1 c.
Proof. destruct (Z.ltb_spec 1 (Z.of_nat c)), (Nat.ltb_spec 1 c); try reflexivity; lia. Qed.

Lemma shape_data_layout c r2d cf frames : (0 < c)%nat ->
  Forall (fun r => length r = c) frames ->
  shape_data c r2d cf (concat frames) = Ok (layout 0 c r2d cf frames).
Proof.
  intros Hc H. unfold shape_data, layout. rewrite ltb_Z_nat.
  destruct (orb (Nat.ltb 1 c) r2d); [|reflexivity].
  rewrite reshape_concat by assumption. reflexivity.
Qed.

Definition in_range (bits : Z) (x : Z) : Prop := - 2 ^ (bits - 1) <= x < 2 ^ (bits - 1).

Lemma roundtrip ovf w sr cfw c bits frames :
  prepare ovf w cfw = Ok (c, bits, concat frames) ->
  Forall (fun r => length r = c) frames -> fits c bits sr (concat frames) ->
  Forall (in_range bits) (concat frames) ->
  exists file, wavwrite ovf true w sr cfw = Ok file /\
    forall r2d cf, wavread file 0 None r2d cf =
      Ok (map_array (fun x => x # Z.to_pos (2 ^ (bits - 1)))%Q (layout 0 c r2d cf frames), sr).
Proof.
  intros Hp Hrows Hfits Hrange. eexists. split; [apply wavwrite_prepare; eassumption|].
  intros r2d cf. destruct Hfits as (Hsr & Hc & Hbits & Hbr & Hsize).
  set (xs := concat frames) in *. set (nx := Z.of_nat (length xs)) in *.
  change (2 ^ 32) with 4294967296 in *.
  assert (H8 : bits / 8 = 1 \/ bits / 8 = 2) by (destruct Hbits as [-> | ->]; auto).
  rewrite wavread_mk_file.
  2-6: change (256 ^ 4) with 4294967296; change (256 ^ 2) with 65536; nia.
  2: change (256 ^ 2) with 65536; lia.
  2: destruct Hbits as [-> | ->];
       [change (8 / 8) with 1|change (16 / 8) with 2]; lia.
  unfold read_data_chunk. rewrite mk_file_dsize.
  rewrite unpack_le by (change (256 ^ Z.of_nat 4) with 4294967296; nia). cbn [bind].
  destruct (Z.eqb_spec (Z.of_nat c) 0); [lia|]. cbn [negb guard bind].
  assert (Ebps : bits / 8 * Z.of_nat c / Z.of_nat c = bits / 8) by (apply Z.div_mul; lia).
  rewrite Ebps. destruct (Z.eqb_spec (bits / 8) 0); [lia|]. cbn [negb guard bind].
  rewrite (Z.mul_comm (bits / 8) nx), Z.div_mul by lia.
  rewrite !Z.mul_0_r, Z.sub_0_r, Z.add_0_r.
  destruct (Z.leb_spec (nx * (bits / 8) / (bits / 8 * Z.of_nat c))
             (nx * (bits / 8) / (bits / 8 * Z.of_nat c))); [|lia]. cbn [guard bind].
  unfold memmap.
  assert (Edt : (bits / 8 =? 1) || (bits / 8 =? 2) || (bits / 8 =? 4) || (bits / 8 =? 8) = true)
    by (destruct H8 as [-> | ->]; reflexivity).
  rewrite Edt. cbn [guard bind].
  change (Z.of_nat 40 + 4) with 44.
  destruct (Z.leb_spec 0 44); [|lia]. destruct (Z.leb_spec 0 nx); [|lia]. cbn [andb guard bind].
  rewrite mk_file_length, flat_map_le_length.
  destruct (Z.leb_spec (44 + bits / 8 * nx)
    (Z.of_nat (44 + Z.to_nat (bits / 8) * length xs))) as [_|Hbad]; [|nia]. cbn [guard bind].
  change (Z.to_nat 44) with 44%nat. rewrite mk_file_skipn.
  replace (Z.to_nat nx) with (length xs) by (unfold nx; lia).
  rewrite <- (app_nil_r (flat_map (le_bytes (Z.to_nat (bits / 8))) xs)).
  rewrite samples_enc.
  - rewrite Nat2Z.id. unfold xs. rewrite shape_data_layout by (assumption || lia). cbn [bind].
    rewrite scale_map. unfold vmax_of.
    replace (8 * (bits / 8)) with bits; [reflexivity|]. destruct Hbits as [-> | ->]; reflexivity.
  - destruct H8 as [-> | ->]; simpl; lia.
  - eapply Forall_impl; [|exact Hrange]. intros x Hx. unfold in_range in Hx.
    rewrite Z2Nat.id by lia. replace (8 * (bits / 8)) with bits; [exact Hx|].
    destruct Hbits as [-> | ->]; reflexivity.
Qed.

(* ------------------------------------------------------------------ *)
(** ** Arbitrary files *)
Lemma bind_ok {A B} (r : result A) (k : A -> result B) b :
  bind r k = Ok b -> exists a, r = Ok a /\ k a = Ok b.
Proof. destruct r as [a|e]; simpl; [eauto|discriminate]. Qed.

Lemma guard_ok b e u : guard b e = Ok u -> b = true.
Proof. destruct b; simpl; [reflexivity|discriminate]. Qed.

Lemma unpack_ok k b x : unpack k b = Ok x -> length b = k /\ x = le_val b.
Proof.
  unfold unpack. destruct (Nat.eqb_spec (length b) k); [|discriminate].
  intros H; injection H as <-. auto.
Qed.

Ltac inv_bind H :=
  let a := fresh "v" in let H1 := fresh "Hb" in
  apply bind_ok in H; destruct H as (a & H1 & H).

Definition field (file : list Z) (pos n : nat) : Z := le_val (fread file pos n).

(** what every accepted header looks like, in terms of byte positions *)
Definition header_spec (file : list Z) (n_channels sample_rate block_align : Z) : Prop :=
  fread file 0 4 = b_RIFF /\ fread file 8 4 = b_WAVE /\ fread file 12 4 = b_fmt /\
  field file 16 4 = 16 /\ field file 20 2 = 1 /\
  n_channels = field file 22 2 /\ sample_rate = field file 24 4 /\
  block_align = field file 32 2 /\
  field file 34 2 * sample_rate * n_channels = 8 * field file 28 4 /\
  fread file 36 4 = b_data.

Lemma firstn_skipn_fread file pos n a m : (a + m <= n)%nat ->
  firstn m (skipn a (fread file pos n)) = fread file (pos + a) m.
Proof.
  intros H. unfold fread. rewrite skipn_firstn_comm, firstn_firstn, skipn_add.
  f_equal. lia.
Qed.

Lemma read_fmt_inv file n sr ba : read_fmt_chunk file 16 = Ok (n, sr, ba) ->
  field file 16 4 = 16 /\ field file 20 2 = 1 /\ n = field file 22 2 /\ sr = field file 24 4 /\
  ba = field file 32 2 /\ field file 34 2 * sr * n = 8 * field file 28 4.
Proof.
  unfold read_fmt_chunk. intros H.
  inv_bind H. apply unpack_ok in Hb as [_ ->].
  inv_bind H. apply guard_ok in Hb. apply Z.eqb_eq in Hb.
  inv_bind H. apply unpack_ok in Hb0 as [_ ->].
  inv_bind H. apply guard_ok in Hb0. apply Z.eqb_eq in Hb0.
  inv_bind H. inv_bind H. apply guard_ok in Hb2. apply Z.eqb_eq in Hb2.
  rewrite !firstn_skipn_fread in * by lia.
  change (firstn 2 (fread file (16 + 6) 14)) with (firstn 2 (skipn 0 (fread file (16 + 6) 14))) in *.
  rewrite firstn_skipn_fread in * by lia. cbn [plus] in *.
  injection H as <- <- <-. unfold field. auto 10.
Qed.

Lemma wavread_inv file off nf r2d cf a sr :
  wavread file off nf r2d cf = Ok (a, sr) ->
  exists n ba, header_spec file n sr ba /\
    read_data_chunk file 40 n ba off nf r2d cf = Ok a.
Proof.
  unfold wavread. intros H.
  inv_bind H. apply guard_ok, bytes_eqb_eq in Hb.
  inv_bind H. inv_bind H. apply guard_ok, bytes_eqb_eq in Hb1.
  inv_bind H. apply guard_ok, bytes_eqb_eq in Hb2.
  inv_bind H. destruct v3 as [[n sr'] ba]. apply read_fmt_inv in Hb3.
  inv_bind H. apply guard_ok, bytes_eqb_eq in Hb4.
  inv_bind H. injection H as <- <-.
  exists n, ba. split; [|exact Hb5]. unfold header_spec. intuition.
Qed.

Lemma wavread_intro file n sr ba off nf r2d cf a :
  (exists off' nf' r2d' cf' a', wavread file off' nf' r2d' cf' = Ok (a', sr)) ->
  header_spec file n sr ba ->
  read_data_chunk file 40 n ba off nf r2d cf = a ->
  wavread file off nf r2d cf = bind a (fun x => Ok (x, sr)).
Proof.
  intros (off' & nf' & r2d' & cf' & a' & H) Hh <-. unfold wavread in *.
  inv_bind H. rewrite Hb. cbn [bind].
  inv_bind H. rewrite Hb0. cbn [bind].
  inv_bind H. rewrite Hb1. cbn [bind].
  inv_bind H. rewrite Hb2. cbn [bind].
  inv_bind H. rewrite Hb3. cbn [bind].
  destruct v3 as [[n' sr'] ba']. apply read_fmt_inv in Hb3.
  inv_bind H. rewrite Hb4. cbn [bind].
  destruct Hh as (_ & _ & _ & _ & _ & Hn & Hsr & Hba & _).
  destruct Hb3 as (_ & _ & Hn' & Hsr' & Hba' & _).
  replace n' with n by congruence. replace ba' with ba by congruence.
  replace sr' with sr by congruence. reflexivity.
Qed.

Lemma fread_length_full file pos n : length (fread file pos n) = n -> (0 < n)%nat ->
  (pos + n <= length file)%nat.
Proof. unfold fread. rewrite firstn_length, skipn_length. lia. Qed.

Lemma fread_bytes file pos n : Forall (fun b => 0 <= b < 256) file ->
  Forall (fun b => 0 <= b < 256) (fread file pos n).
Proof.
  intros H. unfold fread. rewrite Forall_forall in *. intros x Hx. apply H.
  rewrite <- (firstn_skipn pos file). apply in_or_app. right.
  rewrite <- (firstn_skipn n (skipn pos file)). apply in_or_app. left. exact Hx.
Qed.

Lemma field_nonneg file pos n : Forall (fun b => 0 <= b < 256) file -> 0 <= field file pos n.
Proof. intros H. apply le_val_bound, fread_bytes, H. Qed.

(** what a successful read returns: the samples between two byte positions *)
Definition data_samples (file : list Z) (bps first count : Z) : list Z :=
  samples (Z.to_nat bps) (Z.to_nat count) (skipn (Z.to_nat first) file).

Definition good_bps (bps : Z) : Prop := bps = 1 \/ bps = 2 \/ bps = 4 \/ bps = 8.

Lemma memmap_inv file bps start count xs : memmap file bps start count = Ok xs ->
  good_bps bps /\ 0 <= start /\ 0 <= count /\
  start + bps * count <= Z.of_nat (length file) /\ xs = data_samples file bps start count.
Proof.
  unfold memmap. intros H.
  inv_bind H. apply guard_ok in Hb.
  inv_bind H. apply guard_ok in Hb0. apply andb_prop in Hb0 as [H0 H1].
  inv_bind H. apply guard_ok in Hb0. injection H as <-.
  apply Z.leb_le in H0, H1, Hb0.
  repeat split; auto. unfold good_bps.
  destruct (Z.eqb_spec bps 1); [auto|]. destruct (Z.eqb_spec bps 2); [auto|].
  destruct (Z.eqb_spec bps 4); [auto|]. destruct (Z.eqb_spec bps 8); [auto|]. discriminate.
Qed.

Lemma memmap_intro file bps start count :
  good_bps bps -> 0 <= start -> 0 <= count ->
  start + bps * count <= Z.of_nat (length file) ->
  memmap file bps start count = Ok (data_samples file bps start count).
Proof.
  intros Hb H0 H1 H2. unfold memmap.
  assert (Hd : (bps =? 1) || (bps =? 2) || (bps =? 4) || (bps =? 8) = true)
    by (destruct Hb as [-> | [-> | [-> | ->]]]; reflexivity).
  rewrite Hd. cbn [guard bind].
  destruct (Z.leb_spec 0 start), (Z.leb_spec 0 count); try lia. cbn [andb guard bind].
  destruct (Z.leb_spec (start + bps * count) (Z.of_nat (length file))); [|lia]. reflexivity.
Qed.

Lemma shape_data_inv c r2d cf xs a : shape_data c r2d cf xs = Ok a -> (0 < c)%nat ->
  exists frames, xs = concat frames /\ a = layout 0 c r2d cf frames /\
    Forall (fun r => length r = c) frames.
Proof.
  unfold shape_data, layout. intros H Hc. rewrite ltb_Z_nat in H.
  destruct (orb (Nat.ltb 1 c) r2d) eqn:Hr.
  - inv_bind H. injection H as <-. unfold reshape in Hb.
    destruct (Nat.eqb_spec (length xs mod c) 0) as [Hm|]; [|discriminate]. injection Hb as <-.
    exists (chunks c (length xs / c) xs).
    assert (Hlen : length xs = (c * (length xs / c))%nat)
      by (pose proof (Nat.div_mod (length xs) c ltac:(lia)); lia).
    assert (Hall : forall k (l : list Z), length l = (c * k)%nat ->
              l = concat (chunks c k l) /\ Forall (fun r => length r = c) (chunks c k l)).
    { induction k as [|k IH]; intros l Hl.
      - destruct l; [split; [reflexivity|constructor]|simpl in Hl; lia].
      - cbn [chunks concat]. destruct (IH (skipn c l)) as [H1 H2].
        + rewrite skipn_length. lia.
        + split; [rewrite <- H1, firstn_skipn; reflexivity|].
          constructor; [|exact H2]. rewrite firstn_length. lia. }
    destruct (Hall _ _ Hlen) as [H1 H2]. auto.
  - injection H as <-. exists (map (fun x => [x]) xs).
    apply orb_false_elim in Hr as [Hr _]. apply Nat.ltb_ge in Hr.
    assert (Hcc : concat (map (fun x => [x]) xs) = xs)
      by (clear; induction xs as [|x xs IH]; simpl; [|rewrite IH]; reflexivity).
    repeat split; [symmetry; exact Hcc|rewrite Hcc; reflexivity|].
    apply Forall_map, Forall_forall. intros x _. simpl. lia.
Qed.

Lemma read_data_inv file n ba off nf r2d cf a :
  read_data_chunk file 40 n ba off nf r2d cf = Ok a -> 0 <= n ->
  let bps := ba / n in let dsize := field file 40 4 in
  exists first count frames,
    (44 <= length file)%nat /\ 0 < n /\ good_bps bps /\
    first = 44 + ba * off /\ 0 <= first /\ 0 <= count /\
    first + bps * count <= Z.of_nat (length file) /\
    data_samples file bps first count = concat frames /\
    Forall (fun r => length r = Z.to_nat n) frames /\
    a = map_array (fun x => x # vmax_of bps)%Q (layout 0 (Z.to_nat n) r2d cf frames) /\
    match nf with
    | None => count = dsize / bps - n * off
    | Some k => 0 <= k /\ off + k <= dsize / ba /\ count = n * k
    end.
Proof.
  unfold read_data_chunk. intros H Hn.
  inv_bind H. apply unpack_ok in Hb as [Hlen ->]. fold (field file 40 4) in H.
  inv_bind H. apply guard_ok, negb_true_iff, Z.eqb_neq in Hb.
  inv_bind H. apply guard_ok, negb_true_iff, Z.eqb_neq in Hb0.
  inv_bind H. destruct v1 as [shape end_frame].
  inv_bind H. apply guard_ok, Z.leb_le in Hb2.
  inv_bind H. apply memmap_inv in Hb3 as (Hg & Hs & Hc & Hfit & ->).
  inv_bind H. apply shape_data_inv in Hb3 as (frames & Hcat & -> & Hall); [|lia].
  injection H as <-. rewrite scale_map. change (Z.of_nat 40 + 4) with 44 in *.
  exists (44 + ba * off), shape, frames.
  split; [apply (fread_length_full file 40 4); [exact Hlen|lia]|].
  split; [lia|]. split; [exact Hg|]. split; [reflexivity|].
  split; [exact Hs|]. split; [exact Hc|]. split; [exact Hfit|].
  split; [exact Hcat|]. split; [exact Hall|]. split; [reflexivity|].
  destruct nf as [k|].
  - destruct (Z.leb_spec 0 k); [|discriminate]. injection Hb1 as <- <-. auto.
  - injection Hb1 as <- <-. reflexivity.
Qed.

Lemma samples_bound k n bs : (0 < k)%nat -> (k * n <= length bs)%nat ->
  Forall (fun b => 0 <= b < 256) bs ->
  Forall (fun x => - 2 ^ (8 * Z.of_nat k - 1) <= x < 2 ^ (8 * Z.of_nat k - 1)) (samples k n bs).
Proof.
  intros Hk. revert bs. induction n as [|n IH]; intros bs Hl Hb; cbn [samples]; constructor.
  - assert (Hlen : length (firstn k bs) = k) by (rewrite firstn_length; lia).
    pose proof (signed_val_bound (firstn k bs)) as H. rewrite Hlen in H. apply H; [exact Hk|].
    rewrite Forall_forall in *. intros x Hx. apply Hb.
    rewrite <- (firstn_skipn k bs). apply in_or_app; left; exact Hx.
  - apply IH; [rewrite skipn_length; lia|].
    rewrite Forall_forall in *. intros x Hx. apply Hb.
    rewrite <- (firstn_skipn k bs). apply in_or_app; right; exact Hx.
Qed.

Definition elements {A} (a : ndarray A) : list A :=
  match a with Arr1 xs => xs | Arr2 _ rows => concat rows end.

Lemma elements_map {A B} (f : A -> B) a : elements (map_array f a) = map f (elements a).
Proof. destruct a; simpl; [reflexivity|]. rewrite concat_map. reflexivity. Qed.

Lemma elements_layout c r2d cf frames (P : Z -> Prop) :
  Forall (fun r => length r = c) frames -> Forall P (concat frames) ->
  Forall P (elements (layout 0 c r2d cf frames)).
Proof.
  intros Hall HP. unfold layout. destruct (orb (Nat.ltb 1 c) r2d); [|exact HP].
  destruct cf; [|exact HP]. cbn [elements]. rewrite Forall_forall in *.
  intros x Hx. apply in_concat in Hx as (row & Hrow & Hx).
  unfold transpose in Hrow. apply in_map_iff in Hrow as (j & <- & Hj).
  apply in_map_iff in Hx as (r & <- & Hr). apply in_seq in Hj.
  apply HP. apply in_concat. exists r. split; [exact Hr|]. apply nth_In.
  rewrite (Hall _ Hr). lia.
Qed.

Lemma read_range file n ba off nf r2d cf a :
  Forall (fun b => 0 <= b < 256) file -> 0 <= n ->
  read_data_chunk file 40 n ba off nf r2d cf = Ok a ->
  Forall (fun q => (-1 # 1) <= q /\ q < 1 # 1)%Q (elements a).
Proof.
  intros Hbytes Hn H. apply read_data_inv in H; [|exact Hn].
  destruct H as (first & count & frames & _ & Hn0 & Hg & Hfirst & Hf0 & Hc0 & Hfit & Hcat & Hall & -> & _).
  rewrite elements_map. apply Forall_map. apply elements_layout; [exact Hall|].
  rewrite <- Hcat. unfold data_samples.
  assert (Hbp : 0 < ba / n) by (destruct Hg as [-> | [-> | [-> | ->]]]; lia).
  eapply Forall_impl; [|apply samples_bound].
  - intros x Hx. cbv beta in Hx. rewrite Z2Nat.id in Hx by lia.
    unfold Qle, Qlt; cbn [Qnum Qden]. unfold vmax_of. rewrite Z2Pos.id; [lia|].
    apply Z.pow_pos_nonneg; lia.
  - lia.
  - rewrite skipn_length. nia.
  - rewrite Forall_forall in *. intros x Hx. apply Hbytes.
    rewrite <- (firstn_skipn (Z.to_nat first) file). apply in_or_app; right; exact Hx.
Qed.

(** ** Partial reads *)
Lemma data_samples_slice file bps N o c first : good_bps bps ->
  0 <= first -> 0 <= o -> 0 <= c -> o + c <= N ->
  data_samples file bps (first + bps * o) c =
  firstn (Z.to_nat c) (skipn (Z.to_nat o) (data_samples file bps first N)).
Proof.
  intros Hg Hf Ho Hc HN. unfold data_samples.
  assert (Hb : 0 < bps) by (destruct Hg as [-> | [-> | [-> | ->]]]; lia).
  rewrite <- samples_slice by lia. rewrite skipn_add. f_equal. f_equal. nia.
Qed.

Lemma concat_slice {A} c (frames : list (list A)) o k :
  Forall (fun r => length r = c) frames -> (o + k <= length frames)%nat ->
  firstn (c * k) (skipn (c * o) (concat frames)) = concat (firstn k (skipn o frames)).
Proof.
  intros Hall Hok.
  assert (Hskip : forall o (fr : list (list A)), Forall (fun r => length r = c) fr ->
            skipn (c * o) (concat fr) = concat (skipn o fr)).
  { clear. induction o as [|o IH]; intros fr H; [rewrite Nat.mul_0_r; reflexivity|].
    destruct H as [|r fr Hr H]; [cbn; apply skipn_nil|]. cbn [concat skipn].
    replace (c * S o)%nat with (length r + c * o)%nat by lia.
    rewrite <- (IH fr H), <- skipn_add. f_equal.
    rewrite skipn_app, skipn_all2, Nat.sub_diag by lia. reflexivity. }
  rewrite Hskip by exact Hall.
  assert (Hall' : Forall (fun r => length r = c) (skipn o frames)).
  { rewrite Forall_forall in *. intros r Hr. apply Hall. rewrite <- (firstn_skipn o frames).
    apply in_or_app; right; exact Hr. }
  clear Hall Hok Hskip. revert Hall'. generalize (skipn o frames) as fr. clear frames o.
  induction k as [|k IH]; intros fr H; [rewrite Nat.mul_0_r; reflexivity|].
  destruct H as [|r fr Hr H]; [cbn; apply firstn_nil|]. cbn [concat firstn].
  replace (c * S k)%nat with (length r + c * k)%nat by lia.
  rewrite firstn_app_2, IH by exact H. reflexivity.
Qed.

Lemma Forall_skipn_firstn {A} (P : A -> Prop) l o k :
  Forall P l -> Forall P (firstn k (skipn o l)).
Proof.
  rewrite !Forall_forall. intros H x Hx. apply H.
  rewrite <- (firstn_skipn o l). apply in_or_app; right.
  rewrite <- (firstn_skipn k (skipn o l)). apply in_or_app; left; exact Hx.
Qed.

Lemma full_read_frames file n sr ba c rows :
  0 <= n -> header_spec file n sr ba ->
  wavread file 0 None true false = Ok (Arr2 c rows, sr) ->
  let bps := ba / n in let dsize := field file 40 4 in
  exists frames,
    0 < n /\ good_bps bps /\ c = Z.to_nat n /\ (44 <= length file)%nat /\
    rows = map (map (fun x => x # vmax_of bps)%Q) frames /\
    Forall (fun r => length r = Z.to_nat n) frames /\
    data_samples file bps 44 (dsize / bps) = concat frames /\
    0 <= dsize / bps /\
    44 + bps * (dsize / bps) <= Z.of_nat (length file) /\
    n * Z.of_nat (length frames) = dsize / bps.
Proof.
  intros Hn Hh H bps dsize. apply wavread_inv in H as (n' & ba' & Hh' & H).
  assert (n' = n /\ ba' = ba) as [-> ->].
  { destruct Hh as (_ & _ & _ & _ & _ & -> & _ & -> & _).
    destruct Hh' as (_ & _ & _ & _ & _ & -> & _ & -> & _). auto. }
  apply read_data_inv in H; [|exact Hn]. cbv zeta in H. fold bps dsize in H.
  destruct H as (first & count & frames & Hlen & Hn0 & Hg & -> & _ & Hc & Hfit & Hcat & Hall & Ha & Hcount).
  assert (Hcount' : count = dsize / bps) by lia. clear Hcount. subst count.
  replace (44 + ba * 0) with 44 in * by lia.
  exists frames. unfold layout in Ha. rewrite orb_true_r in Ha. cbn [map_array] in Ha.
  injection Ha as -> ->. repeat split; auto.
  assert (Hl : length (concat frames) = Z.to_nat (dsize / bps))
    by (rewrite <- Hcat; apply samples_length).
  rewrite (concat_length_const (Z.to_nat n)) in Hl by exact Hall. nia.
Qed.

Lemma partial_read file n sr ba c rows off k r2d cf :
  0 <= n -> header_spec file n sr ba -> 0 <= field file 40 4 -> ba mod n = 0 ->
  wavread file 0 None true false = Ok (Arr2 c rows, sr) ->
  0 <= off -> 0 <= k ->
  wavread file off (Some k) r2d cf =
  if off + k <=? Z.of_nat (length rows)
  then Ok (layout 0%Q c r2d cf (firstn (Z.to_nat k) (skipn (Z.to_nat off) rows)), sr)
  else Err ValueErr.
Proof.
  intros Hn Hh Hds Hmod Hfull Hoff Hk.
  pose proof (full_read_frames _ _ _ _ _ _ Hn Hh Hfull) as
    (frames & Hn0 & Hg & -> & Hlen & -> & Hall & Hcat & Hnn & Hfit & Hcount).
  set (bps := ba / n) in *. set (dsize := field file 40 4) in *.
  assert (Hb : 0 < bps) by (destruct Hg as [-> | [-> | [-> | ->]]]; lia).
  assert (Hba : ba = n * bps) by (unfold bps; pose proof (Z.div_mod ba n ltac:(lia)); lia).
  rewrite map_length.
  erewrite wavread_intro; [|do 5 eexists; exact Hfull|exact Hh|reflexivity].
  unfold read_data_chunk.
  assert (Hu : unpack 4 (fread file 40 4) = Ok dsize).
  { unfold unpack. replace (length (fread file 40 4)) with 4%nat; [reflexivity|].
    unfold fread. rewrite firstn_length, skipn_length. lia. }
  rewrite Hu. cbn [bind]. destruct (Z.eqb_spec n 0); [lia|]. cbn [negb guard bind].
  fold bps. destruct (Z.eqb_spec bps 0); [lia|]. cbn [negb guard bind].
  destruct (Z.leb_spec 0 k); [|lia]. cbn [bind].
  assert (Hmax : dsize / ba = Z.of_nat (length frames)).
  { rewrite Hba, (Z.mul_comm n bps), <- Z.div_div by lia. rewrite <- Hcount.
    rewrite Z.mul_comm, Z.div_mul by lia. reflexivity. }
  rewrite Hmax.
  destruct (Z.leb_spec (off + k) (Z.of_nat (length frames))) as [Hle|Hgt]; cbn [guard bind];
    [|reflexivity].
  change (Z.of_nat 40 + 4) with 44.
  replace (44 + ba * off) with (44 + bps * (n * off)) by (rewrite Hba; ring).
  rewrite memmap_intro; [|exact Hg|nia|nia|].
  2:{ transitivity (44 + bps * (dsize / bps)); [|exact Hfit]. rewrite <- Hcount. nia. }
  cbn [bind]. rewrite (data_samples_slice file bps (dsize / bps)) by (auto || nia).
  rewrite Hcat.
  replace (Z.to_nat (n * k)) with (Z.to_nat n * Z.to_nat k)%nat by nia.
  replace (Z.to_nat (n * off)) with (Z.to_nat n * Z.to_nat off)%nat by nia.
  rewrite concat_slice by (assumption || lia).
  rewrite shape_data_layout by (try apply Forall_skipn_firstn; assumption || lia). cbn [bind].
  rewrite scale_map. f_equal. f_equal.
  rewrite skipn_map, firstn_map.
  set (fr := firstn (Z.to_nat k) (skipn (Z.to_nat off) frames)).
  assert (Hfr : Forall (fun r => length r = Z.to_nat n) fr) by (apply Forall_skipn_firstn; exact Hall).
  clearbody fr. unfold layout. destruct (orb (Nat.ltb 1 (Z.to_nat n)) r2d).
  - destruct cf; cbn [map_array]; [|reflexivity]. rewrite map_length. f_equal.
    unfold transpose. rewrite map_map. apply map_ext_in. intros j Hj. apply in_seq in Hj.
    rewrite !map_map. apply map_ext_in. intros r Hr.
    rewrite Forall_forall in Hfr. specialize (Hfr _ Hr).
    rewrite nth_indep with (l := map _ r) (d' := (0 # vmax_of bps)%Q) by (rewrite map_length; lia).
    rewrite (map_nth (fun x => x # vmax_of bps)%Q). reflexivity.
  - cbn [map_array]. rewrite concat_map. reflexivity.
Qed.

Lemma negative_num_frames file off k r2d cf a sr : k < 0 ->
  wavread file off (Some k) r2d cf <> Ok (a, sr).
Proof.
  intros Hk H. apply wavread_inv in H as (n & ba & _ & H). unfold read_data_chunk in H.
  inv_bind H. inv_bind H. inv_bind H. inv_bind H. destruct (Z.leb_spec 0 k); [lia|discriminate].
Qed.

Lemma layout_map_Q v c r2d cf (fr : list (list Z)) :
  Forall (fun r => length r = c) fr ->
  map_array (fun x => x # v)%Q (layout 0 c r2d cf fr) =
  layout 0%Q c r2d cf (map (map (fun x => x # v)%Q) fr).
Proof.
  intros Hfr. unfold layout. destruct (orb (Nat.ltb 1 c) r2d).
  - destruct cf; cbn [map_array]; [|reflexivity]. rewrite map_length. f_equal.
    unfold transpose. rewrite map_map. apply map_ext_in. intros j Hj. apply in_seq in Hj.
    rewrite !map_map. apply map_ext_in. intros r Hr.
    rewrite Forall_forall in Hfr. specialize (Hfr _ Hr).
    rewrite nth_indep with (l := map _ r) (d' := (0 # v)%Q) by (rewrite map_length; lia).
    rewrite (map_nth (fun x => x # v)%Q). reflexivity.
  - cbn [map_array]. rewrite concat_map. reflexivity.
Qed.

Lemma rest_read file n sr ba c rows off r2d cf :
  0 <= n -> header_spec file n sr ba -> 0 <= field file 40 4 -> ba mod n = 0 ->
  wavread file 0 None true false = Ok (Arr2 c rows, sr) ->
  0 <= off ->
  wavread file off None r2d cf =
  if off <=? Z.of_nat (length rows)
  then Ok (layout 0%Q c r2d cf (skipn (Z.to_nat off) rows), sr)
  else Err ValueErr.
Proof.
  intros Hn Hh Hds Hmod Hfull Hoff.
  pose proof (full_read_frames _ _ _ _ _ _ Hn Hh Hfull) as
    (frames & Hn0 & Hg & -> & Hlen & -> & Hall & Hcat & Hnn & Hfit & Hcount).
  set (bps := ba / n) in *. set (dsize := field file 40 4) in *.
  assert (Hb : 0 < bps) by (destruct Hg as [-> | [-> | [-> | ->]]]; lia).
  assert (Hba : ba = n * bps) by (unfold bps; pose proof (Z.div_mod ba n ltac:(lia)); lia).
  rewrite map_length.
  erewrite wavread_intro; [|do 5 eexists; exact Hfull|exact Hh|reflexivity].
  unfold read_data_chunk.
  assert (Hu : unpack 4 (fread file 40 4) = Ok dsize).
  { unfold unpack. replace (length (fread file 40 4)) with 4%nat; [reflexivity|].
    unfold fread. rewrite firstn_length, skipn_length. lia. }
  rewrite Hu. cbn [bind]. destruct (Z.eqb_spec n 0); [lia|]. cbn [negb guard bind].
  fold bps. destruct (Z.eqb_spec bps 0); [lia|]. cbn [negb guard bind].
  destruct (Z.leb_spec (dsize / ba) (dsize / ba)); [|lia]. cbn [guard bind].
  change (Z.of_nat 40 + 4) with 44.
  replace (44 + ba * off) with (44 + bps * (n * off)) by (rewrite Hba; ring).
  rewrite <- Hcount, <- Z.mul_sub_distr_l.
  destruct (Z.leb_spec off (Z.of_nat (length frames))) as [Hle|Hgt].
  - rewrite memmap_intro; [|exact Hg|nia|nia|].
    2:{ transitivity (44 + bps * (dsize / bps)); [|exact Hfit]. rewrite <- Hcount. nia. }
    cbn [bind]. rewrite (data_samples_slice file bps (dsize / bps)) by (auto || nia).
    rewrite Hcat. set (k := Z.of_nat (length frames) - off).
    replace (Z.to_nat (n * k)) with (Z.to_nat n * Z.to_nat k)%nat by nia.
    replace (Z.to_nat (n * off)) with (Z.to_nat n * Z.to_nat off)%nat by nia.
    rewrite concat_slice by (assumption || lia).
    rewrite shape_data_layout by (try apply Forall_skipn_firstn; assumption || lia). cbn [bind].
    rewrite scale_map, layout_map_Q by (apply Forall_skipn_firstn; exact Hall).
    rewrite skipn_map, firstn_all2; [reflexivity|]. rewrite skipn_length. lia.
  - unfold memmap.
    assert (Hd : (bps =? 1) || (bps =? 2) || (bps =? 4) || (bps =? 8) = true)
      by (destruct Hg as [-> | [-> | [-> | ->]]]; reflexivity).
    rewrite Hd. cbn [guard bind].
    destruct (Z.leb_spec 0 (n * (Z.of_nat (length frames) - off))); [nia|].
    rewrite andb_false_r. reflexivity.
Qed.

(** ** Float input *)
Lemma float_to_i2_exact ovf z : -32768 <= z <= 32767 -> float_to_i2 ovf (z # 32768)%Q = z.
Proof.
  intros H. unfold float_to_i2. cbn [Qmult Qnum Qden].
  change (Z.pos (32768 * 1)) with 32768. rewrite Z.quot_mul by lia.
  destruct (Z.leb_spec (-32768) z), (Z.leb_spec z 32767); try lia. reflexivity.
Qed.

Lemma float_to_i2_close ovf x : (-1 <= x)%Q -> (x < 1)%Q ->
  let y := (float_to_i2 ovf x # 32768)%Q in
  -32768 <= float_to_i2 ovf x <= 32767 /\ (y - x < 1 # 32768)%Q /\ (x - y < 1 # 32768)%Q.
Proof.
  intros H1 H2 y. unfold y, float_to_i2. clear y. destruct x as [p q].
  unfold Qle, Qlt in *. cbn [Qmult Qnum Qden Qminus Qplus Qopp] in *.
  rewrite !Z.mul_1_r in *. rewrite Pos.mul_1_r.
  set (t := Z.quot (p * 32768) (Z.pos q)).
  assert (Hq : 0 < Z.pos q) by lia.
  assert (Ht : Z.pos q * t - Z.pos q < p * 32768 < Z.pos q * t + Z.pos q).
  { pose proof (Z.quot_rem' (p * 32768) (Z.pos q)) as He. fold t in He.
    pose proof (Z.rem_bound_abs (p * 32768) (Z.pos q) ltac:(lia)) as Hr. lia. }
  assert (Htb : -32768 <= t <= 32767).
  { destruct (Z.lt_ge_cases p 0) as [Hneg|Hpos].
    - assert (t <= 0) by (apply Z.quot_le_upper_bound; lia).
      split; [|lia]. apply Z.quot_le_lower_bound; nia.
    - split; [assert (0 <= t) by (apply Z.quot_pos; lia); lia|].
      assert (t < 32768); [|lia]. apply Z.quot_lt_upper_bound; nia. }
  destruct (Z.leb_spec (-32768) t), (Z.leb_spec t 32767); try lia. cbn [andb].
  split; [exact Htb|]. split; nia.
Qed.
