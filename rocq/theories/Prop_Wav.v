(** Properties C13-C16: WAV files (ssspy/io/__init__.py). *)
From Coq Require Import List ZArith QArith Lia Bool.
From Verif Require Import Wav WavProofs.
Import ListNotations.
Local Open Scope Z_scope.
Local Open Scope list_scope.

(** ** Specification *)

(** Frames (time-major list of channel tuples) denoted by an array argument. *)
Definition frames_of {A} (d : A) (channels_first : bool) (a : ndarray A) : list (list A) :=
  match a with
  | Arr1 xs => map (fun x => [x]) xs
  | Arr2 cols rows => if channels_first then transpose d cols rows else rows
  end.
(** a genuine rectangular array *)
Definition rectangular {A} (a : ndarray A) : Prop :=
  match a with Arr1 _ => True | Arr2 cols rows => Forall (fun r => length r = cols) rows end.
Definition channels_of {A} (channels_first : bool) (a : ndarray A) : nat :=
  match a with
  | Arr1 _ => 1%nat
  | Arr2 cols rows => if channels_first then length rows else cols
  end.
(** the header fields are 16 or 32 bit unsigned integers *)
Definition file_fits (channels bytes_per_sample frames : nat) (sample_rate : Z) : Prop :=
  0 < sample_rate /\ (1 <= channels <= 2)%nat /\
  Z.of_nat bytes_per_sample * sample_rate * Z.of_nat channels < 2 ^ 32 /\
  36 + Z.of_nat bytes_per_sample * Z.of_nat (channels * frames) < 2 ^ 32.

Lemma frames_rect {A} (d : A) cf a : rectangular a ->
  Forall (fun r => length r = channels_of cf a) (frames_of d cf a).
Proof.
  destruct a as [xs|cols rows]; simpl; intros H.
  - apply Forall_map, Forall_forall. intros x _. reflexivity.
  - destruct cf; [apply transpose_rows|exact H].
Qed.

Lemma to_frames_ok {A} (d : A) cf a : rectangular a -> (1 <= channels_of cf a <= 2)%nat ->
  to_frames d cf a = Ok (channels_of cf a, concat (frames_of d cf a)).
Proof.
  destruct a as [xs|cols rows]; simpl; intros Hr Hc.
  - rewrite <- flat_map_concat_map.
    replace (flat_map (fun x => [x]) xs) with xs; [reflexivity|].
    clear. induction xs as [|x xs IH]; simpl; [|rewrite <- IH]; reflexivity.
  - destruct cf.
    + destruct (Nat.ltb_spec (length rows) 1), (Nat.ltb_spec 2 (length rows)); try lia. reflexivity.
    + destruct (Nat.ltb_spec cols 1), (Nat.ltb_spec 2 cols); try lia. reflexivity.
Qed.

Lemma fits_of cf {A} (d : A) (a : ndarray A) k bits sr (xs : list Z) :
  rectangular a -> file_fits (channels_of cf a) k (length (frames_of d cf a)) sr ->
  (bits = 8 /\ k = 1%nat \/ bits = 16 /\ k = 2%nat) ->
  length xs = length (concat (frames_of d cf a)) ->
  fits (channels_of cf a) bits sr xs.
Proof.
  intros Hr (H1 & H2 & H3 & H4) Hb Hx.
  rewrite (concat_length_const (channels_of cf a)) in Hx by (apply frames_rect; exact Hr).
  unfold fits. rewrite Hx.
  destruct Hb as [[-> ->]|[-> ->]]; [change (8 / 8) with 1|change (16 / 8) with 2];
    repeat split; auto; lia.
Qed.

(** C13, 16-bit integers: for every rectangular int16 array with one or two
    channels, every writer layout flag and every reader flags, reading the
    written file returns the same sample rate and every sample divided by 2^15
    in the layout asked for. *)
Theorem C13_roundtrip_int16 :
  forall ovf a sample_rate channels_first,
    rectangular a ->
    file_fits (channels_of channels_first a) 2 (length (frames_of 0 channels_first a)) sample_rate ->
    Forall (fun x => -32768 <= x <= 32767) (concat (frames_of 0 channels_first a)) ->
    exists file, wavwrite ovf true (WInt16 a) sample_rate channels_first = Ok file /\
      forall return_2d cf, wavread file 0 None return_2d cf =
        Ok (map_array (fun x => x # 32768)%Q
              (layout 0 (channels_of channels_first a) return_2d cf (frames_of 0 channels_first a)),
            sample_rate).
Proof.
  intros ovf a sr cf Hr Hf Hx. destruct Hf as (Hsr & Hc & Hf).
  apply (roundtrip ovf (WInt16 a) sr cf (channels_of cf a) 16 (frames_of 0 cf a)).
  - cbn [prepare]. rewrite to_frames_ok by assumption. reflexivity.
  - apply frames_rect; exact Hr.
  - apply (fits_of cf 0 a 2); auto. unfold file_fits; auto.
  - eapply Forall_impl; [|exact Hx]. intros x H. unfold in_range. cbv beta in *.
    change (2 ^ (16 - 1)) with 32768; change (2 ^ (8 - 1)) with 128; lia.
Qed.

(** C13, 8-bit integers. *)
Theorem C13_roundtrip_int8 :
  forall ovf a sample_rate channels_first,
    rectangular a ->
    file_fits (channels_of channels_first a) 1 (length (frames_of 0 channels_first a)) sample_rate ->
    Forall (fun x => -128 <= x <= 127) (concat (frames_of 0 channels_first a)) ->
    exists file, wavwrite ovf true (WInt8 a) sample_rate channels_first = Ok file /\
      forall return_2d cf, wavread file 0 None return_2d cf =
        Ok (map_array (fun x => x # 128)%Q
              (layout 0 (channels_of channels_first a) return_2d cf (frames_of 0 channels_first a)),
            sample_rate).
Proof.
  intros ovf a sr cf Hr Hf Hx. destruct Hf as (Hsr & Hc & Hf).
  apply (roundtrip ovf (WInt8 a) sr cf (channels_of cf a) 8 (frames_of 0 cf a)).
  - cbn [prepare]. rewrite to_frames_ok by assumption. reflexivity.
  - apply frames_rect; exact Hr.
  - apply (fits_of cf 0 a 1); auto. unfold file_fits; auto.
  - eapply Forall_impl; [|exact Hx]. intros x H. unfold in_range. cbv beta in *.
    change (2 ^ (16 - 1)) with 32768; change (2 ^ (8 - 1)) with 128; lia.
Qed.

(** C13, float input in [-1, 1): each sample comes back as z/32768 where z is
    within the int16 range and |z/32768 - x| < 1/32768 (exact on multiples of
    1/32768). *)
Theorem C13_roundtrip_float :
  forall ovf a sample_rate channels_first,
    rectangular a ->
    file_fits (channels_of channels_first a) 2 (length (frames_of 0%Q channels_first a)) sample_rate ->
    Forall (fun x => -1 <= x /\ x < 1)%Q (concat (frames_of 0%Q channels_first a)) ->
    exists file, wavwrite ovf true (WFloat a) sample_rate channels_first = Ok file /\
      (forall return_2d cf, wavread file 0 None return_2d cf =
        Ok (map_array (fun x => x # 32768)%Q
              (layout 0 (channels_of channels_first a) return_2d cf
                 (map (map (float_to_i2 ovf)) (frames_of 0%Q channels_first a))),
            sample_rate)) /\
      Forall (fun x => let y := (float_to_i2 ovf x # 32768)%Q in
                       (y - x < 1 # 32768)%Q /\ (x - y < 1 # 32768)%Q)
        (concat (frames_of 0%Q channels_first a)) /\
      (forall z, -32768 <= z <= 32767 -> float_to_i2 ovf (z # 32768) = z).
Proof.
  intros ovf a sr cf Hr Hf Hx. destruct Hf as (Hsr & Hc & Hf).
  destruct (roundtrip ovf (WFloat a) sr cf (channels_of cf a) 16
              (map (map (float_to_i2 ovf)) (frames_of 0%Q cf a))) as (file & Hw & Hrd).
  - cbn [prepare]. rewrite to_frames_ok by assumption. cbn [bind]. rewrite concat_map. reflexivity.
  - apply Forall_map. eapply Forall_impl; [|apply frames_rect; exact Hr].
    intros r H. rewrite map_length. exact H.
  - apply (fits_of cf 0%Q a 2); auto; [unfold file_fits; auto|].
    rewrite <- concat_map, map_length. reflexivity.
  - rewrite <- concat_map. apply Forall_map. eapply Forall_impl; [|exact Hx].
    intros x [H1 H2]. destruct (float_to_i2_close ovf x H1 H2) as [H _]. unfold in_range. cbv beta in *.
    change (2 ^ (16 - 1)) with 32768; change (2 ^ (8 - 1)) with 128; lia.
  - exists file. split; [exact Hw|]. split; [exact Hrd|]. split.
    + eapply Forall_impl; [|exact Hx]. intros x [H1 H2].
      destruct (float_to_i2_close ovf x H1 H2) as (_ & H3 & H4). auto.
    + intros z Hz. apply float_to_i2_exact; exact Hz.
Qed.

(** Corollary: same layout on both sides gives back the very array. *)
Theorem C13_same_layout :
  forall ovf cols (rows : list (list Z)) sample_rate (channels_first : bool),
    rectangular (Arr2 cols rows) ->
    let c := if channels_first then length rows else cols in
    file_fits c 2 (if channels_first then cols else length rows) sample_rate ->
    Forall (fun x => -32768 <= x <= 32767) (concat (frames_of 0 channels_first (Arr2 cols rows))) ->
    exists file,
      wavwrite ovf true (WInt16 (Arr2 cols rows)) sample_rate channels_first = Ok file /\
      wavread file 0 None true channels_first =
        Ok (Arr2 cols (map (map (fun x => x # 32768)%Q) rows), sample_rate).
Proof.
  intros ovf cols rows sr cf Hr c Hf Hx.
  destruct (C13_roundtrip_int16 ovf (Arr2 cols rows) sr cf Hr) as (file & Hw & Hrd).
  - cbn [channels_of frames_of]. destruct cf; [rewrite transpose_length|]; exact Hf.
  - exact Hx.
  - exists file. split; [exact Hw|]. rewrite Hrd. f_equal. f_equal.
    unfold layout. rewrite orb_true_r. cbn [channels_of frames_of].
    destruct cf; [|reflexivity]. cbn [map_array]. rewrite transpose_length.
    rewrite (transpose_involutive 0 cols rows Hr). reflexivity.
Qed.

Example C13_nonvacuous :
  exists file, wavwrite (fun _ => 0) true (WInt16 (Arr2 2 [[1; -2]; [300; -32768]])) 16000 false = Ok file
    /\ wavread file 0 None false true =
       Ok (Arr2 2 [[1 # 32768; 300 # 32768]; [-2 # 32768; -32768 # 32768]]%Q, 16000).
Proof. eexists; split; reflexivity. Qed.

(** C14: consistency of the written header.  The positions are those of the
    RIFF format. *)
Theorem C14_header :
  forall ovf a sample_rate channels_first,
    rectangular a ->
    let c := channels_of channels_first a in
    let n := length (frames_of 0 channels_first a) in
    file_fits c 2 n sample_rate ->
    exists file, wavwrite ovf true (WInt16 a) sample_rate channels_first = Ok file /\
      Z.of_nat (length file) = 44 + 2 * Z.of_nat (c * n) /\
      fread file 0 4 = b_RIFF /\ fread file 8 4 = b_WAVE /\ fread file 12 4 = b_fmt /\
      fread file 36 4 = b_data /\
      field file 4 4 = Z.of_nat (length file) - 8 /\
      field file 16 4 = 16 /\ field file 20 2 = 1 /\
      field file 22 2 = Z.of_nat c /\ field file 24 4 = sample_rate /\
      field file 34 2 = 16 /\
      field file 28 4 = sample_rate * Z.of_nat c * field file 34 2 / 8 /\
      field file 32 2 = Z.of_nat c * field file 34 2 / 8 /\
      field file 40 4 = Z.of_nat (length file) - 44.
Proof.
  intros ovf a sr cf Hr c n Hf. pose proof Hf as (Hsr & Hc & Hbr & Hsz).
  assert (Hlen : length (concat (frames_of 0 cf a)) = (c * n)%nat)
    by (apply concat_length_const, frames_rect; exact Hr).
  eexists. split.
  { apply (wavwrite_prepare ovf (WInt16 a) sr cf c 16 (concat (frames_of 0 cf a))).
    - cbn [prepare]. unfold c. rewrite to_frames_ok by assumption. reflexivity.
    - apply (fits_of cf 0 a 2); auto. }
  rewrite Hlen. change (16 / 8) with 2. change (2 ^ 32) with 4294967296 in *.
  set (data := flat_map _ _).
  assert (Hdl : length data = (2 * (c * n))%nat)
    by (unfold data; rewrite flat_map_le_length, Hlen; reflexivity).
  rewrite mk_file_length, Hdl.
  assert (V4 : forall x, 0 <= x < 4294967296 -> le_val (le_bytes 4 x) = x)
    by (intros x Hx; apply le_val_pack; exact Hx).
  assert (V2 : forall x, 0 <= x < 65536 -> le_val (le_bytes 2 x) = x)
    by (intros x Hx; apply le_val_pack; exact Hx).
  set (file := mk_file _ _ _ _ _ _ _ _).
  assert (E4 : field file 4 4 = 36 + 2 * Z.of_nat (c * n))
    by (transitivity (le_val (le_bytes 4 (36 + 2 * Z.of_nat (c * n)))); [reflexivity|apply V4; lia]).
  assert (E16 : field file 16 4 = 16)
    by (transitivity (le_val (le_bytes 4 16)); [reflexivity|apply V4; lia]).
  assert (E20 : field file 20 2 = 1)
    by (transitivity (le_val (le_bytes 2 1)); [reflexivity|apply V2; lia]).
  assert (E22 : field file 22 2 = Z.of_nat c)
    by (transitivity (le_val (le_bytes 2 (Z.of_nat c))); [reflexivity|apply V2; lia]).
  assert (E24 : field file 24 4 = sr)
    by (transitivity (le_val (le_bytes 4 sr)); [reflexivity|apply V4; nia]).
  assert (E28 : field file 28 4 = 2 * sr * Z.of_nat c)
    by (transitivity (le_val (le_bytes 4 (2 * sr * Z.of_nat c))); [reflexivity|apply V4; nia]).
  assert (E32 : field file 32 2 = 2 * Z.of_nat c)
    by (transitivity (le_val (le_bytes 2 (2 * Z.of_nat c))); [reflexivity|apply V2; lia]).
  assert (E34 : field file 34 2 = 16)
    by (transitivity (le_val (le_bytes 2 16)); [reflexivity|apply V2; lia]).
  assert (E40 : field file 40 4 = 2 * Z.of_nat (c * n))
    by (transitivity (le_val (le_bytes 4 (2 * Z.of_nat (c * n)))); [reflexivity|apply V4; lia]).
  rewrite E4, E16, E20, E22, E24, E28, E32, E34, E40.
  repeat split; try reflexivity; Z.div_mod_to_equations; lia.
Qed.

(** C15: for every file whatsoever that is fully readable and whose block
    alignment is a multiple of the channel count, every partial read with
    non-negative offset and count returns exactly the requested frames in the
    requested layout, or a ValueError when the request ends past the last
    frame; negative counts are always rejected. *)
Theorem C15_partial_read :
  forall file c rows sample_rate frame_offset num_frames return_2d channels_first,
    Forall (fun b => 0 <= b < 256) file ->
    field file 32 2 mod field file 22 2 = 0 ->
    wavread file 0 None true false = Ok (Arr2 c rows, sample_rate) ->
    0 <= frame_offset -> 0 <= num_frames ->
    wavread file frame_offset (Some num_frames) return_2d channels_first =
    if frame_offset + num_frames <=? Z.of_nat (length rows)
    then Ok (layout 0%Q c return_2d channels_first
               (firstn (Z.to_nat num_frames) (skipn (Z.to_nat frame_offset) rows)), sample_rate)
    else Err ValueErr.
Proof.
  intros file c rows sr off k r2d cf Hb Hmod Hfull Hoff Hk.
  pose proof (wavread_inv _ _ _ _ _ _ _ Hfull) as (n & ba & Hh & _).
  pose proof Hh as (_ & _ & _ & _ & _ & Hn & _ & Hba & _).
  apply (partial_read file n sr ba); auto; try (subst; apply field_nonneg; exact Hb).
  subst; exact Hmod.
Qed.

Theorem C15_read_rest :
  forall file c rows sample_rate frame_offset return_2d channels_first,
    Forall (fun b => 0 <= b < 256) file ->
    field file 32 2 mod field file 22 2 = 0 ->
    wavread file 0 None true false = Ok (Arr2 c rows, sample_rate) ->
    0 <= frame_offset ->
    wavread file frame_offset None return_2d channels_first =
    if frame_offset <=? Z.of_nat (length rows)
    then Ok (layout 0%Q c return_2d channels_first (skipn (Z.to_nat frame_offset) rows), sample_rate)
    else Err ValueErr.
Proof.
  intros file c rows sr off r2d cf Hb Hmod Hfull Hoff.
  pose proof (wavread_inv _ _ _ _ _ _ _ Hfull) as (n & ba & Hh & _).
  pose proof Hh as (_ & _ & _ & _ & _ & Hn & _ & Hba & _).
  apply (rest_read file n sr ba); auto; try (subst; apply field_nonneg; exact Hb).
  subst; exact Hmod.
Qed.

Theorem C15_negative_count_rejected :
  forall file frame_offset num_frames return_2d channels_first a sample_rate,
    num_frames < 0 ->
    wavread file frame_offset (Some num_frames) return_2d channels_first <> Ok (a, sample_rate).
Proof. intros file off k r2d cf a sr Hk. exact (negative_num_frames file off k r2d cf a sr Hk). Qed.

Definition ex_file : list Z :=
  match wavwrite (fun _ => 0) true (WInt16 (Arr1 [5; 6; 7])) 8000 false with
  | Ok f => f | Err _ => [] end.

Example C15_nonvacuous :
  wavread ex_file 0 None true false = Ok (Arr2 1 [[5 # 32768]; [6 # 32768]; [7 # 32768]]%Q, 8000) /\
  wavread ex_file 1 (Some 1) false false = Ok (Arr1 [6 # 32768]%Q, 8000) /\
  wavread ex_file 1 (Some 3) false false = Err ValueErr /\
  field ex_file 32 2 mod field ex_file 22 2 = 0.
Proof. repeat split; reflexivity. Qed.

(** A negative frame offset is not rejected: header bytes are decoded as audio. *)
Theorem C15_negative_offset_refuted :
  exists file x, Forall (fun b => 0 <= b < 256) file /\
    wavread file (-1) (Some 1) false false = Ok (Arr1 [x], 8000) /\
    wavread file 0 None false false = Ok (Arr1 [5 # 32768; 6 # 32768; 7 # 32768]%Q, 8000) /\
    x = (0 # 32768)%Q.
Proof.
  exists ex_file, (0 # 32768)%Q. split.
  - vm_compute. repeat constructor; discriminate.
  - repeat split; reflexivity.
Qed.

(** C16: whatever the byte string and the request, if wavread returns data the
    header is a consistent PCM header (field positions of the format), the
    returned rate is the header's, and all samples are in [-1, 1). *)
Theorem C16_accepts_only_consistent :
  forall file frame_offset num_frames return_2d channels_first a sample_rate,
    Forall (fun b => 0 <= b < 256) file ->
    wavread file frame_offset num_frames return_2d channels_first = Ok (a, sample_rate) ->
    (44 <= length file)%nat /\
    fread file 0 4 = b_RIFF /\ fread file 8 4 = b_WAVE /\ fread file 12 4 = b_fmt /\
    field file 16 4 = 16 /\ field file 20 2 = 1 /\
    0 < field file 22 2 /\
    field file 34 2 * field file 24 4 * field file 22 2 = 8 * field file 28 4 /\
    fread file 36 4 = b_data /\
    sample_rate = field file 24 4 /\
    Forall (fun q => (-1 # 1) <= q /\ q < 1 # 1)%Q (elements a).
Proof.
  intros file off nf r2d cf a sr Hb H.
  apply wavread_inv in H as (n & ba & Hh & H).
  destruct Hh as (H1 & H2 & H3 & H4 & H5 & Hn & Hsr & Hba & H6 & H7).
  assert (Hn0 : 0 <= n) by (subst; apply field_nonneg; exact Hb).
  pose proof (read_range _ _ _ _ _ _ _ _ Hb Hn0 H) as Hr.
  apply read_data_inv in H; [|exact Hn0].
  destruct H as (first & count & frames & Hlen & Hpos & _).
  subst n sr. repeat split; auto.
Qed.

(** Not validated: the block alignment.  This file declares 8-bit mono but a
    block alignment of 2 and is decoded as 16-bit samples. *)
Definition bad_align_file : list Z :=
  mk_file 38 1 8000 8000 2 8 2 [1; 2].
Theorem C16_block_align_refuted :
  field bad_align_file 34 2 = 8 /\ field bad_align_file 22 2 = 1 /\
  wavread bad_align_file 0 None false false = Ok (Arr1 [513 # 32768]%Q, 8000).
Proof. repeat split; reflexivity. Qed.

Print Assumptions C13_roundtrip_int16.
Print Assumptions C13_roundtrip_int8.
Print Assumptions C13_roundtrip_float.
Print Assumptions C13_same_layout.
Print Assumptions C14_header.
Print Assumptions C15_partial_read.
Print Assumptions C15_read_rest.
Print Assumptions C15_negative_count_rejected.
Print Assumptions C15_negative_offset_refuted.
Print Assumptions C16_accepts_only_consistent.
Print Assumptions C16_block_align_refuted.
