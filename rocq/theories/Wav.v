(** Model of ssspy/io/__init__.py (wavread, wavwrite; lines 8-226).

    A file is a list of bytes (integers in 0..255).  Samples are integers,
    floating point samples are rationals (every finite float is one).
    [numpy.memmap] is modelled by its contract: it fails unless the requested
    region lies inside the file and the dtype exists.
    Simplifications: the file system is not modelled (wavwrite returns the
    bytes of the finished file; when it raises after [open] the real file is
    left truncated); [float.astype("<i2")] outside the int16 range is the
    unspecified argument [overflow]. *)
From Coq Require Import List ZArith QArith Lia Bool.
Import ListNotations.
Local Open Scope Z_scope.

Inductive wav_exn :=
| NotImplementedErr | StructErr | ValueErr | ZeroDivErr | TypeErr | AssertionErr.

Inductive result (A : Type) := Ok (a : A) | Err (e : wav_exn).
Arguments Ok {A} a.
Arguments Err {A} e.
Definition bind {A B} (r : result A) (k : A -> result B) : result B :=
  match r with Ok a => k a | Err e => Err e end.
Notation "x <- r ;; k" := (bind r (fun x => k)) (at level 61, r at next level, right associativity).
Notation "' p <- r ;; k" := (bind r (fun p => k))
  (at level 61, p pattern, r at next level, right associativity).
Definition guard (b : bool) (e : wav_exn) : result unit := if b then Ok tt else Err e.

(** little-endian integers: struct formats "<H" (k=2) and "<I" (k=4) *)
Fixpoint le_bytes (k : nat) (x : Z) : list Z :=
  match k with O => [] | S k' => x mod 256 :: le_bytes k' (x / 256) end.
Fixpoint le_val (bs : list Z) : Z :=
  match bs with [] => 0 | b :: bs' => b + 256 * le_val bs' end.
(** two's complement value of a "<i{k}" sample *)
Definition signed_val (bs : list Z) : Z :=
  let k := Z.of_nat (length bs) in
  let v := le_val bs in
  if v <? 2 ^ (8 * k - 1) then v else v - 2 ^ (8 * k).

(** ASCII literals of the source *)
Definition b_RIFF : list Z := [82; 73; 70; 70].
Definition b_WAVE : list Z := [87; 65; 86; 69].
Definition b_fmt : list Z := [102; 109; 116; 32].
Definition b_data : list Z := [100; 97; 116; 97].

Definition bytes_eqb (a b : list Z) : bool :=
  if list_eq_dec Z.eq_dec a b then true else false.

(* ------------------------------------------------------------------ *)
(** * Reading *)

(** [f.read(n)] at position [pos] *)
Definition fread (file : list Z) (pos n : nat) : list Z := firstn n (skipn pos file).

(** [struct.unpack("<I", b)[0]] and "<H" *)
Definition unpack (k : nat) (b : list Z) : result Z :=
  if Nat.eqb (length b) k then Ok (le_val b) else Err StructErr.

(** lines 124-145; returns n_channels, sample_rate, block_align.  The five
    fields of "<HIIHH" (line 138) are read as one 14-byte block. *)
Definition read_fmt_chunk (file : list Z) (pos : nat) : result (Z * Z * Z) :=
  fmt_chunk_size <- unpack 4 (fread file pos 4) ;;
  _ <- guard (fmt_chunk_size =? 16) NotImplementedErr ;;
  fmt <- unpack 2 (fread file (pos + 4) 2) ;;
  _ <- guard (fmt =? 1) NotImplementedErr ;;
  let b := fread file (pos + 6) 14 in
  _ <- guard (Nat.eqb (length b) 14) StructErr ;;
  let n_channels := le_val (firstn 2 b) in
  let sample_rate := le_val (firstn 4 (skipn 2 b)) in
  let byte_rate := le_val (firstn 4 (skipn 6 b)) in
  let block_align := le_val (firstn 2 (skipn 10 b)) in
  let bits_per_sample := le_val (firstn 2 (skipn 12 b)) in
  _ <- guard (bits_per_sample * sample_rate * n_channels =? 8 * byte_rate) ValueErr ;;
  Ok (n_channels, sample_rate, block_align).

(** cut a byte string into [count] samples of [k] bytes *)
Fixpoint samples (k count : nat) (bs : list Z) : list Z :=
  match count with
  | O => []
  | S c => signed_val (firstn k bs) :: samples k c (skipn k bs)
  end.

(** [np.memmap(f, dtype="<i{bps}", mode="c", offset=start, shape=(count,))] *)
Definition memmap (file : list Z) (bps start count : Z) : result (list Z) :=
  _ <- guard ((bps =? 1) || (bps =? 2) || (bps =? 4) || (bps =? 8)) TypeErr ;;
  _ <- guard ((0 <=? start) && (0 <=? count)) ValueErr ;;
  _ <- guard (start + bps * count <=? Z.of_nat (length file)) ValueErr ;;
  Ok (samples (Z.to_nat bps) (Z.to_nat count) (skipn (Z.to_nat start) file)).

(** [data.reshape(-1, n)] *)
Fixpoint chunks {A} (n count : nat) (l : list A) : list (list A) :=
  match count with
  | O => []
  | S c => firstn n l :: chunks n c (skipn n l)
  end.
Definition reshape {A} (n : nat) (l : list A) : result (list (list A)) :=
  if Nat.eqb (length l mod n) 0 then Ok (chunks n (length l / n) l) else Err ValueErr.

(** [transpose(1, 0)] of an array with [cols] columns *)
Definition transpose {A} (d : A) (cols : nat) (rows : list (list A)) : list (list A) :=
  map (fun j => map (fun r => nth j r d) rows) (seq 0 cols).

Inductive ndarray (A : Type) := Arr1 (xs : list A) | Arr2 (cols : nat) (rows : list (list A)).
Arguments Arr1 {A} xs.
Arguments Arr2 {A} cols rows.

(** lines 178-188 *)
Definition shape_data (n_channels : nat) (return_2d channels_first : bool) (data : list Z)
  : result (ndarray Z) :=
  if (1 <? Z.of_nat n_channels) || return_2d then
    rows <- reshape n_channels data ;;
    Ok (if channels_first
        then Arr2 (length rows) (transpose 0 n_channels rows)
        else Arr2 n_channels rows)
  else Ok (Arr1 data).

(** [data / vmax], line 190-192 *)
Definition scale (vmax : positive) (a : ndarray Z) : ndarray Q :=
  match a with
  | Arr1 xs => Arr1 (map (fun x => x # vmax)%Q xs)
  | Arr2 c rows => Arr2 c (map (map (fun x => x # vmax)%Q) rows)
  end.
Definition vmax_of (bps : Z) : positive := Z.to_pos (2 ^ (8 * bps - 1)).

(** lines 148-192; [None] for an optional flag behaves like [false] *)
Definition read_data_chunk (file : list Z) (pos : nat) (n_channels block_align frame_offset : Z)
  (num_frames : option Z) (return_2d channels_first : bool) : result (ndarray Q) :=
  data_chunk_size <- unpack 4 (fread file pos 4) ;;
  _ <- guard (negb (n_channels =? 0)) ZeroDivErr ;;
  let bps := block_align / n_channels in
  _ <- guard (negb (bps =? 0)) ZeroDivErr ;;
  let n_full := data_chunk_size / bps in
  let start := Z.of_nat pos + 4 + block_align * frame_offset in
  let max_frame := data_chunk_size / block_align in
  '(shape, end_frame) <-
     match num_frames with
     | None => Ok (n_full - n_channels * frame_offset, data_chunk_size / block_align)
     | Some n => if 0 <=? n then Ok (n_channels * n, frame_offset + n) else Err ValueErr
     end ;;
  _ <- guard (end_frame <=? max_frame) ValueErr ;;
  data <- memmap file bps start shape ;;
  a <- shape_data (Z.to_nat n_channels) return_2d channels_first data ;;
  Ok (scale (vmax_of bps) a).

(** lines 8-53 *)
Definition wavread (file : list Z) (frame_offset : Z) (num_frames : option Z)
  (return_2d channels_first : bool) : result (ndarray Q * Z) :=
  _ <- guard (bytes_eqb (fread file 0 4) b_RIFF) NotImplementedErr ;;
  _ <- unpack 4 (fread file 4 4) ;;
  _ <- guard (bytes_eqb (fread file 8 4) b_WAVE) NotImplementedErr ;;
  _ <- guard (bytes_eqb (fread file 12 4) b_fmt) NotImplementedErr ;;
  '(n_channels, sample_rate, block_align) <- read_fmt_chunk file 16 ;;
  _ <- guard (bytes_eqb (fread file 36 4) b_data) NotImplementedErr ;;
  data <- read_data_chunk file 40 n_channels block_align frame_offset num_frames
            return_2d channels_first ;;
  Ok (data, sample_rate).

(* ------------------------------------------------------------------ *)
(** * Writing *)

(** the waveform argument: dtype with the values, 1-D, 2-D or higher *)
Inductive waveform :=
| WFloat (a : ndarray Q)   (* f2, f4, f8, f16 *)
| WInt8 (a : ndarray Z)
| WInt16 (a : ndarray Z)
| WOther                   (* any other dtype *)
| WHighDim.                (* ndim 0 or > 2 *)

(** lines 64-78: frames x channels layout, flattened row-major later *)
Definition to_frames {A} (d : A) (channels_first : bool) (a : ndarray A)
  : result (nat * list A) :=
  match a with
  | Arr1 xs => Ok (1%nat, xs)
  | Arr2 cols rows =>
      let '(c, rs) := if channels_first
                      then (length rows, transpose d cols rows)
                      else (cols, rows) in
      if orb (Nat.ltb c 1) (Nat.ltb 2 c) then Err ValueErr else Ok (c, List.concat rs)
  end.

Section Write.
Variable overflow : Q -> Z.

(** lines 84-85: multiply by 2^15 and truncate towards zero *)
Definition float_to_i2 (x : Q) : Z :=
  let y := (x * 32768)%Q in
  let t := Z.quot (Qnum y) (Zpos (Qden y)) in
  if (-32768 <=? t) && (t <=? 32767) then t else overflow y.

(** lines 64-91: channel count, bits per sample, samples in file order *)
Definition prepare (w : waveform) (channels_first : bool) : result (nat * Z * list Z) :=
  match w with
  | WFloat a => '(c, xs) <- to_frames 0%Q channels_first a ;; Ok (c, 16, map float_to_i2 xs)
  | WInt8 a => '(c, xs) <- to_frames 0 channels_first a ;; Ok (c, 8, xs)
  | WInt16 a => '(c, xs) <- to_frames 0 channels_first a ;; Ok (c, 16, xs)
  | WOther => Err ValueErr
  | WHighDim => Err ValueErr
  end.

(** [struct.pack] of an unsigned integer in [k] bytes *)
Definition pack (k : nat) (x : Z) : result (list Z) :=
  if (0 <=? x) && (x <? 256 ^ Z.of_nat k) then Ok (le_bytes k x) else Err StructErr.

(** lines 195-213 *)
Definition write_fmt_chunk (n_channels sample_rate byte_rate block_align bits : Z)
  : result (list Z) :=
  a <- pack 4 16 ;;
  b <- pack 2 1 ;;
  c1 <- pack 2 n_channels ;;
  c2 <- pack 4 sample_rate ;;
  c3 <- pack 4 byte_rate ;;
  c4 <- pack 2 block_align ;;
  c5 <- pack 2 bits ;;
  Ok (b_fmt ++ a ++ b ++ c1 ++ c2 ++ c3 ++ c4 ++ c5)%list.

(** lines 216-226; [nbytes] = number of samples * itemsize, samples are stored
    little-endian two's complement *)
Definition write_data_chunk (bits : Z) (xs : list Z) : result (list Z) :=
  let k := Z.to_nat (bits / 8) in
  let nbytes := Z.of_nat (length xs) * (bits / 8) in
  n <- pack 4 nbytes ;;
  Ok (b_data ++ n ++ flat_map (le_bytes k) xs)%list.

(** lines 56-121: bytes of the finished file *)
Definition wavwrite (path_ok : bool) (w : waveform) (sample_rate : Z) (channels_first : bool)
  : result (list Z) :=
  _ <- guard path_ok AssertionErr ;;
  '(c, bits, xs) <- prepare w channels_first ;;
  let byte_rate := (bits * sample_rate * Z.of_nat c) / 8 in
  _ <- guard (negb (sample_rate =? 0)) ZeroDivErr ;;
  let block_align := byte_rate / sample_rate in
  fmt <- write_fmt_chunk (Z.of_nat c) sample_rate byte_rate block_align bits ;;
  data <- write_data_chunk bits xs ;;
  let body := (b_WAVE ++ fmt ++ data)%list in
  size <- pack 4 (Z.of_nat (length body) + 8 - 8) ;;
  Ok (b_RIFF ++ size ++ body)%list.
End Write.
