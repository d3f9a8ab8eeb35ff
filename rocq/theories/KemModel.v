(* The ML-KEM serialization and sampling of
   /repo/crates/logicaffeine_system/src/ntt.rs: compression, bit packing,
   centred binomial noise and rejection sampling.

   Integers are Z; the wrap-around of u64 is written out.  [None] is a panic,
   except where said otherwise. *)
From Coq Require Import ZArith List Lia Bool.
Import ListNotations.
From Verif Require Import NttModel.
Open Scope Z_scope.

Definition u64 (x : Z) : Z := x mod 2 ^ 64.

(* ---- compression; [d] is the number of bits, below 64: a shift by more
   panics in a debug build ---- *)

(* ntt.rs:862-871 (mlkem_compress_raw), one coefficient *)
Definition compress1 (d x : Z) : Z :=
  let mask := 2 ^ d - 1 in
  let x := x mod Q in
  Z.land (u64 (u64 (Z.shiftl x d) + Q / 2) / Q) mask.
Definition mlkem_compress (coeffs : list Z) (d : Z) : list Z := map (compress1 d) coeffs.

(* ntt.rs:874-880 (mlkem_decompress_raw); [y as u64] *)
Definition decompress1 (d y : Z) : Z :=
  let denom := 2 ^ d in
  Z.shiftr (u64 (u64 (u64 y * Q) + denom / 2)) d.
Definition mlkem_decompress (coeffs : list Z) (d : Z) : list Z := map (decompress1 d) coeffs.

(* ntt.rs:424-430, 431-437: the Word16 forms, which keep the low 16 bits *)
Definition mlkem_compress_w16 (coeffs : list Z) (d : Z) : list Z :=
  map (fun w => u16 (Z.land (u64 (u64 (Z.shiftl w d) + Q / 2) / Q) (2 ^ d - 1))) coeffs.
Definition mlkem_decompress_w16 (coeffs : list Z) (d : Z) : list Z :=
  map (fun w => u16 (Z.shiftr (u64 (u64 (w * Q) + 2 ^ d / 2)) d)) coeffs.

(* ---- bit packing ---- *)

(* ntt.rs:893-897: emit whole bytes; the fuel is above the number of staged bits *)
Fixpoint drain (fuel : nat) (acc nbits : Z) (out : list Z) : Z * Z * list Z :=
  match fuel with
  | O => (acc, nbits, out)
  | S f =>
    if 8 <=? nbits then drain f (Z.shiftr acc 8) (nbits - 8) (out ++ [Z.land acc 255])
    else (acc, nbits, out)
  end.

(* ntt.rs:889-903 (and 441-455): the loop over the fields, already masked *)
Fixpoint pack (d : Z) (fields : list Z) (acc nbits : Z) (out : list Z) : list Z :=
  match fields with
  | [] => if 0 <? nbits then out ++ [Z.land acc 255] else out
  | v :: fields =>
    let acc := Z.lor acc (u64 (Z.shiftl v nbits)) in
    let '(acc, nbits, out) := drain 80 acc (nbits + d) out in
    pack d fields acc nbits out
  end.

(* ntt.rs:885-904 (mlkem_byte_encode_raw) *)
Definition mlkem_byte_encode (coeffs : list Z) (d : Z) : list Z :=
  pack d (map (fun c => Z.land (c mod 2 ^ d) (2 ^ d - 1)) coeffs) 0 0 [].
(* ntt.rs:438-455 *)
Definition mlkem_byte_encode_w16 (coeffs : list Z) (d : Z) : list Z :=
  pack d (map (fun w => Z.land w (2 ^ d - 1)) coeffs) 0 0 [].

(* ntt.rs:917-921: read bytes until [d] bits are staged *)
Fixpoint fill (fuel : nat) (bytes : list Z) (d acc nbits : Z) (bi : nat) : option (Z * Z * nat) :=
  match fuel with
  | O => None
  | S f =>
    if nbits <? d then
      match nth_error bytes bi with
      | Some b => fill f bytes d (Z.lor acc (u64 (Z.shiftl (b mod 256) nbits))) (nbits + 8) (S bi)
      | None => None
      end
    else Some (acc, nbits, bi)
  end.

(* ntt.rs:916-926 *)
Fixpoint unpack (n : nat) (bytes : list Z) (d acc nbits : Z) (bi : nat) : option (list Z) :=
  match n with
  | O => Some []
  | S n' =>
    match fill 80 bytes d acc nbits bi with
    | None => None
    | Some (acc, nbits, bi) =>
      let v := Z.land acc (2 ^ d - 1) in
      match unpack n' bytes d (Z.shiftr acc d) (nbits - d) bi with
      | None => None
      | Some rest => Some ((if d =? 12 then v mod Q else v) :: rest)
      end
    end
  end.

(* ntt.rs:909-928 (mlkem_byte_decode_raw); d = 0 divides by zero.  The Word16
   form, ntt.rs:456-474, is the same loop on bytes and keeps 16 bits of [v] *)
Definition mlkem_byte_decode (bytes : list Z) (d : Z) : option (list Z) :=
  if d =? 0 then None
  else unpack (Z.to_nat (Z.of_nat (length bytes) * 8 / d)) bytes d 0 0 0.

(* ---- centred binomial noise ---- *)

Definition byte (buf : list Z) (i : nat) : Z := nth i buf 0.

(* ntt.rs:806-815: one group of eight coefficients from four bytes *)
Definition cbd2_group (buf : list Z) (i : nat) : list Z :=
  let t := byte buf (4 * i) + 256 * (byte buf (4 * i + 1) + 256 * (byte buf (4 * i + 2) + 256 * byte buf (4 * i + 3))) in
  let d := Z.land t 0x55555555 + Z.land (Z.shiftr t 1) 0x55555555 in
  map (fun j => let j := Z.of_nat j in
         Z.land (Z.shiftr d (4 * j)) 3 - Z.land (Z.shiftr d (4 * j + 2)) 3) (seq 0 8).
(* ntt.rs:803-817 *)
Definition cbd_eta2 (buf : list Z) : option (list Z) :=
  if (length buf =? 128)%nat then Some (flat_map (cbd2_group buf) (seq 0 32)) else None.

(* ntt.rs:823-834 *)
Definition cbd3_group (buf : list Z) (i : nat) : list Z :=
  let t := Z.lor (Z.lor (byte buf (3 * i)) (Z.shiftl (byte buf (3 * i + 1)) 8)) (Z.shiftl (byte buf (3 * i + 2)) 16) in
  let d := Z.land t 0x249249 + Z.land (Z.shiftr t 1) 0x249249 + Z.land (Z.shiftr t 2) 0x249249 in
  map (fun j => let j := Z.of_nat j in
         Z.land (Z.shiftr d (6 * j)) 7 - Z.land (Z.shiftr d (6 * j + 3)) 7) (seq 0 4).
(* ntt.rs:820-836 *)
Definition cbd_eta3 (buf : list Z) : option (list Z) :=
  if (length buf =? 192)%nat then Some (flat_map (cbd3_group buf) (seq 0 64)) else None.

(* ntt.rs:838-846, 850-856 *)
Definition mlkem_cbd2 (buf : list Z) : option (list Z) := cbd_eta2 (map (fun x => x mod 256) buf).
Definition mlkem_cbd3 (buf : list Z) : option (list Z) := cbd_eta3 (map (fun x => x mod 256) buf).

(* ---- rejection sampling ---- *)

(* the two candidates of three bytes, ntt.rs:482-483 and 970-972 *)
Definition cand1 (b0 b1 : Z) : Z := b0 + 256 * (b1 mod 16).
Definition cand2 (b1 b2 : Z) : Z := b1 / 16 + 16 * b2.

(* ntt.rs:973-978, 484-489: keep what is below q, up to [want] *)
Definition keep (want : nat) (out : list Z) (b0 b1 b2 : Z) : list Z :=
  let out := if cand1 b0 b1 <? Q then out ++ [cand1 b0 b1] else out in
  if (cand2 b1 b2 <? Q) && (length out <? want)%nat then out ++ [cand2 b1 b2] else out.

(* ntt.rs:963-982 (try_sample_ntt); [None] is its None *)
Fixpoint try_sample (want : nat) (out stream : list Z) : option (list Z) :=
  if (length out <? want)%nat then
    match stream with
    | b0 :: b1 :: b2 :: stream => try_sample want (keep want out b0 b1 b2) stream
    | _ => None
    end
  else Some out.
(* ntt.rs:984-987 (mlkem_sample_ntt_raw) *)
Definition mlkem_sample_ntt (stream : list Z) : option (list Z) :=
  try_sample 256 [] (map (fun x => x mod 256) stream).

(* ntt.rs:477-492 (reject_sample_block), a block being 168 bytes *)
Fixpoint reject_block (out block : list Z) : list Z :=
  match block with
  | b0 :: b1 :: b2 :: block =>
    if (length out <? 256)%nat then reject_block (keep 256 out b0 b1 b2) block else out
  | _ => out
  end.

(* ntt.rs:583-612 (mlkem_sample_a_w16, and mlkem_sample_a_raw 993-1029): squeeze
   block after block.  The extendable-output function, Keccak, is not modelled:
   [squeeze n] is its n-th block.  The loop has no bound in the code; [None] here
   is that the blocks given by the fuel were not enough. *)
Fixpoint sample_a (reject : list Z -> list Z -> list Z) (squeeze : nat -> list Z)
    (fuel n : nat) (out : list Z) : option (list Z) :=
  match fuel with
  | O => None
  | S f =>
    let out := reject out (squeeze n) in
    if (256 <=? length out)%nat then Some (firstn 256 out)
    else sample_a reject squeeze f (S n) out
  end.

(* ntt.rs:502-515: entry m of the shuffle table, [pos] accepted lanes so far;
   0xff selects zero *)
Fixpoint table_entry (m : Z) (lanes : list Z) : list Z :=
  match lanes with
  | [] => []
  | l :: lanes =>
    if Z.land (Z.shiftr m l) 1 =? 1 then (l * 2) :: (l * 2 + 1) :: table_entry m lanes
    else table_entry m lanes
  end.
Definition rej_table (m : Z) : list Z :=
  firstn 16 (table_entry m [0;1;2;3;4;5;6;7] ++ repeat 255 16).

(* _mm_shuffle_epi8 on sixteen bytes *)
Definition shuffle8 (v idx : list Z) : list Z :=
  map (fun k => if Z.testbit k 7 then 0 else byte v (Z.to_nat (Z.land k 15))) idx.
(* sixteen-bit lanes from bytes and back *)
Fixpoint lanes_of (v : list Z) : list Z :=
  match v with lo :: hi :: v => (lo + 256 * hi) :: lanes_of v | _ => [] end.
Definition bytes_of (l : list Z) : list Z := flat_map (fun x => [x mod 256; x / 256]) l.
(* packs and movemask: bit i is set when lane i is all ones *)
Fixpoint movemask (good : list bool) : Z :=
  match good with [] => 0 | b :: good => (if b then 1 else 0) + 2 * movemask good end.
Fixpoint count_ones (fuel : nat) (m : Z) : nat :=
  match fuel with O => 0 | S f => (Z.to_nat (m mod 2) + count_ones f (m / 2))%nat end.

(* ntt.rs:551-562: one half, eight candidates *)
Definition half_x8 (out cand : list Z) : list Z :=
  if (256 <=? length out)%nat then out
  else
    let m := movemask (map (fun c => c <? Q) cand) in
    let packed := lanes_of (shuffle8 (bytes_of cand) (rej_table m)) in
    let n := Nat.min (count_ones 8 m) (256 - length out) in
    out ++ firstn n packed.

(* ntt.rs:528-545: the sixteen candidates of a 24-byte group; the low half is
   shuffled out of bytes 0..15, the high half out of bytes 8..23 *)
Definition idx_lo : list Z := [0;1; 1;2; 3;4; 4;5; 6;7; 7;8; 9;10; 10;11].
Definition idx_hi : list Z := [4;5; 5;6; 7;8; 8;9; 10;11; 11;12; 13;14; 14;15].
Definition spread (half : list Z) (idx : list Z) : list Z :=
  let f := lanes_of (shuffle8 half idx) in
  map (fun '(i, x) => Z.land (if Nat.odd i then Z.shiftr x 4 else x) 4095) (combine (seq 0 8) f).

(* ntt.rs:547-565: the loop over the seven groups *)
Fixpoint reject_groups (n : nat) (out block : list Z) : list Z :=
  match n with
  | O => out
  | S n' =>
    if (length out <? 256)%nat then
      let lo := spread (firstn 16 block) idx_lo in
      let hi := spread (firstn 16 (skipn 8 block)) idx_hi in
      reject_groups n' (half_x8 (half_x8 out lo) hi) (skipn 24 block)
    else out
  end.
(* ntt.rs:524-567 *)
Definition reject_block_avx2 (out block : list Z) : list Z := reject_groups 7 out block.
