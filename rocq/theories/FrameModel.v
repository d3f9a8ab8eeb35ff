(** Model of the message frame, its checksum, the peer profile, the capability handshake and
    the negotiation of [crates/logicaffeine_compile/src/concurrency/marshal.rs], and of the
    stream framing of [crates/logicaffeine_compile/src/concurrency/stream.rs]. Bytes are [Z]
    values; a reader with [buf, pos] is a function of the remaining bytes. The varint and
    string codecs of marshal.rs:3189-3238 are, line for line, those of [data/src/wire.rs]
    and are taken from [WireModel]. *)
From Coq Require Import ZArith List.
From stdpp Require Import list.
From Verif Require Import MachInt Utf8 WireModel.
Open Scope Z_scope.

(** A byte. *)
Definition is_byte (b : Z) : Prop := 0 <= b < 256.

(** marshal.rs [WireCodec], [WireIntegrity], [WireCompression]. *)
Inductive codec := Native | Json.
Inductive integrity := Raw | Checked.
Inductive compression := CNone | Deflate | Lz4 | Zstd.

(** marshal.rs:520-524. *)
Definition H_CHECKED : Z := 1.
Definition H_COMPRESSED : Z := 2.
Definition H_CODEC : Z := 12.
Definition H_JSON : Z := 16.
Definition H_KNOWN : Z := Z.lor (Z.lor (Z.lor H_CHECKED H_COMPRESSED) H_CODEC) H_JSON.

(** marshal.rs:2856-2862 [compression_id]. *)
Definition compression_id (z : compression) : Z := match z with CNone | Deflate => 0 | Lz4 => 1 | Zstd => 2 end.

(** marshal.rs:5790-5795 [header]. *)
Definition header (c : codec) (i : integrity) (z : compression) : Z :=
  let c := match c with Json => H_JSON | Native => 0 end in
  let i := match i with Checked => H_CHECKED | Raw => 0 end in
  let z := match z with CNone => 0 | z => Z.lor H_COMPRESSED (Z.shiftl (compression_id z) 2) end in
  Z.lor (Z.lor c i) z.

(** marshal.rs:5867-5877 [fnv1a_64]. *)
Definition FNV_BASE : Z := 0xcbf29ce484222325.
Definition FNV_PRIME : Z := 0x100000001b3.
Definition fnv_step (h b : Z) : Z := wrap64 (Z.lxor h b * FNV_PRIME).
Definition fnv1a_64 (bs : list Z) : Z := fold_left fnv_step bs FNV_BASE.

(** marshal.rs:5797-5816 [frame]. *)
Definition frame (c : codec) (i : integrity) (z : compression) (body : list Z) : list Z :=
  match i with
  | Raw => header c i z :: body
  | Checked => header c i z :: le_bytes 8 (fnv1a_64 body) ++ body
  end.

(** marshal.rs:5826-5861 [unframe_with]; [!H_KNOWN] is the complement within a byte. *)
Definition unframe_with (bs : list Z) (verify : bool) : option (codec * compression * list Z) :=
  match bs with
  | [] => None
  | h :: rest =>
      if negb (Z.land h (255 - H_KNOWN) =? 0) then None
      else
        let c := if negb (Z.land h H_JSON =? 0) then Json else Native in
        match (if Z.land h H_COMPRESSED =? 0 then Some CNone
               else match Z.shiftr (Z.land h H_CODEC) 2 with
                    | 0 => Some Deflate
                    | 1 => Some Lz4
                    | 2 => Some Zstd
                    | _ => None
                    end) with
        | None => None
        | Some z =>
            if negb (Z.land h H_CHECKED =? 0) then
              if (length rest <? 8)%nat then None
              else if verify && negb (fnv1a_64 (drop 8 rest) =? from_le (take 8 rest)) then None
              else Some (c, z, drop 8 rest)
            else Some (c, z, rest)
        end
  end.
(** marshal.rs:5863-5865 [unframe]. *)
Definition unframe (bs : list Z) : option (codec * compression * list Z) := unframe_with bs true.

(** marshal.rs:703-737 [ReceiveLimits] ([usize] fields are 64 bits wide). *)
Record limits := Limits { max_bytes : Z; max_depth : Z; max_elements : Z; max_string_bytes : Z; accept_computed : bool }.
(** marshal.rs:763-773. *)
Definition FEAT_DEFLATE : Z := 1.
Definition FEAT_LZ4 : Z := 2.
Definition FEAT_ZSTD : Z := 4.
Definition FEAT_TYPE_ID : Z := 8.
Definition FEAT_COMPUTED : Z := 16.
Definition FEAT_FEC : Z := 32.
(** marshal.rs:782-810 [PeerProfile]. *)
Record profile := Profile { lims : limits; registry_epoch : Z; features : Z }.
Definition default_limits : limits := Limits (Z.shiftl 64 20) 64 (Z.shiftl 1 24) (Z.shiftl 1 24) true.
Definition default_profile : profile :=
  Profile default_limits 0 (Z.lor (Z.lor (Z.lor (Z.lor (Z.lor FEAT_DEFLATE FEAT_LZ4) FEAT_ZSTD) FEAT_TYPE_ID) FEAT_COMPUTED) FEAT_FEC).
Definition conservative : profile := Profile default_limits 0 0.

(** marshal.rs:812 and 816-828 [encode_peer_profile]. *)
Definition PEER_PROFILE_VERSION : Z := 1.
Definition encode_peer_profile (p : profile) : list Z :=
  PEER_PROFILE_VERSION :: write_uvarint (max_bytes (lims p)) ++ write_uvarint (max_depth (lims p)) ++
  write_uvarint (max_elements (lims p)) ++ write_uvarint (max_string_bytes (lims p)) ++
  (if accept_computed (lims p) then 1 else 0) :: write_uvarint (registry_epoch p) ++ write_uvarint (features p).

(** marshal.rs:832-853 [decode_peer_profile]; the remaining bytes, which the code ignores, are
    returned as well so that the proofs can speak of them. [as u32] drops the high bits. *)
Definition decode_profile_rest (bs : list Z) : option (profile * list Z) :=
  match bs with
  | [] => None
  | v :: bs =>
      if negb (v =? PEER_PROFILE_VERSION) then None
      else match read_uvarint bs with None => None | Some (mb, bs) =>
           match read_uvarint bs with None => None | Some (md, bs) =>
           match read_uvarint bs with None => None | Some (me, bs) =>
           match read_uvarint bs with None => None | Some (ms, bs) =>
           match bs with [] => None | a :: bs =>
           match read_uvarint bs with None => None | Some (ep, bs) =>
           match read_uvarint bs with None => None | Some (fe, bs) =>
             Some (Profile (Limits mb md me ms (negb (a =? 0))) ep (fe mod 2 ^ 32), bs)
           end end end end end end end
  end.
Definition decode_peer_profile (bs : list Z) : option profile := option_map fst (decode_profile_rest bs).

(** marshal.rs:898 and 903-909 [make_handshake_frame]. *)
Definition HANDSHAKE_MAGIC : list Z := [76; 67; 72; 83].
Definition make_handshake_frame (from : list Z) (p : profile) : list Z :=
  HANDSHAKE_MAGIC ++ write_str from ++ encode_peer_profile p.

(** [strip_prefix] of a byte slice. *)
Fixpoint strip_prefix (pre bs : list Z) : option (list Z) :=
  match pre, bs with
  | [], _ => Some bs
  | p :: pre, b :: bs => if p =? b then strip_prefix pre bs else None
  | _ :: _, [] => None
  end.
(** marshal.rs:914-920 [parse_handshake_frame]. *)
Definition parse_handshake_frame (bs : list Z) : option (list Z * profile) :=
  match strip_prefix HANDSHAKE_MAGIC bs with
  | None => None
  | Some rest =>
      match read_str rest with
      | None => None
      | Some (from, rest) =>
          match decode_peer_profile rest with None => None | Some p => Some (from, p) end
      end
  end.

(** marshal.rs:855-893 [Negotiated] and [negotiate]. *)
Record negotiated := Negotiated { use_type_id : bool; may_send_computed : bool; chosen : compression; peer_max_bytes : Z }.
Definition negotiate (mine theirs : profile) : negotiated :=
  let both bit := negb (Z.land (features mine) bit =? 0) && negb (Z.land (features theirs) bit =? 0) in
  let z := if both FEAT_ZSTD then Zstd else if both FEAT_LZ4 then Lz4 else if both FEAT_DEFLATE then Deflate else CNone in
  Negotiated
    (both FEAT_TYPE_ID && negb (registry_epoch mine =? 0) && (registry_epoch mine =? registry_epoch theirs))
    (accept_computed (lims theirs) && both FEAT_COMPUTED) z (max_bytes (lims theirs)).

(** The other three kinds of message a receiver sorts out by their first byte:
    marshal.rs:1736 and 1757-1763 [peek_stream_sender]; fec.rs:220-222 and 243-246
    [parse_shard], here only its test for being a shard at all; channel.rs:23-30 and
    [open]'s test of magic and version. *)
Definition STREAM_MAGIC : Z := 0xFD.
Definition peek_stream_sender (bs : list Z) : option (list Z) :=
  match bs with
  | b :: rest => if b =? STREAM_MAGIC then option_map fst (read_str rest) else None
  | [] => None
  end.
Definition FEC_MAGIC : Z := 0xFE.
Definition FEC_HEADER_LEN : nat := 19.
Definition is_shard (bs : list Z) : bool :=
  match bs with b :: _ => (FEC_HEADER_LEN <=? length bs)%nat && (b =? FEC_MAGIC) | [] => false end.

(** stream.rs:14-29 [frame_for_stream]: its own varint loop, a length of at most 64 bits. *)
Fixpoint stream_len (n : nat) (len : Z) : list Z :=
  match n with
  | O => []
  | S n =>
      let byte := Z.land len 127 in
      let len := Z.shiftr len 7 in
      if len =? 0 then [byte] else Z.lor byte 128 :: stream_len n len
  end.
Definition frame_for_stream (body : list Z) : list Z := stream_len 10 (Z.of_nat (length body)) ++ body.

(** stream.rs:89-104 [read_uvarint]: the value and the bytes after it. *)
Fixpoint stream_uvarint (value shift : Z) (bs : list Z) : option (Z * list Z) :=
  match bs with
  | [] => None
  | b :: bs =>
      let value := Z.lor value (wrap64 (Z.shiftl (Z.land b 127) shift)) in
      if Z.land b 128 =? 0 then Some (value, bs)
      else let shift := shift + 7 in
           if 64 <=? shift then None else stream_uvarint value shift bs
  end.

(** stream.rs:62-84 [drain_frames]: the frames handed to the callback and the bytes kept. The
    [checked_add] of the code fails only when the sum exceeds 64 bits; a sum that large is
    beyond the buffer as well, and either way the loop stops. Every round consumes a byte,
    so the length of the buffer bounds the rounds. *)
Fixpoint drain (n : nat) (buf : list Z) : list (list Z) * list Z :=
  match n with
  | O => ([], buf)
  | S n =>
      match stream_uvarint 0 0 buf with
      | None => ([], buf)
      | Some (len, rest) =>
          if Z.of_nat (length rest) <? len then ([], buf)
          else
            let '(fs, kept) := drain n (drop (Z.to_nat len) rest) in
            (take (Z.to_nat len) rest :: fs, kept)
      end
  end.
Definition drain_frames (buf : list Z) : list (list Z) * list Z := drain (length buf) buf.

(** stream.rs:44-60: a deframer is the bytes not yet delivered; [push] appends a chunk. One
    round of a receiver pushes a chunk and drains; a receiver does so for each chunk. *)
Definition push (buf chunk : list Z) : list Z := buf ++ chunk.
Fixpoint receive (buf : list Z) (chunks : list (list Z)) : list (list Z) * list Z :=
  match chunks with
  | [] => ([], buf)
  | chunk :: chunks =>
      let '(fs, buf) := drain_frames (push buf chunk) in
      let '(fs', buf) := receive buf chunks in
      (fs ++ fs', buf)
  end.
