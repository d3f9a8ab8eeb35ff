(** UUIDs (crates/logicaffeine_base/src/uuid.rs): layouts, text form and its two implementations. A byte is an integer
    from 0 to 255, a UUID the list of its 16 bytes. *)
From Coq Require Import ZArith List Bool Lia.
Import ListNotations.
Local Open Scope Z_scope.

Definition byte (b : Z) : Prop := 0 <= b < 256.
(** u128::from_be_bytes and to_be_bytes, and those of u16, u32, u64. *)
Definition from_be (l : list Z) : Z := fold_left (fun a b => a * 256 + b) l 0.
Fixpoint to_be (n : nat) (v : Z) : list Z := match n with O => [] | S n => (v / 256 ^ Z.of_nat n) mod 256 :: to_be n v end.
(** uuid.rs:131-137 stamp; [v & !m] is [Z.ldiff v m]. *)
Definition stamp (bytes : list Z) (version : Z) : list Z :=
  let v := from_be bytes in
  let v := Z.lor (Z.ldiff v (Z.shiftl 15 76)) (Z.shiftl version 76) in
  let v := Z.lor (Z.ldiff v (Z.shiftl 3 62)) (Z.shiftl 2 62) in
  to_be 16 v.
(** uuid.rs:110-126. *)
Definition version (u : list Z) : Z := Z.shiftr (nth 6 u 0) 4.
Inductive variant_kind := Ncs | Rfc4122 | Microsoft | Future.
Definition variant (u : list Z) : variant_kind :=
  let b := nth 8 u 0 in
  if Z.land b 128 =? 0 then Ncs else if Z.land b 192 =? 128 then Rfc4122 else if Z.land b 224 =? 192 then Microsoft else Future.
(** uuid.rs:139-172, 194-216. [timestamp] is a u64, [clock_seq] a u16, [node] six bytes. The name-based versions 3 and 5
    stamp a digest, see stamp. *)
Definition new_v1 (timestamp clock_seq : Z) (node : list Z) : list Z :=
  let ts := Z.land timestamp (2 ^ 60 - 1) in
  stamp (to_be 4 (Z.land ts (2 ^ 32 - 1)) ++ to_be 2 (Z.land (Z.shiftr ts 32) (2 ^ 16 - 1)) ++ to_be 2 (Z.land (Z.shiftr ts 48) (2 ^ 12 - 1)) ++ [Z.shiftr clock_seq 8; Z.land clock_seq 255] ++ node) 1.
Definition new_v6 (timestamp clock_seq : Z) (node : list Z) : list Z :=
  let ts := Z.land timestamp (2 ^ 60 - 1) in
  stamp (to_be 4 (Z.land (Z.shiftr ts 28) (2 ^ 32 - 1)) ++ to_be 2 (Z.land (Z.shiftr ts 12) (2 ^ 16 - 1)) ++ to_be 2 (Z.land ts (2 ^ 12 - 1)) ++ [Z.shiftr clock_seq 8; Z.land clock_seq 255] ++ node) 6.
Definition new_v4 (random : list Z) : list Z := stamp random 4.
Definition new_v7 (unix_ms : Z) (random : list Z) : list Z := stamp (skipn 2 (to_be 8 (Z.land unix_ms (2 ^ 48 - 1))) ++ random) 7.
Definition new_v8 (bytes : list Z) : list Z := stamp bytes 8.
(** The derived order: bytes lexicographically. *)
Fixpoint lex_lt (a b : list Z) : bool := match a, b with x :: a, y :: b => (x <? y) || ((x =? y) && lex_lt a b) | _, _ => false end.

(** ** Text, the portable code *)
(** uuid.rs:358-365 hex_val, :342-356 HEX_DECODE. *)
Definition hex_val (c : Z) : option Z :=
  if (48 <=? c) && (c <=? 57) then Some (c - 48) else if (97 <=? c) && (c <=? 102) then Some (c - 97 + 10) else if (65 <=? c) && (c <=? 70) then Some (c - 65 + 10) else None.
Definition hex_decode (c : Z) : Z := match hex_val c with Some v => v | None => 255 end.
(** uuid.rs:369-378 HEX_PAIRS. *)
Definition hex_digit (n : Z) : Z := nth (Z.to_nat n) [48; 49; 50; 51; 52; 53; 54; 55; 56; 57; 97; 98; 99; 100; 101; 102] 0.
Definition hex_pair (b : Z) : list Z := [hex_digit (Z.shiftr b 4); hex_digit (Z.land b 15)].
Definition dash : Z := 45.
Definition range {A} (a b : nat) (l : list A) : list A := firstn (b - a) (skipn a l).
(** uuid.rs:405-428 encode_canonical_scalar. *)
Definition encode_scalar (u : list Z) : list Z :=
  flat_map hex_pair (range 0 4 u) ++ [dash] ++ flat_map hex_pair (range 4 6 u) ++ [dash] ++ flat_map hex_pair (range 6 8 u) ++ [dash] ++ flat_map hex_pair (range 8 10 u) ++ [dash] ++ flat_map hex_pair (range 10 16 u).
Definition dashes (b : list Z) : bool := (nth 8 b 0 =? dash) && (nth 13 b 0 =? dash) && (nth 18 b 0 =? dash) && (nth 23 b 0 =? dash).
(** uuid.rs:289-306, the table decode; [(hi << 4)] is of u8. *)
Definition pairs : list nat := [0; 2; 4; 6; 9; 11; 14; 16; 19; 21; 24; 26; 28; 30; 32; 34]%nat.
Definition decode_scalar (b : list Z) : option (list Z) :=
  let bad := fold_left (fun a p => Z.lor a (Z.lor (hex_decode (nth p b 0)) (hex_decode (nth (S p) b 0)))) pairs 0 in
  let out := map (fun p => Z.lor (Z.shiftl (hex_decode (nth p b 0)) 4 mod 256) (Z.land (hex_decode (nth (S p) b 0)) 15)) pairs in
  if bad <? 16 then Some out else None.

(** ** Text, the SSSE3 code (uuid.rs:433-584). A register is the list of its 16 bytes, lowest first. *)
Fixpoint zip_with {A B C} (f : A -> B -> C) (a : list A) (b : list B) : list C := match a, b with x :: a, y :: b => f x y :: zip_with f a b | _, _ => [] end.
Definition and_si128 := zip_with Z.land.
Definition or_si128 := zip_with Z.lor.
Definition add_epi8 := zip_with (fun a b => (a + b) mod 256).
Definition max_epu8 := zip_with Z.max.
Definition min_epu8 := zip_with Z.min.
Definition cmpeq_epi8 := zip_with (fun a b => if a =? b then 255 else 0).
Fixpoint lanes16 (f : Z -> Z) (l : list Z) : list Z := match l with a :: b :: r => let w := f (a + 256 * b) in w mod 256 :: w / 256 :: lanes16 f r | _ => [] end.
Definition srli_epi16 (l : list Z) (n : Z) : list Z := lanes16 (fun v => v / 2 ^ n) l.
Definition slli_epi16 (l : list Z) (n : Z) : list Z := lanes16 (fun v => v * 2 ^ n mod 65536) l.
Definition shuffle_epi8 (a m : list Z) : list Z := map (fun i => if 128 <=? i then 0 else nth (Z.to_nat (i mod 16)) a 0) m.
Fixpoint interleave (a b : list Z) : list Z := match a, b with x :: a, y :: b => x :: y :: interleave a b | _, _ => [] end.
Definition unpacklo_epi8 (a b : list Z) : list Z := interleave (firstn 8 a) (firstn 8 b).
Definition unpackhi_epi8 (a b : list Z) : list Z := interleave (skipn 8 a) (skipn 8 b).
Definition alignr_epi8 (a b : list Z) (n : nat) : list Z := firstn 16 (skipn n (b ++ a)).
(** maddubs: products of unsigned by signed bytes, summed in pairs with saturation to 16 bits; the second operand here is
    below 128. packus: saturation of signed words to unsigned bytes. *)
Fixpoint maddubs_epi16 (a b : list Z) : list Z := match a, b with x :: x' :: a, y :: y' :: b => Z.max (-32768) (Z.min 32767 (x * y + x' * y')) :: maddubs_epi16 a b | _, _ => [] end.
Definition packus_epi16 (a b : list Z) : list Z := map (fun w => Z.max 0 (Z.min 255 w)) (a ++ b).
Definition set1 (b : Z) : list Z := repeat b 16.
Definition movemask_full (m : list Z) : bool := forallb (fun b => 128 <=? b) m.
(** :441-473. *)
Definition encode_simd (u : list Z) : list Z :=
  let hi := and_si128 (srli_epi16 u 4) (set1 15) in
  let lo := and_si128 u (set1 15) in
  let lut := [48; 49; 50; 51; 52; 53; 54; 55; 56; 57; 97; 98; 99; 100; 101; 102] in
  let hi_hex := shuffle_epi8 lut hi in
  let lo_hex := shuffle_epi8 lut lo in
  let h0 := unpacklo_epi8 hi_hex lo_hex in
  let h1 := unpackhi_epi8 hi_hex lo_hex in
  let out_lo := or_si128 (shuffle_epi8 h0 [0; 1; 2; 3; 4; 5; 6; 7; 128; 8; 9; 10; 11; 128; 12; 13]) [0; 0; 0; 0; 0; 0; 0; 0; 45; 0; 0; 0; 0; 45; 0; 0] in
  let mid := alignr_epi8 h1 h0 14 in
  let out_mid := or_si128 (shuffle_epi8 mid [0; 1; 128; 2; 3; 4; 5; 128; 6; 7; 8; 9; 10; 11; 12; 13]) [0; 0; 45; 0; 0; 0; 0; 45; 0; 0; 0; 0; 0; 0; 0; 0] in
  out_lo ++ out_mid ++ skipn 12 h1.
(** :478-498 nibbles and hex_ok. *)
Definition nibbles (chars : list Z) : list Z :=
  let lo := and_si128 chars (set1 15) in
  let hi := srli_epi16 (and_si128 chars (set1 64)) 6 in
  let hi8 := slli_epi16 hi 3 in
  add_epi8 (add_epi8 lo hi8) hi.
Definition hex_ok (chars : list Z) : list Z :=
  let cf := or_si128 chars (set1 32) in
  let clamp lo hi := cmpeq_epi8 (min_epu8 (max_epu8 cf (set1 lo)) (set1 hi)) cf in
  or_si128 (clamp 48 57) (clamp 97 102).
Definition nib (c : Z) : Z := Z.land (Z.land c 15 + 9 * Z.shiftr c 6) 15.
(** :507-530: the decoded bytes and the mask of the lanes. [storel] writes eight bytes, the second store over the last
    byte of the first. *)
Definition decode_core (b : list Z) : list Z * list Z :=
  let l0 := range 0 16 b in
  let l1 := range 16 32 b in
  let ra := shuffle_epi8 l0 [0; 1; 2; 3; 4; 5; 6; 7; 9; 10; 11; 12; 14; 15; 0; 0] in
  let rb := shuffle_epi8 l1 [0; 1; 3; 4; 5; 6; 8; 9; 10; 11; 12; 13; 14; 15; 0; 0] in
  let weights := [16; 1; 16; 1; 16; 1; 16; 1; 16; 1; 16; 1; 16; 1; 16; 1] in
  let ba := packus_epi16 (maddubs_epi16 (nibbles ra) weights) (repeat 0 8) in
  let bb := packus_epi16 (maddubs_epi16 (nibbles rb) weights) (repeat 0 8) in
  (firstn 7 ba ++ firstn 7 bb ++ [Z.lor (Z.shiftl (nib (nth 32 b 0)) 4) (nib (nth 33 b 0)); Z.lor (Z.shiftl (nib (nth 34 b 0)) 4) (nib (nth 35 b 0))], and_si128 (hex_ok ra) (hex_ok rb)).
Definition tail_bits (b : list Z) : Z := Z.lor (Z.lor (Z.lor (hex_decode (nth 32 b 0)) (hex_decode (nth 33 b 0))) (hex_decode (nth 34 b 0))) (hex_decode (nth 35 b 0)).
(** :536-549. *)
Definition decode_simd (b : list Z) : option (list Z) :=
  let '(out, mask) := decode_core b in
  if movemask_full mask && (tail_bits b <? 16) then Some out else None.
(** :560-583 parse_batch, over the records. *)
Definition parse_batch (records : list (list Z)) : option (list (list Z)) :=
  let '(acc, tail_bad, dash_bad, out) := fold_left (fun '(acc, tb, db, out) b =>
      (and_si128 acc (snd (decode_core b)), Z.lor tb (tail_bits b),
       Z.lor db (Z.lor (Z.lor (Z.lor (Z.lxor (nth 8 b 0) dash) (Z.lxor (nth 13 b 0) dash)) (Z.lxor (nth 18 b 0) dash)) (Z.lxor (nth 23 b 0) dash)), out ++ [fst (decode_core b)]))
    records (set1 255, 0, 0, []) in
  if (dash_bad =? 0) && (tail_bad <? 16) && movemask_full acc then Some out else None.

(** ** Parsing. [simd] says which code runs. *)
Section Parse.
Context (simd : bool).
Definition encode_canonical (u : list Z) : list Z := if simd then encode_simd u else encode_scalar u.
(** uuid.rs:275-307. *)
Definition parse_canonical (b : list Z) : option (list Z) := if dashes b then (if simd then decode_simd b else decode_scalar b) else None.
Fixpoint map_option {A B} (f : A -> option B) (l : list A) : option (list B) :=
  match l with [] => Some [] | a :: l => match f a with Some b => match map_option f l with Some r => Some (b :: r) | None => None end | None => None end end.
Fixpoint records (n : nat) (l : list Z) : list (list Z) := match n with O => [] | S n => firstn 36 l :: records n (skipn 36 l) end.
(** uuid.rs:313-337 parse_many and :588-599 encode_many. *)
Definition parse_many (packed : list Z) : option (list (list Z)) :=
  if match packed with [] => true | _ => false end || negb (Nat.eqb (length packed mod 36) 0) then None
  else let rs := records (length packed / 36) packed in if simd then parse_batch rs else map_option parse_canonical rs.
Definition encode_many (ids : list (list Z)) : list Z := flat_map encode_canonical ids.
Fixpoint strip_prefix (p s : list Z) : option (list Z) :=
  match p, s with [] , _ => Some s | a :: p, b :: s => if a =? b then strip_prefix p s else None | _, [] => None end.
Definition strip_suffix (p s : list Z) : option (list Z) := option_map (@rev Z) (strip_prefix (rev p) (rev s)).
Definition or_self (o : option (list Z)) (s : list Z) : list Z := match o with Some t => t | None => s end.
Definition urn : list Z := [117; 114; 110; 58; 117; 117; 105; 100; 58].
Definition urn_upper : list Z := [85; 82; 78; 58; 85; 85; 73; 68; 58].
(** :238-269: the 32 digits of the two lengths, then pairs of digits. *)
Definition digits (b : list Z) : option (list Z) :=
  if Nat.eqb (length b) 36 then if dashes b then Some (range 0 8 b ++ range 9 13 b ++ range 14 18 b ++ range 19 23 b ++ range 24 36 b) else None
  else if Nat.eqb (length b) 32 then Some b else None.
Fixpoint hex_bytes (h : list Z) : option (list Z) :=
  match h with
  | [] => Some []
  | a :: b :: r => match hex_val a, hex_val b, hex_bytes r with Some hi, Some lo, Some out => Some (Z.lor (Z.shiftl hi 4) lo :: out) | _, _, _ => None end
  | _ => None
  end.
(** uuid.rs:221-269 parse, after str::trim. *)
Definition parse (s : list Z) : option (list Z) :=
  if Nat.eqb (length s) 36 then parse_canonical s
  else
    let s := or_self (match strip_prefix urn s with Some t => Some t | None => strip_prefix urn_upper s end) s in
    let s := or_self (match strip_prefix [123] s with Some t => strip_suffix [125] t | None => None end) s in
    match digits s with Some h => hex_bytes h | None => None end.
End Parse.
