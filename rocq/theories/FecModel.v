(** Model of Reed–Solomon erasure coding: crates/logicaffeine_compile/src/concurrency/fec.rs,
    lines 15–308. A [u8] is Coq's [byte]; lengths and indices are natural numbers. *)
From Coq Require Import NArith List Strings.Byte.
From stdpp Require Import list.
Open Scope nat_scope.

Definition u8 (n : N) : byte := default x00 (Byte.of_N (n mod 256)).
Definition is0 (a : byte) : bool := Byte.eqb a x00.
(** [a ^ b] on bytes. *)
Definition xor (a b : byte) : byte := u8 (N.lxor (Byte.to_N a) (Byte.to_N b)).

(** The first table loop, fec.rs 30–37; [x] is a [u16]. *)
Fixpoint gf_loop (n i : nat) (x : N) (exp log : list byte) : list byte * list byte :=
  match n with
  | O => (exp, log)
  | S n =>
      let exp := <[i := u8 x]> exp in
      let log := <[N.to_nat x := u8 (N.of_nat i)]> log in
      let x := N.shiftl x 1 in
      let x := if (N.land x 256 =? 0)%N then x else N.lxor x 285 in
      gf_loop n (S i) x exp log
  end.
(** The second one, fec.rs 38–40. *)
Fixpoint gf_double (n i : nat) (exp : list byte) : list byte :=
  match n with O => exp | S n => gf_double n (S i) (<[i := nth (i - 255) exp x00]> exp) end.
(** fec.rs 24–43. *)
Definition gf : list byte * list byte :=
  let '(exp, log) := gf_loop 255 0 1%N (repeat x00 512) (repeat x00 256) in (gf_double 257 255 exp, log).
Definition gf_exp (i : nat) : byte := nth i (fst gf) x00.
Definition gf_log (a : byte) : nat := Byte.to_nat (nth (Byte.to_nat a) (snd gf) x00).
(** fec.rs 45–51. *)
Definition gf_mul (a b : byte) : byte := if is0 a || is0 b then x00 else gf_exp (gf_log a + gf_log b).
(** fec.rs 54–60. *)
Definition gf_div (a b : byte) : byte := if is0 a then x00 else gf_exp (gf_log a + 255 - gf_log b).
(** fec.rs 63–69. *)
Fixpoint gf_pow (base : byte) (exp : nat) : byte := match exp with O => x01 | S exp => gf_mul (gf_pow base exp) base end.

(** A loop [for t in 0..n { acc ^= f(t) }] starting from zero. *)
Fixpoint xsum (n : nat) (f : nat -> byte) : byte := match n with O => x00 | S n => xor (xsum n f) (f n) end.

(** Rows of a matrix; indices are in range in every call (rows have k entries, proved in
    [FecProofs]), so the default of [nth] never shows. *)
Notation row := (list byte).
Definition at2 (a : list row) (i j : nat) : byte := nth j (nth i a []) x00.

(** The pivot search, fec.rs 85–88; [n] rows remain. *)
Fixpoint find_pivot (n : nat) (a : list row) (piv col : nat) : nat :=
  match n with
  | O => piv
  | S n => if is0 (at2 a piv col) then find_pivot n a (S piv) col else piv
  end.
Definition swap (a : list row) (i j : nat) : list row := <[i := nth j a []]> (<[j := nth i a []]> a).
(** One column of the elimination, fec.rs 85–107. The inner loops over [j] are maps over the row. *)
Definition eliminate (k : nat) (a : list row) (col : nat) : option (list row) :=
  let piv := find_pivot (k - col) a col col in
  if piv =? k then None else
  let a := swap a col piv in
  let inv_p := gf_div x01 (at2 a col col) in
  let prow := map (fun x => gf_mul x inv_p) (nth col a []) in
  Some (imap (fun i r =>
    if i =? col then prow else
    let f := nth col r x00 in
    if is0 f then r else zip_with (fun x y => xor x (gf_mul f y)) r prow) a).
(** fec.rs 84–108: columns from [col] on, [n] of them. *)
Fixpoint eliminate_from (n k : nat) (a : list row) (col : nat) : option (list row) :=
  match n with
  | O => Some a
  | S n => match eliminate k a col with None => None | Some a => eliminate_from n k a (S col) end
  end.
(** fec.rs 72–110. *)
Definition invert (m : list row) : option (list row) :=
  let k := length m in
  let a := imap (fun i r => r ++ map (fun j => if i =? j then x01 else x00) (seq 0 k)) m in
  match eliminate_from k k a 0 with
  | None => None
  | Some a => Some (map (fun r => drop k r) a)
  end.
(** fec.rs 113–129. *)
Definition matmul (a b : list row) : list row :=
  map (fun r => map (fun j => xsum (length b) (fun t => gf_mul (nth t r x00) (at2 b t j))) (seq 0 (length (nth 0 b [])))) a.
(** fec.rs 135–142; [i as u8] wraps. *)
Definition vander (n k : nat) : list row := map (fun i => map (fun j => gf_pow (u8 (N.of_nat i)) j) (seq 0 k)) (seq 0 n).
Definition encode_matrix (n k : nat) : option (list row) :=
  match invert (take k (vander n k)) with None => None | Some inv => Some (matmul (vander n k) inv) end.

(** fec.rs 147–169. *)
Definition shard_len (len k : nat) : nat := Nat.max ((len + k - 1) / k) 1.
Definition encode (data : list byte) (k n : nat) : option (nat * list (list byte)) :=
  if (k =? 0) || (n <? k) || (256 <? n) then None else
  let sl := shard_len (length data) k in
  let padded := take (k * sl) (data ++ repeat x00 (k * sl)) in
  match encode_matrix n k with
  | None => None
  | Some e =>
      Some (length data,
            map (fun i => map (fun b => xsum k (fun j => gf_mul (at2 e i j) (nth (j * sl + b) padded x00))) (seq 0 sl)) (seq 0 n))
  end.

(** The selection loop, fec.rs 182–192; the three vectors are kept together. *)
Fixpoint pick (k n sl : nat) (e : list row) (have : list (nat * list byte)) (sel : list (nat * row * list byte)) : list (nat * row * list byte) :=
  match have with
  | [] => sel
  | (idx, shard) :: have =>
      if (n <=? idx) || negb (length shard =? sl) || existsb (fun s => fst (fst s) =? idx) sel then pick k n sl e have sel
      else
        let sel := sel ++ [(idx, nth idx e [], shard)] in
        if length sel =? k then sel else pick k n sl e have sel
  end.
(** fec.rs 173–212. [data] is filled position by position, here read row by row. *)
Definition decode (orig_len k n : nat) (have : list (nat * list byte)) : option (list byte) :=
  if (k =? 0) || (n <? k) || (256 <? n) || (match have with [] => true | _ => false end) then None else
  let sl := length (snd (nth 0 have (0, []))) in
  match encode_matrix n k with
  | None => None
  | Some e =>
      let sel := pick k n sl e have [] in
      if length sel <? k then None else
      match invert (map (fun s => snd (fst s)) sel) with
      | None => None
      | Some minv =>
          let vals := map snd sel in
          let data := concat (map (fun j => map (fun b => xsum k (fun r => gf_mul (at2 minv j r) (at2 vals r b))) (seq 0 sl)) (seq 0 k)) in
          if length data <? orig_len then None else Some (take orig_len data)
      end
  end.

(** ** Framing *)
(** [to_le_bytes] and [from_le_bytes]. *)
Fixpoint le (n : nat) (x : N) : list byte := match n with O => [] | S n => u8 x :: le n (x / 256)%N end.
Fixpoint unle (bs : list byte) : N := match bs with [] => 0%N | b :: bs => (Byte.to_N b + 256 * unle bs)%N end.
Definition FEC_MAGIC : byte := xfe.
Definition FEC_HEADER_LEN : nat := 19.
(** fec.rs 224–234. The casts to [u16] and [u32] wrap. *)
Definition frame_shard (msg_id : N) (k n orig_len index : nat) (shard : list byte) : list byte :=
  [FEC_MAGIC] ++ le 8 msg_id ++ le 2 (N.of_nat k) ++ le 2 (N.of_nat n) ++ le 4 (N.of_nat orig_len) ++ le 2 (N.of_nat index) ++ shard.
(** fec.rs 236–242. *)
Record header := Hdr { h_id : N; h_k : nat; h_n : nat; h_len : nat; h_index : nat }.
Definition slice (a b : nat) (bs : list byte) : list byte := take (b - a) (drop a bs).
(** fec.rs 244–256. *)
Definition parse_shard (bs : list byte) : option (header * list byte) :=
  if (length bs <? FEC_HEADER_LEN) || negb (Byte.eqb (nth 0 bs x00) FEC_MAGIC) then None else
  Some (Hdr (unle (slice 1 9 bs)) (N.to_nat (unle (slice 9 11 bs))) (N.to_nat (unle (slice 11 13 bs))) (N.to_nat (unle (slice 13 17 bs))) (N.to_nat (unle (slice 17 19 bs))),
        drop FEC_HEADER_LEN bs).
(** fec.rs 261–263. *)
Definition shard_header (bs : list byte) : option (N * nat * nat) := match parse_shard bs with Some (h, _) => Some (h_id h, h_k h, h_n h) | None => None end.
(** fec.rs 268–277. *)
Definition frame_redundant (msg_id : N) (payload : list byte) (k n : nat) : option (list (list byte)) :=
  match encode payload k n with
  | None => None
  | Some (orig_len, shards) => Some (imap (fun i s => frame_shard msg_id k n orig_len i s) shards)
  end.
(** A group of shards; the hash map is an association list in order of creation. *)
Record group := Grp { g_id : N; g_k : nat; g_n : nat; g_len : nat; g_shards : list (nat * list byte) }.
(** fec.rs 289–298: one received packet. *)
Definition add_shard (g : group) (h : header) (shard : list byte) : group :=
  if (g_k g =? h_k h) && (g_n g =? h_n h) && (g_len g =? h_len h) && negb (existsb (fun p => fst p =? h_index h) (g_shards g))
  then Grp (g_id g) (g_k g) (g_n g) (g_len g) (g_shards g ++ [(h_index h, shard)]) else g.
Fixpoint into_groups (gs : list group) (h : header) (shard : list byte) : list group :=
  match gs with
  | [] => [add_shard (Grp (h_id h) (h_k h) (h_n h) (h_len h) []) h shard]
  | g :: gs => if (g_id g =? h_id h)%N then add_shard g h shard :: gs else g :: into_groups gs h shard
  end.
Fixpoint collect (received : list (list byte)) (gs : list group) : list group :=
  match received with
  | [] => gs
  | bs :: received => collect received (match parse_shard bs with None => gs | Some (h, shard) => into_groups gs h shard end)
  end.
(** fec.rs 300–307. *)
Fixpoint first_complete (gs : list group) : option (N * list byte) :=
  match gs with
  | [] => None
  | g :: gs =>
      if g_k g <=? length (g_shards g) then
        match decode (g_len g) (g_k g) (g_n g) (g_shards g) with Some data => Some (g_id g, data) | None => first_complete gs end
      else first_complete gs
  end.
(** fec.rs 284–308. The hash map is visited in an arbitrary order, hence a relation: any order of
    the groups may be the one taken. *)
Definition reconstructs (received : list (list byte)) (result : option (N * list byte)) : Prop :=
  exists gs, Permutation gs (collect received []) /\ result = first_complete gs.
