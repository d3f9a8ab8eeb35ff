(** Model of the integer-column codec [crates/logicaffeine_base/src/describe.rs]: the menu of
    column descriptions, the encoder that keeps the shortest one, and the decoder.

    Bytes and [u64]/[i64] values are [Z] values; a reader with [buf, pos] is a function of the
    bytes [buf[pos..]] left to read, as in [WireModel]. The varint and zig-zag primitives of
    describe.rs:82-119 are line for line those of wire.rs and are taken from [WireModel].
    A [BigInt] is its value in [Z]. Vector capacities are not modelled. *)
From Coq Require Import ZArith List.
From stdpp Require Import list.
From Verif Require Import MachInt WireModel.
Open Scope Z_scope.

(** describe.rs:23-58, the limits. *)
Definition PERIOD_CAP : nat := 512.
Definition MAX_POLY_DEGREE : nat := 4.
Definition MAX_RECUR_ORDER : nat := 4.
Definition LFSR_MAX_BYTES : nat := 512.
Definition FCSR_MAX_BYTES : nat := 256.
Definition RLE_MAX_TOTAL : Z := 2 ^ 28.
Definition MAX_GEN_NODES : nat := 256.
Definition MAX_GEN_DEPTH : nat := 32.
Definition DECODE_MAX_DEPTH : nat := 32.
Definition DEFAULT_MAX_ELEMENTS : Z := 2 ^ 28.

(** describe.rs:61-76, the tags. *)
Definition T_INTS : Z := 19.
Definition T_INTS_AFFINE : Z := 32.
Definition T_INTS_DELTA : Z := 39.
Definition T_INTS_DOD : Z := 40.
Definition T_INTS_FOR : Z := 41.
Definition T_INTS_RLE : Z := 42.
Definition T_INTS_DICT : Z := 43.
Definition T_INTS_POLY : Z := 50.
Definition T_GEN : Z := 51.
Definition T_BYTES : Z := 53.
Definition T_INTS_GEOMETRIC : Z := 61.
Definition T_INTS_PERIODIC : Z := 62.
Definition T_INTS_SPARSE : Z := 67.
Definition T_INTS_LRECUR : Z := 82.
Definition T_INTS_LFSR : Z := 83.
Definition T_INTS_FCSR : Z := 84.

Definition len {A} (l : list A) : Z := Z.of_nat (length l).
Definition zw (x : Z) : list Z := write_uvarint (zigzag x).

(** describe.rs:128-141 [leb128_encode]. *)
Definition leb128_encode (v : list Z) : list Z :=
  let signed := existsb (fun x => x <? 0) v in
  write_uvarint (Z.lor (wrap64 (Z.shiftl (len v) 1)) (Z.b2z signed))
  ++ flat_map (fun x => write_uvarint (if signed then zigzag x else wrap64 x)) v.

(** describe.rs:146-168 [bitpack]. The inner loop runs while [remaining > 0]; every round takes
    at least one bit, so [remaining] rounds suffice. [alter] is the update [out[byte] |= ..]. *)
Fixpoint pack_bits (fuel : nat) (out : list Z) (bitpos : nat) (bits : Z) (remaining : nat) : list Z * nat :=
  match fuel with
  | O => (out, bitpos)
  | S fuel =>
      if (remaining =? 0)%nat then (out, bitpos)
      else
        let byte := (bitpos / 8)%nat in
        let off := (bitpos mod 8)%nat in
        let take := Nat.min remaining (8 - off) in
        let mask := 2 ^ Z.of_nat take - 1 in
        let out := alter (fun b => Z.lor b (Z.shiftl (Z.land bits mask) (Z.of_nat off) mod 256)) byte out in
        pack_bits fuel out (bitpos + take) (Z.shiftr bits (Z.of_nat take)) (remaining - take)
  end.
Fixpoint pack_values (width : nat) (out : list Z) (bitpos : nat) (vals : list Z) : list Z :=
  match vals with
  | [] => out
  | val :: vals => let '(out, bitpos) := pack_bits width out bitpos val width in pack_values width out bitpos vals
  end.
Definition div_ceil8 (n : nat) : nat := ((n + 7) / 8)%nat.
Definition bitpack (vals : list Z) (width : nat) : list Z :=
  if (width =? 0)%nat then []
  else pack_values width (repeat 0 (div_ceil8 (length vals * width))) 0 vals.

(** describe.rs:172-196 [bitunpack]. The length test comes first, so no index is out of range. *)
Fixpoint unpack_bits (fuel : nat) (bytes : list Z) (width : nat) (val : Z) (got bitpos : nat) : Z * nat :=
  match fuel with
  | O => (val, bitpos)
  | S fuel =>
      if (width <=? got)%nat then (val, bitpos)
      else
        let byte := (bitpos / 8)%nat in
        let off := (bitpos mod 8)%nat in
        let take := Nat.min (width - got) (8 - off) in
        let mask := 2 ^ Z.of_nat take - 1 in
        let piece := Z.land (Z.shiftr (nth byte bytes 0) (Z.of_nat off)) mask in
        unpack_bits fuel bytes width (Z.lor val (wrap64 (Z.shiftl piece (Z.of_nat got)))) (got + take) (bitpos + take)
  end.
Fixpoint unpack_values (count : nat) (bytes : list Z) (width bitpos : nat) : list Z :=
  match count with
  | O => []
  | S count => let '(val, bitpos) := unpack_bits width bytes width 0 0 bitpos in val :: unpack_values count bytes width bitpos
  end.
Definition bitunpack (bytes : list Z) (count : Z) (width : Z) : option (list Z) :=
  if (width =? 0) || (64 <? width) then None
  else
    let total_bits := count * width in
    if two64 <=? total_bits then None
    else if len bytes <? (total_bits + 7) / 8 then None
    else Some (unpack_values (Z.to_nat count) bytes (Z.to_nat width) 0).

(** describe.rs:202-224 [GenCmp], [GenExpr]; the five binary constructors share one. *)
Inductive gcmp := CEq | CNe | CLt | CLe | CGt | CGe.
Inductive gop := OAdd | OSub | OMul | ODiv | OMod.
Inductive gen :=
  | GIndex
  | GConst (c : Z)
  | GBin (op : gop) (a b : gen)
  | GSelect (op : gcmp) (lhs rhs thn els : gen).

Definition cmp_holds (op : gcmp) (l r : Z) : bool :=
  match op with
  | CEq => l =? r | CNe => negb (l =? r) | CLt => l <? r | CLe => l <=? r | CGt => r <? l | CGe => r <=? l
  end.

(** describe.rs:227-255 [gen_eval]. *)
Fixpoint gen_eval (e : gen) (i : Z) : Z :=
  match e with
  | GIndex => i
  | GConst c => c
  | GBin OAdd a b => wrap_i64 (gen_eval a i + gen_eval b i)
  | GBin OSub a b => wrap_i64 (gen_eval a i - gen_eval b i)
  | GBin OMul a b => wrap_i64 (gen_eval a i * gen_eval b i)
  | GBin ODiv a b => let d := gen_eval b i in if d =? 0 then 0 else wrap_i64 (Z.quot (gen_eval a i) d)
  | GBin OMod a b => let d := gen_eval b i in if d =? 0 then 0 else wrap_i64 (Z.rem (gen_eval a i) d)
  | GSelect op l r t f => if cmp_holds op (gen_eval l i) (gen_eval r i) then gen_eval t i else gen_eval f i
  end.

Definition gop_tag (op : gop) : Z := match op with OAdd => 2 | OSub => 3 | OMul => 4 | ODiv => 5 | OMod => 6 end.
Definition gcmp_tag (op : gcmp) : Z := match op with CEq => 0 | CNe => 1 | CLt => 2 | CLe => 3 | CGt => 4 | CGe => 5 end.

(** describe.rs:258-279 [serialize_gen]. *)
Fixpoint serialize_gen (e : gen) : list Z :=
  match e with
  | GIndex => [0]
  | GConst c => 1 :: zw c
  | GBin op a b => gop_tag op :: serialize_gen a ++ serialize_gen b
  | GSelect op l r t f =>
      7 :: gcmp_tag op :: serialize_gen l ++ serialize_gen r ++ serialize_gen t ++ serialize_gen f
  end.

Definition gop_of (tag : Z) : option gop :=
  if tag =? 2 then Some OAdd else if tag =? 3 then Some OSub else if tag =? 4 then Some OMul
  else if tag =? 5 then Some ODiv else if tag =? 6 then Some OMod else None.
Definition gcmp_of (tag : Z) : option gcmp :=
  if tag =? 0 then Some CEq else if tag =? 1 then Some CNe else if tag =? 2 then Some CLt
  else if tag =? 3 then Some CLe else if tag =? 4 then Some CGt else if tag =? 5 then Some CGe else None.

(** describe.rs:282-321 [deserialize_gen]; [levels] is [MAX_GEN_DEPTH + 1 - depth], the number of
    levels still allowed, and [budget] the nodes still allowed, returned with the result. *)
Fixpoint deserialize_gen (levels : nat) (bs : list Z) (budget : nat) : option (gen * list Z * nat) :=
  match levels, budget with
  | O, _ | _, O => None
  | S levels, S budget =>
      match bs with
      | [] => None
      | tag :: bs =>
          if tag =? 0 then Some (GIndex, bs, budget)
          else if tag =? 1 then '(u, bs) ← read_uvarint bs; Some (GConst (unzigzag u), bs, budget)
          else match gop_of tag with
          | Some op =>
              '(a, bs, budget) ← deserialize_gen levels bs budget;
              '(b, bs, budget) ← deserialize_gen levels bs budget;
              Some (GBin op a b, bs, budget)
          | None =>
              if tag =? 7 then
                match bs with
                | [] => None
                | t :: bs =>
                    op ← gcmp_of t;
                    '(l, bs, budget) ← deserialize_gen levels bs budget;
                    '(r, bs, budget) ← deserialize_gen levels bs budget;
                    '(t, bs, budget) ← deserialize_gen levels bs budget;
                    '(f, bs, budget) ← deserialize_gen levels bs budget;
                    Some (GSelect op l r t f, bs, budget)
                end
              else None
          end
      end
  end.

(** Whether [v] is the column [f i, f (i+1), ..]: the confirming loops of the detectors. *)
Fixpoint agrees (f : Z -> Z) (i : Z) (v : list Z) : bool :=
  match v with [] => true | x :: v => (f i =? x) && agrees f (i + 1) v end.
(** The column [f i, .., f (i+n-1)]: the expanding loops of the decoder. *)
Fixpoint expand (f : Z -> Z) (i : Z) (n : nat) : list Z :=
  match n with O => [] | S n => f i :: expand f (i + 1) n end.

(** describe.rs:327-339 [detect_affine]. *)
Definition affine_at (base stride i : Z) : Z := wrap_i64 (base + wrap_i64 (i * stride)).
Definition detect_affine (v : list Z) : option (Z * Z) :=
  match v with
  | a :: b :: _ =>
      let stride := wrap_i64 (b - a) in
      if agrees (affine_at a stride) 0 v then Some (a, stride) else None
  | _ => None
  end.

(** describe.rs:343-363 [detect_geometric]; [checked_rem] and [checked_div] fail on MIN by -1. *)
Fixpoint geo_agrees (cur ratio : Z) (v : list Z) : bool :=
  match v with [] => true | x :: v => (cur =? x) && geo_agrees (wrap_i64 (cur * ratio)) ratio v end.
Fixpoint geo_expand (cur ratio : Z) (n : nat) : list Z :=
  match n with O => [] | S n => cur :: geo_expand (wrap_i64 (cur * ratio)) ratio n end.
Definition detect_geometric (v : list Z) : option (Z * Z) :=
  match v with
  | base :: v1 :: _ :: _ =>
      if base =? 0 then None
      else if (v1 =? - 2 ^ 63) && (base =? -1) then None
      else if negb (Z.rem v1 base =? 0) then None
      else
        let ratio := Z.quot v1 base in
        if (ratio =? 0) || (ratio =? 1) then None
        else if geo_agrees base ratio v then Some (base, ratio) else None
  | _ => None
  end.

(** describe.rs:367-382 [detect_period]. *)
Definition has_period (v : list Z) (p : nat) : bool :=
  forallb (fun i => nth i v 0 =? nth (i - p) v 0) (seq p (length v - p)).
Definition detect_period (v : list Z) : option nat :=
  let n := length v in
  if (n <? 4)%nat then None
  else
    let cap := Nat.min (n / 2) PERIOD_CAP in
    find (has_period v) (seq 2 (cap - 1)).

(** describe.rs:386-409 [detect_sparse]; the majority vote, the count, and the exceptions. *)
Fixpoint vote (cand count : Z) (v : list Z) : Z :=
  match v with
  | [] => cand
  | x :: v => if count =? 0 then vote x 1 v else if x =? cand then vote cand (count + 1) v else vote cand (count - 1) v
  end.
Fixpoint exceptions (cand : Z) (i : nat) (v : list Z) : list (nat * Z) :=
  match v with
  | [] => []
  | x :: v => if x =? cand then exceptions cand (S i) v else (i, x) :: exceptions cand (S i) v
  end.
Definition detect_sparse (v : list Z) : option (Z * list (nat * Z)) :=
  match v with
  | [] => None
  | v0 :: _ =>
      if (length v <? 8)%nat then None
      else
        let cand := vote v0 0 v in
        let occ := length (List.filter (fun x => x =? cand) v) in
        if (length v / 4 <? length v - occ)%nat then None
        else Some (cand, exceptions cand 0 v)
  end.

(** describe.rs:443-453 [reconstruct_poly]; the inner loop reads [diffs[j + 1]] before it is
    updated. With no seeds the Rust code indexes out of range; it is only called with some. *)
Fixpoint engine_step (ds : list Z) : list Z :=
  match ds with
  | a :: ((b :: _) as t) => wrap_i64 (a + b) :: engine_step t
  | _ => ds
  end.
Fixpoint reconstruct_poly (ds : list Z) (n : nat) : list Z :=
  match n with O => [] | S n => hd 0 ds :: reconstruct_poly (engine_step ds) n end.

(** describe.rs:413-440 [detect_poly_generator]; [seeds] are the heads of the levels so far. *)
Fixpoint checked_diffs (v : list Z) : option (list Z) :=
  match v with
  | a :: ((b :: _) as t) => d ← checked_i64 (b - a); ds ← checked_diffs t; Some (d :: ds)
  | _ => Some []
  end.
Fixpoint poly_search (rounds : nat) (seeds prev v : list Z) : option (list Z) :=
  match rounds with
  | O => None
  | S rounds =>
      if (length prev <? 2)%nat then None
      else
        next ← checked_diffs prev;
        let h := hd 0 next in
        if (2 <=? length next)%nat && forallb (fun x => x =? h) next then
          (if bool_decide (reconstruct_poly (seeds ++ [h]) (length v) = v) then Some (seeds ++ [h]) else None)
        else poly_search rounds (seeds ++ [h]) next v
  end.
Definition detect_poly_generator (v : list Z) : option (list Z) :=
  if (length v <? 3)%nat then None else poly_search MAX_POLY_DEGREE [hd 0 v] v v.

(** describe.rs:511-527 [det_i128]: checked Laplace expansion; [size] is the dimension. *)
Definition checked_i128 (x : Z) : option Z := if (- 2 ^ 127 <=? x) && (x <? 2 ^ 127) then Some x else None.
Definition entry (m : list (list Z)) (r c : nat) : Z := nth c (nth r m []) 0.
Definition drop_col {A} (j : nat) (row : list A) : list A := take j row ++ drop (S j) row.
Fixpoint det_i128 (size : nat) (m : list (list Z)) : option Z :=
  match size with
  | O => Some 0
  | S size' =>
      match size' with
      | O => Some (entry m 0 0)
      | S O =>
          a ← checked_i128 (entry m 0 0 * entry m 1 1);
          b ← checked_i128 (entry m 0 1 * entry m 1 0);
          checked_i128 (a - b)
      | _ =>
          foldl (fun acc j =>
            acc ← acc;
            d ← det_i128 size' (map (drop_col j) (tl m));
            cof ← checked_i128 (entry m 0 j * d);
            checked_i128 (if Nat.even j then acc + cof else acc - cof))
            (Some 0) (seq 0 size)
      end
  end.

(** describe.rs:477-507 [solve_recurrence]. The result [None] is a panic: the remainder of the
    least [i128] by -1 overflows. [Some None] is the [None] of the Rust code. *)
Definition set_col (j : nat) (m : list (list Z)) (b : list Z) : list (list Z) :=
  zip_with (fun row x => <[j := x]> row) m b.
Fixpoint cramer (k : nat) (m : list (list Z)) (b : list Z) (det_m : Z) (js : list nat) : option (option (list Z)) :=
  match js with
  | [] => Some (Some [])
  | j :: js =>
      match det_i128 k (set_col j m b) with
      | None => Some None
      | Some det_j =>
          if (det_j =? - 2 ^ 127) && (det_m =? -1) then None
          else if negb (Z.rem det_j det_m =? 0) then Some None
          else
            let c := Z.quot det_j det_m in
            if in_i64 c then
              match cramer k m b det_m js with
              | Some (Some cs) => Some (Some (c :: cs))
              | r => r
              end
            else Some None
      end
  end.
Definition solve_recurrence (v : list Z) (k : nat) : option (option (list Z)) :=
  let m := map (fun r => map (fun j => nth (k + r - 1 - j) v 0) (seq 0 k)) (seq 0 k) in
  let b := map (fun r => nth (k + r) v 0) (seq 0 k) in
  match det_i128 k m with
  | None => Some None
  | Some det_m => if det_m =? 0 then Some None else cramer k m b det_m (seq 0 k)
  end.

(** describe.rs:531-549 [reconstruct_recurrence]; [recent] is the output so far, last value first. *)
Fixpoint dot (acc : Z) (coeffs recent : list Z) : Z :=
  match coeffs, recent with
  | c :: cs, x :: xs => dot (wrap_i64 (acc + wrap_i64 (c * x))) cs xs
  | _, _ => acc
  end.
Fixpoint replay (coeffs recent : list Z) (n : nat) : list Z :=
  match n with
  | O => []
  | S n => let x := dot 0 coeffs recent in x :: replay coeffs (x :: recent) n
  end.
Definition reconstruct_recurrence (coeffs seeds : list Z) (n : nat) : list Z :=
  let k := length coeffs in
  if (length seeds <? k)%nat then take n seeds
  else let s := take (Nat.min k n) seeds in s ++ replay coeffs (rev s) (n - k).

(** describe.rs:462-473 [detect_linear_recurrence]; [None] is a panic. *)
Fixpoint recur_search (v : list Z) (ks : list nat) : option (option (list Z * list Z)) :=
  match ks with
  | [] => Some None
  | k :: ks =>
      match solve_recurrence v k with
      | None => None
      | Some None => recur_search v ks
      | Some (Some coeffs) =>
          if bool_decide (reconstruct_recurrence coeffs (take k v) (length v) = v)
          then Some (Some (coeffs, take k v)) else recur_search v ks
      end
  end.
Definition detect_linear_recurrence (v : list Z) : option (option (list Z * list Z)) :=
  recur_search v (seq 1 (Nat.min MAX_RECUR_ORDER (length v / 2))).

(** describe.rs:628-664 [berlekamp_massey_field] at [Gf2]: addition and subtraction are
    exclusive or, multiplication is conjunction, the inverse of one is one. *)
Definition bit (l : list bool) (i : nat) : bool := nth i l false.
Record bm := { bm_c : list bool; bm_b : list bool; bm_l : nat; bm_m : nat }.
Definition discrepancy (s c : list bool) (l nn : nat) : bool :=
  foldl (fun d i => xorb d (bit c i && bit s (nn - i))) (bit s nn) (seq 1 l).
Definition bm_update (m : nat) (c b : list bool) : list bool :=
  imap (fun k x => if (m <=? k)%nat then xorb x (bit b (k - m)) else x) c.
Definition bm_step (s : list bool) (st : bm) (nn : nat) : bm :=
  if discrepancy s (bm_c st) (bm_l st) nn then
    let c := bm_update (bm_m st) (bm_c st) (bm_b st) in
    if (2 * bm_l st <=? nn)%nat
    then {| bm_c := c; bm_b := bm_c st; bm_l := nn + 1 - bm_l st; bm_m := 1 |}
    else {| bm_c := c; bm_b := bm_b st; bm_l := bm_l st; bm_m := S (bm_m st) |}
  else {| bm_c := bm_c st; bm_b := bm_b st; bm_l := bm_l st; bm_m := S (bm_m st) |}.
Definition bm_init (n : nat) : bm :=
  {| bm_c := true :: repeat false n; bm_b := true :: repeat false n; bm_l := 0; bm_m := 1 |}.
Definition berlekamp_massey_gf2 (s : list bool) : nat * list bool :=
  let st := foldl (bm_step s) (bm_init (length s)) (seq 0 (length s)) in
  (bm_l st, take (bm_l st) (drop 1 (bm_c st))).

(** describe.rs:667-682 [lfsr_generate_field] at [Gf2]; [recent] as in [replay]. *)
Fixpoint feedback (acc : bool) (taps recent : list bool) : bool :=
  match taps, recent with
  | t :: ts, x :: xs => feedback (xorb acc (t && x)) ts xs
  | _, _ => acc
  end.
Fixpoint shift_out (taps recent : list bool) (n : nat) : list bool :=
  match n with
  | O => []
  | S n => let x := feedback false taps recent in x :: shift_out taps (x :: recent) n
  end.
Definition lfsr_generate (taps seed : list bool) (total : nat) : list bool :=
  let l := length taps in
  let s := take (Nat.min (Nat.min l (length seed)) total) seed in
  s ++ shift_out taps (rev s) (total - l).

(** describe.rs:714-723 [bytes_to_bits] and describe.rs:727-739 [bits_to_bytes]. *)
Definition bytes_to_bits (v : list Z) : list bool :=
  flat_map (fun x => map (fun j => Z.testbit (x mod 256) (Z.of_nat j)) (seq 0 8)) v.
Definition byte_of_bits (chunk : list bool) : Z :=
  fold_right (fun (b : bool) acc => Z.b2z b + 2 * acc) 0 chunk.
Fixpoint chunks8 (fuel : nat) (bits : list bool) : list (list bool) :=
  match fuel, bits with
  | O, _ | _, [] => []
  | S fuel, _ => take 8 bits :: chunks8 fuel (drop 8 bits)
  end.
Definition bits_to_bytes (bits : list bool) : list Z := map byte_of_bits (chunks8 (length bits) bits).

(** describe.rs:700-711 [detect_lfsr_bytes]. *)
Definition detect_lfsr_bytes (v : list Z) : option (nat * list bool * list bool) :=
  let bits := bytes_to_bits v in
  let '(l, taps) := berlekamp_massey_gf2 bits in
  if (l =? 0)%nat || (length bits <=? l)%nat then None
  else
    let seed := take l bits in
    if bool_decide (lfsr_generate taps seed (length bits) = bits) then Some (l, taps, seed) else None.

(** describe.rs:775-822 [two_adic_reconstruct]. The remainders of Euclid's loop halve every two
    rounds, so [2 * length bits + 3] rounds suffice; [bigint_gcd_local] is [Z.gcd]. *)
Definition two_adic_value (bits : list bool) : Z := fold_right (fun (b : bool) acc => Z.b2z b + 2 * acc) 0 bits.
Fixpoint euclid_loop (rounds : nat) (n_big r0 t0 r1 t1 : Z) : Z * Z :=
  match rounds with
  | O => (r1, t1)
  | S rounds =>
      if (r1 =? 0) || (r1 * r1 <=? n_big) then (r1, t1)
      else euclid_loop rounds n_big r1 t1 (Z.rem r0 r1) (t0 - Z.quot r0 r1 * t1)
  end.
Definition two_adic_reconstruct (bits : list bool) : option (Z * Z) :=
  match bits with
  | [] => None
  | _ =>
      let n_big := 2 ^ len bits in
      let '(p, q) := euclid_loop (2 * length bits + 3) n_big n_big 0 (two_adic_value bits) 1 in
      if q =? 0 then None
      else
        let '(p, q) := if q <? 0 then (- p, - q) else (p, q) in
        let g := Z.gcd p q in
        let '(p, q) := if negb (g =? 0) && negb (g =? 1) then (Z.quot p g, Z.quot q g) else (p, q) in
        if negb (Z.odd q) then None else Some (p, q)
  end.

(** describe.rs:827-841 [fcsr_generate]. *)
Fixpoint fcsr_generate (r q : Z) (n : nat) : list bool :=
  match n with
  | O => []
  | S n => let b := Z.odd r in b :: fcsr_generate (Z.quot (if b then r - q else r) 2) q n
  end.

(** describe.rs:1858-1865 [detect_fcsr_bytes]. *)
Definition detect_fcsr_bytes (v : list Z) : option (Z * Z) :=
  let bits := bytes_to_bits v in
  '(p, q) ← two_adic_reconstruct bits;
  if bool_decide (fcsr_generate p q (length bits) = bits) then Some (p, q) else None.

(** describe.rs:1835-1843 [write_bigint] with numeric.rs:419 [to_le_bytes]: the magnitude in
    whole 64-bit limbs, then the trailing zero bytes removed. *)
Definition limbs_of (x : Z) : nat := if x =? 0 then 0%nat else Z.to_nat (Z.log2 x / 64 + 1).
Fixpoint trim_front (l : list Z) : list Z :=
  match l with [] => [] | b :: l => if b =? 0 then trim_front l else b :: l end.
Definition magnitude_bytes (x : Z) : list Z := rev (trim_front (rev (le_bytes (8 * limbs_of x) x))).
Definition write_bigint (x : Z) : list Z :=
  let bytes := magnitude_bytes (Z.abs x) in
  (if x <? 0 then 1 else 0) :: write_uvarint (len bytes) ++ bytes.
(** A slice [buf.get(pos..pos+n)?] of the bytes left. *)
Definition take_bytes (n : Z) (bs : list Z) : option (list Z * list Z) :=
  if len bs <? n then None else Some (take (Z.to_nat n) bs, drop (Z.to_nat n) bs).
(** describe.rs:1846-1853 [read_bigint] with numeric.rs:430 [from_le_bytes]. *)
Definition read_bigint (bs : list Z) : option (Z * list Z) :=
  match bs with
  | [] => None
  | s :: bs =>
      '(n, bs) ← read_uvarint bs;
      '(bytes, bs) ← take_bytes n bs;
      Some (if s =? 0 then from_le bytes else - from_le bytes, bs)
  end.

(** describe.rs:1868-1886 [detect_modular_affine]. *)
Definition modular_at (a b : Z) (p : nat) (i : Z) : Z := wrap_i64 (a + wrap_i64 (b * (i mod Z.of_nat p))).
Definition modular_gen (a b : Z) (p : nat) : gen :=
  GBin OAdd (GConst a) (GBin OMul (GConst b) (GBin OMod GIndex (GConst (Z.of_nat p)))).
Definition detect_modular_affine (v : list Z) : option gen :=
  match v with
  | a :: v1 :: _ =>
      if (length v <? 4)%nat then None
      else
        let b := wrap_i64 (v1 - a) in
        p ← find (fun p => negb (b =? 0) && agrees (modular_at a b p) 0 v) (seq 2 (Nat.min 16 (length v / 2) - 1));
        Some (modular_gen a b p)
  | _ => None
  end.

(** describe.rs:1892-1903 [delta_encode]. *)
Fixpoint delta_tail (prev : Z) (v : list Z) : list Z :=
  match v with [] => [] | x :: v => zw (wrap_i64 (x - prev)) ++ delta_tail x v end.
Definition delta_encode (v : list Z) : list Z :=
  T_INTS_DELTA :: write_uvarint (len v) ++ match v with [] => [] | x :: v => zw x ++ delta_tail x v end.

(** describe.rs:1907-1926 [dod_encode]. *)
Fixpoint dod_tail (prev prev_delta : Z) (v : list Z) : list Z :=
  match v with
  | [] => []
  | x :: v => let d := wrap_i64 (x - prev) in zw (wrap_i64 (d - prev_delta)) ++ dod_tail x d v
  end.
Definition dod_encode (v : list Z) : list Z :=
  T_INTS_DOD :: write_uvarint (len v) ++
  match v with
  | [] => []
  | [x] => zw x
  | x :: y :: v => let d := wrap_i64 (y - x) in zw x ++ zw d ++ dod_tail y d v
  end.

(** describe.rs:1930-1946 [for_encode]. *)
Definition list_min (v : list Z) : Z := match v with [] => 0 | x :: v => fold_left Z.min v x end.
Definition list_max (v : list Z) : Z := match v with [] => 0 | x :: v => fold_left Z.max v x end.
(** [64 - x.leading_zeros()]. *)
Definition bit_length (x : Z) : nat := if x =? 0 then 0%nat else S (Z.to_nat (Z.log2 x)).
Definition for_encode (v : list Z) : list Z :=
  let mn := list_min v in
  T_INTS_FOR :: write_uvarint (len v) ++ zw mn ++
  match v with
  | [] => [0]
  | _ =>
      let range := wrap64 (wrap64 (list_max v) - wrap64 mn) in
      let width := bit_length range in
      Z.of_nat width ::
      (if (0 <? width)%nat then bitpack (map (fun x => wrap64 (wrap64 x - wrap64 mn)) v) width else [])
  end.

(** describe.rs:1950-1964 [rle_encode]; [runs] is the list so far, last run first. *)
Fixpoint runs_of (runs : list (Z * Z)) (v : list Z) : list (Z * Z) :=
  match v with
  | [] => rev runs
  | x :: v =>
      match runs with
      | (y, n) :: rest => if y =? x then runs_of ((y, n + 1) :: rest) v else runs_of ((x, 1) :: runs) v
      | [] => runs_of [(x, 1)] v
      end
  end.
Definition rle_encode (v : list Z) : list Z :=
  let runs := runs_of [] v in
  T_INTS_RLE :: write_uvarint (len runs) ++ flat_map (fun '(x, n) => zw x ++ write_uvarint n) runs.

(** describe.rs:1968-1991 [dict_encode]; the hash map holds the position of every value in [dict]. *)
Fixpoint index_of (x : Z) (dict : list Z) : option nat :=
  match dict with [] => None | y :: dict => if y =? x then Some 0%nat else S <$> index_of x dict end.
Fixpoint dict_loop (dict : list Z) (v : list Z) : list Z * list nat :=
  match v with
  | [] => (dict, [])
  | x :: v =>
      let '(dict, idx) := match index_of x dict with Some i => (dict, i) | None => (dict ++ [x], length dict) end in
      let '(dict, indices) := dict_loop dict v in (dict, idx :: indices)
  end.
Definition dict_encode (v : list Z) : list Z :=
  let '(dict, indices) := dict_loop [] v in
  let iw := if (length dict <=? 1)%nat then 0%nat else bit_length (len dict - 1) in
  T_INTS_DICT :: write_uvarint (len dict) ++ flat_map zw dict ++ write_uvarint (len v) ++
  Z.of_nat iw :: (if (0 <? iw)%nat then bitpack (map Z.of_nat indices) iw else []).

(** describe.rs:1994-1998 [consider], after an [if let Some(..)]. *)
Definition consider (best : list Z) (cand : option (list Z)) : list Z :=
  match cand with
  | Some c => if (length c <? length best)%nat then c else best
  | None => best
  end.

(** The candidates of describe.rs:2009-2065 and 2092-2132. *)
Definition plain (v : list Z) : list Z := T_INTS :: leb128_encode v.
Definition affine_cand (v : list Z) : option (list Z) :=
  '(base, stride) ← detect_affine v; Some (T_INTS_AFFINE :: zw base ++ zw stride ++ write_uvarint (len v)).
Definition geometric_cand (v : list Z) : option (list Z) :=
  '(base, ratio) ← detect_geometric v; Some (T_INTS_GEOMETRIC :: zw base ++ zw ratio ++ write_uvarint (len v)).
Fixpoint sparse_tail (prev : nat) (exc : list (nat * Z)) : list Z :=
  match exc with
  | [] => []
  | (i, x) :: exc => write_uvarint (Z.of_nat (i - prev)) ++ zw x ++ sparse_tail i exc
  end.
Definition sparse_cand (v : list Z) : option (list Z) :=
  '(dom, exc) ← detect_sparse v;
  Some (T_INTS_SPARSE :: zw dom ++ write_uvarint (len v) ++ write_uvarint (len exc) ++ sparse_tail 0 exc).
Definition poly_cand (v : list Z) : option (list Z) :=
  seeds ← detect_poly_generator v;
  Some (T_INTS_POLY :: (len seeds - 1) :: write_uvarint (len v) ++ flat_map zw seeds).
Definition recur_cand (v : list Z) (found : option (list Z * list Z)) : option (list Z) :=
  '(coeffs, seeds) ← found;
  Some (T_INTS_LRECUR :: len coeffs :: write_uvarint (len v) ++ flat_map zw coeffs ++ flat_map zw seeds).
Definition gen_cand (v : list Z) : option (list Z) :=
  e ← detect_modular_affine v; Some (T_GEN :: serialize_gen e ++ write_uvarint (len v)).
Definition all_bytes (v : list Z) : bool := forallb (fun x => (0 <=? x) && (x <? 256)) v.
Definition bytes_cand (v : list Z) : option (list Z) :=
  if negb (length v =? 0)%nat && all_bytes v then Some (T_BYTES :: write_uvarint (len v) ++ v) else None.
Definition lfsr_cand (best v : list Z) : option (list Z) :=
  if negb (length v =? 0)%nat && (length v <=? LFSR_MAX_BYTES)%nat && (length v <=? length best)%nat && all_bytes v then
    '(l, taps, seed) ← detect_lfsr_bytes v;
    Some (T_INTS_LFSR :: write_uvarint (len v) ++ write_uvarint (Z.of_nat l)
          ++ bitpack (map Z.b2z taps) 1 ++ bitpack (map Z.b2z seed) 1)
  else None.
Definition fcsr_cand (best v : list Z) : option (list Z) :=
  if negb (length v =? 0)%nat && (length v <=? FCSR_MAX_BYTES)%nat && (length v <=? length best)%nat && all_bytes v then
    '(p, q) ← detect_fcsr_bytes v;
    Some (T_INTS_FCSR :: write_uvarint (len v) ++ write_bigint p ++ write_bigint q)
  else None.

(** describe.rs:2004-2135 [emit_best_int_column]; [None] is a panic. The recursion is on a block
    of at most half the length, so [length v] levels suffice. *)
Fixpoint emit (fuel : nat) (v : list Z) : option (list Z) :=
  let best := plain v in
  let best := consider best (affine_cand v) in
  let best := consider best (geometric_cand v) in
  best ← match detect_period v with
         | None => Some best
         | Some p =>
             match fuel with
             | O => Some best
             | S fuel =>
                 block ← emit fuel (take p v);
                 Some (consider best (Some (T_INTS_PERIODIC :: write_uvarint (len v) ++ block)))
             end
         end;
  let best := consider best (sparse_cand v) in
  let best := consider best (poly_cand v) in
  found ← detect_linear_recurrence v;
  let best := consider best (recur_cand v found) in
  let best := consider best (gen_cand v) in
  let best := consider best (Some (delta_encode v)) in
  let best := consider best (Some (dod_encode v)) in
  let best := consider best (bytes_cand v) in
  let best := consider best (Some (for_encode v)) in
  let best := consider best (Some (rle_encode v)) in
  let best := consider best (Some (dict_encode v)) in
  let best := consider best (lfsr_cand best v) in
  Some (consider best (fcsr_cand best v)).

(** describe.rs:2140-2144 [describe_int_seq]; [None] is a panic. *)
Definition describe_int_seq (v : list Z) : option (list Z) := emit (length v) v.

(** describe.rs:2151-2154 [bounded]. *)
Definition bounded (n max_elements : Z) : option nat := if n <=? max_elements then Some (Z.to_nat n) else None.
Definition read_byte (bs : list Z) : option (Z * list Z) := match bs with [] => None | b :: bs => Some (b, bs) end.
(** [n] zig-zag varints in a row. *)
Definition read_zz (bs : list Z) : option (Z * list Z) := '(u, bs) ← read_uvarint bs; Some (unzigzag u, bs).
Fixpoint read_n {A} (rd : list Z -> option (A * list Z)) (n : nat) (bs : list Z) : option (list A * list Z) :=
  match n with
  | O => Some ([], bs)
  | S n => '(x, bs) ← rd bs; '(xs, bs) ← read_n rd n bs; Some (x :: xs, bs)
  end.

(** The loops of the delta, delta-of-delta, sparse and run-length cases. *)
Fixpoint delta_read (n : nat) (cur : Z) (bs : list Z) : option (list Z * list Z) :=
  match n with
  | O => Some ([], bs)
  | S n =>
      '(d, bs) ← read_zz bs;
      let cur := wrap_i64 (cur + d) in
      '(xs, bs) ← delta_read n cur bs; Some (cur :: xs, bs)
  end.
Fixpoint dod_read (n : nat) (prev prev_delta : Z) (bs : list Z) : option (list Z * list Z) :=
  match n with
  | O => Some ([], bs)
  | S n =>
      '(d, bs) ← read_zz bs;
      let prev_delta := wrap_i64 (prev_delta + d) in
      let prev := wrap_i64 (prev + prev_delta) in
      '(xs, bs) ← dod_read n prev prev_delta bs; Some (prev :: xs, bs)
  end.
Fixpoint sparse_read (n : nat) (idx : Z) (v : list Z) (bs : list Z) : option (list Z * list Z) :=
  match n with
  | O => Some (v, bs)
  | S n =>
      '(d, bs) ← read_uvarint bs;
      let idx := idx + d in
      if two64 <=? idx then None
      else
        '(x, bs) ← read_zz bs;
        if idx <? len v then sparse_read n idx (<[Z.to_nat idx := x]> v) bs else None
  end.
Fixpoint rle_read (n : nat) (v : list Z) (bs : list Z) : option (list Z * list Z) :=
  match n with
  | O => Some (v, bs)
  | S n =>
      '(x, bs) ← read_zz bs;
      '(k, bs) ← read_uvarint bs;
      if RLE_MAX_TOTAL <? len v + k then None else rle_read n (v ++ repeat x (Z.to_nat k)) bs
  end.

(** describe.rs:2159-2418 [decode_int_column_body]; [levels] is [DECODE_MAX_DEPTH - depth]. *)
Fixpoint decode_body (levels : nat) (tag : Z) (max : Z) (bs : list Z) : option (list Z * list Z) :=
  if tag =? T_INTS then
    '(header, bs) ← read_uvarint bs;
    n ← bounded (Z.shiftr header 1) max;
    '(us, bs) ← read_n read_uvarint n bs;
    Some (map (if Z.land header 1 =? 1 then unzigzag else wrap_i64) us, bs)
  else if tag =? T_INTS_AFFINE then
    '(base, bs) ← read_zz bs; '(stride, bs) ← read_zz bs; '(n, bs) ← read_uvarint bs;
    n ← bounded n max;
    Some (expand (affine_at base stride) 0 n, bs)
  else if tag =? T_INTS_GEOMETRIC then
    '(base, bs) ← read_zz bs; '(ratio, bs) ← read_zz bs; '(n, bs) ← read_uvarint bs;
    n ← bounded n max;
    Some (geo_expand base ratio n, bs)
  else if tag =? T_INTS_PERIODIC then
    '(n, bs) ← read_uvarint bs;
    n ← bounded n max;
    match levels with
    | O => None
    | S levels =>
        '(block_tag, bs) ← read_byte bs;
        '(block, bs) ← decode_body levels block_tag max bs;
        let p := len block in
        if p =? 0 then None
        else Some (expand (fun i => nth (Z.to_nat (i mod p)) block 0) 0 n, bs)
    end
  else if tag =? T_INTS_SPARSE then
    '(dom, bs) ← read_zz bs; '(n, bs) ← read_uvarint bs;
    n ← bounded n max;
    '(num_exc, bs) ← read_uvarint bs;
    num_exc ← bounded num_exc max;
    sparse_read num_exc 0 (repeat dom n) bs
  else if tag =? T_INTS_POLY then
    '(degree, bs) ← read_byte bs;
    if Z.of_nat MAX_POLY_DEGREE <? degree then None
    else
      '(n, bs) ← read_uvarint bs;
      n ← bounded n max;
      '(seeds, bs) ← read_n read_zz (S (Z.to_nat degree)) bs;
      Some (reconstruct_poly seeds n, bs)
  else if tag =? T_INTS_LRECUR then
    '(k, bs) ← read_byte bs;
    if (k =? 0) || (Z.of_nat MAX_RECUR_ORDER <? k) then None
    else
      '(n, bs) ← read_uvarint bs;
      n ← bounded n max;
      '(coeffs, bs) ← read_n read_zz (Z.to_nat k) bs;
      '(seeds, bs) ← read_n read_zz (Z.to_nat k) bs;
      Some (reconstruct_recurrence coeffs seeds n, bs)
  else if tag =? T_INTS_LFSR then
    '(n, bs) ← read_uvarint bs;
    n ← bounded n max;
    '(l, bs) ← read_uvarint bs;
    let total_bits := Z.of_nat n * 8 in
    if two64 <=? total_bits then None
    else if total_bits <? l then None
    else
      let nbytes := (l + 7) / 8 in
      '(tap_bytes, bs) ← take_bytes nbytes bs;
      taps ← bitunpack tap_bytes l 1;
      '(seed_bytes, bs) ← take_bytes nbytes bs;
      seed ← bitunpack seed_bytes l 1;
      Some (bits_to_bytes (lfsr_generate (map (fun x => x =? 1) taps) (map (fun x => x =? 1) seed) (Z.to_nat total_bits)), bs)
  else if tag =? T_INTS_FCSR then
    '(n, bs) ← read_uvarint bs;
    n ← bounded n max;
    '(p, bs) ← read_bigint bs;
    '(q, bs) ← read_bigint bs;
    if negb (Z.odd q) then None
    else
      let total_bits := Z.of_nat n * 8 in
      if two64 <=? total_bits then None
      else Some (bits_to_bytes (fcsr_generate p q (Z.to_nat total_bits)), bs)
  else if tag =? T_GEN then
    '(e, bs, _) ← deserialize_gen (S MAX_GEN_DEPTH) bs MAX_GEN_NODES;
    '(n, bs) ← read_uvarint bs;
    n ← bounded n max;
    Some (expand (gen_eval e) 0 n, bs)
  else if tag =? T_BYTES then
    '(n, bs) ← read_uvarint bs;
    take_bytes n bs
  else if tag =? T_INTS_DELTA then
    '(n, bs) ← read_uvarint bs;
    if n =? 0 then Some ([], bs)
    else
      '(cur, bs) ← read_zz bs;
      '(xs, bs) ← delta_read (Z.to_nat (n - 1)) cur bs;
      Some (cur :: xs, bs)
  else if tag =? T_INTS_DOD then
    '(n, bs) ← read_uvarint bs;
    if n =? 0 then Some ([], bs)
    else
      '(first, bs) ← read_zz bs;
      if n =? 1 then Some ([first], bs)
      else
        '(prev_delta, bs) ← read_zz bs;
        let prev := wrap_i64 (first + prev_delta) in
        '(xs, bs) ← dod_read (Z.to_nat (n - 2)) prev prev_delta bs;
        Some (first :: prev :: xs, bs)
  else if tag =? T_INTS_FOR then
    '(n, bs) ← read_uvarint bs;
    '(mn, bs) ← read_zz bs;
    '(width, bs) ← read_byte bs;
    if 64 <? width then None
    else if width =? 0 then Some (repeat mn (Z.to_nat n), bs)
    else if two64 <=? n * width then None
    else
      '(bytes, bs) ← take_bytes ((n * width + 7) / 8) bs;
      rs ← bitunpack bytes n width;
      Some (map (fun r => wrap_i64 (wrap64 (r + wrap64 mn))) rs, bs)
  else if tag =? T_INTS_RLE then
    '(runs, bs) ← read_uvarint bs;
    rle_read (Z.to_nat runs) [] bs
  else if tag =? T_INTS_DICT then
    '(d, bs) ← read_uvarint bs;
    '(dict, bs) ← read_n read_zz (Z.to_nat d) bs;
    '(n, bs) ← read_uvarint bs;
    '(iw, bs) ← read_byte bs;
    if 64 <? iw then None
    else if iw =? 0 then
      (if 0 <? n then x ← head dict; Some (repeat x (Z.to_nat n), bs) else Some ([], bs))
    else if two64 <=? n * iw then None
    else
      '(bytes, bs) ← take_bytes ((n * iw + 7) / 8) bs;
      ixs ← bitunpack bytes n iw;
      v ← mapM (fun ix => dict !! Z.to_nat ix) ixs;
      Some (v, bs)
  else None.

(** describe.rs:2423-2429 [decode_int_seq]. *)
Definition decode_int_seq (bytes : list Z) : option (list Z) :=
  '(tag, bs) ← read_byte bytes;
  '(v, rest) ← decode_body DECODE_MAX_DEPTH tag DEFAULT_MAX_ELEMENTS bs;
  if (length rest =? 0)%nat then Some v else None.
