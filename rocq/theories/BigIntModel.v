(** Model of the big integers of [crates/logicaffeine_base/src/numeric.rs]. A limb is a [Z] in
    [0, 2^64); [u128] arithmetic is reduced modulo [2^128] and [u64] arithmetic modulo [2^64].
    Loops over indices are written as recursions that walk the limb lists. *)
From Coq Require Import ZArith List.
From stdpp Require Import list.
From Verif Require Import MachInt WireModel.
Open Scope Z_scope.

Definition two128 : Z := 2 ^ 128.
Definition wrap128 (x : Z) : Z := x mod two128.

(** numeric.rs:22-34, 43-47. *)
Inductive bsign := Neg | Zero | Pos.
Inductive bmag := Inline (x : Z) | Heap (v : list Z).
Record bigint := BigInt { bi_sign : bsign; bi_mag : bmag }.
Definition bsign_eqb (a b : bsign) : bool := match a, b with Neg, Neg | Zero, Zero | Pos, Pos => true | _, _ => false end.

(** numeric.rs:84-89 [normalize]: pops zero limbs off the end. *)
Fixpoint pop_zeros (r : list Z) : list Z := match r with x :: r' => if x =? 0 then pop_zeros r' else r | [] => [] end.
Definition normalize (v : list Z) : list Z := rev (pop_zeros (rev v)).
(** numeric.rs:51-60 [Mag::from_vec]. *)
Definition mag_from_vec (v : list Z) : bmag :=
  match normalize v with
  | [] => Inline 0
  | [x] => Inline x
  | v => Heap v
  end.
(** numeric.rs:63-69 [limbs], 73-78 [as_single]. *)
Definition limbs (m : bmag) : list Z := match m with Inline x => if x =? 0 then [] else [x] | Heap v => v end.
Definition as_single (m : bmag) : option Z := match m with Inline x => Some x | Heap _ => None end.

(** numeric.rs:92-105 [mag_cmp]: lengths, then limbs from the most significant. *)
Fixpoint lex_cmp (a b : list Z) : comparison :=
  match a, b with
  | x :: a, y :: b => match x ?= y with Eq => lex_cmp a b | c => c end
  | _, _ => Eq
  end.
Definition mag_cmp (a b : list Z) : comparison :=
  match Nat.compare (length a) (length b) with
  | Eq => lex_cmp (rev a) (rev b)
  | c => c
  end.

(** numeric.rs:108-122 [mag_add]; [n] counts the remaining positions. *)
Fixpoint add_loop (n : nat) (a b : list Z) (carry : Z) : list Z :=
  match n with
  | O => if carry =? 0 then [] else [wrap64 carry]
  | S n => let sum := wrap128 (hd 0 a + hd 0 b + carry) in wrap64 sum :: add_loop n (tl a) (tl b) (Z.shiftr sum 64)
  end.
Definition mag_add (a b : list Z) : list Z := normalize (add_loop (Nat.max (length a) (length b)) a b 0).

(** numeric.rs:125-143 [mag_sub]; the debug assertions are left out. *)
Fixpoint sub_loop (a b : list Z) (borrow : Z) : list Z :=
  match a with
  | [] => []
  | av :: a =>
      let diff := av - hd 0 b - borrow in
      if diff <? 0 then wrap64 (diff + Z.shiftl 1 64) :: sub_loop a (tl b) 1
      else wrap64 diff :: sub_loop a (tl b) 0
  end.
Definition mag_sub (a b : list Z) : list Z := normalize (sub_loop a b 0).

(** numeric.rs:146-161 [mag_mul]. [mul_row] is the inner loop on the part of [out] from
    position [i] on, including the final [out[i + b.len()] += carry]; [None] is the panic of
    an index out of range. *)
Fixpoint mul_row (av : Z) (b out : list Z) (carry : Z) : option (list Z) :=
  match out with
  | [] => None
  | o :: out =>
      match b with
      | [] => Some (wrap64 (o + wrap64 carry) :: out)
      | bv :: b =>
          let cur := wrap128 (o + wrap128 (av * bv) + carry) in
          match mul_row av b out (Z.shiftr cur 64) with
          | Some r => Some (wrap64 cur :: r)
          | None => None
          end
      end
  end.
Fixpoint mul_rows (a b out : list Z) : option (list Z) :=
  match a with
  | [] => Some out
  | av :: a =>
      match mul_row av b out 0 with
      | Some (o :: out) => match mul_rows a b out with Some r => Some (o :: r) | None => None end
      | _ => None
      end
  end.
Definition mag_mul (a b : list Z) : option (list Z) :=
  match a, b with
  | [], _ | _, [] => Some []
  | _, _ => match mul_rows a b (repeat 0 (length a + length b)) with Some out => Some (normalize out) | None => None end
  end.

(** numeric.rs:164-175 [mag_shl1]. *)
Fixpoint shl1_loop (a : list Z) (carry : Z) : list Z :=
  match a with
  | [] => if carry =? 0 then [] else [carry]
  | limb :: a => Z.lor (wrap64 (Z.shiftl limb 1)) carry :: shl1_loop a (Z.shiftr limb 63)
  end.
Definition mag_shl1 (a : list Z) (bit : Z) : list Z := normalize (shl1_loop a (Z.land bit 1)).

(** numeric.rs:180-197 [mag_divrem]; [n] bits remain to be processed. *)
Fixpoint divrem_loop (n : nat) (a b q r : list Z) : list Z * list Z :=
  match n with
  | O => (q, r)
  | S i =>
      let bit := Z.land (Z.shiftr (nth (i / 64) a 0) (Z.of_nat (i mod 64))) 1 in
      let r := mag_shl1 r bit in
      match mag_cmp r b with
      | Lt => divrem_loop i a b q r
      | _ => divrem_loop i a b (<[(i / 64)%nat := Z.lor (nth (i / 64) q 0) (Z.shiftl 1 (Z.of_nat (i mod 64)))]> q) (mag_sub r b)
      end
  end.
Definition mag_divrem (a b : list Z) : list Z * list Z :=
  match mag_cmp a b with
  | Lt => ([], a)
  | _ => let '(q, r) := divrem_loop (length a * 64) a b (repeat 0 (length a)) [] in (normalize q, normalize r)
  end.

(** numeric.rs:201-229. *)
Definition bi_zero : bigint := BigInt Zero (Inline 0).
Definition from_sign_mag (neg : bool) (v : list Z) : bigint :=
  let m := mag_from_vec v in
  BigInt (match limbs m with [] => Zero | _ => if neg then Neg else Pos end) m.
Definition from_sign_mag_u128 (neg : bool) (m : Z) : bigint :=
  if m =? 0 then bi_zero
  else
    let lo := wrap64 m in
    let hi := wrap64 (Z.shiftr m 64) in
    BigInt (if neg then Neg else Pos) (if hi =? 0 then Inline lo else Heap [lo; hi]).
(** numeric.rs:232-239 [from_i64], [from_u64]. *)
Definition bi_from_i64 (x : Z) : bigint := from_sign_mag_u128 (x <? 0) (Z.abs x).
Definition bi_from_u64 (x : Z) : bigint := from_sign_mag_u128 false x.
(** numeric.rs:243-251 [to_i64]. *)
Definition bi_to_i64 (b : bigint) : option Z :=
  match as_single (bi_mag b) with
  | None => None
  | Some m => let v := if bsign_eqb (bi_sign b) Neg then - m else m in if (- 2 ^ 63 <=? v) && (v <=? 2 ^ 63 - 1) then Some v else None
  end.
(** numeric.rs:253-260, 276-297. *)
Definition bi_is_zero (b : bigint) : bool := bsign_eqb (bi_sign b) Zero.
Definition bi_is_odd (b : bigint) : bool := match limbs (bi_mag b) with x :: _ => Z.land x 1 =? 1 | [] => false end.
Definition bi_is_negative (b : bigint) : bool := bsign_eqb (bi_sign b) Neg.
Definition bi_is_positive (b : bigint) : bool := bsign_eqb (bi_sign b) Pos.
Definition bi_abs (b : bigint) : bigint := BigInt (match bi_sign b with Zero => Zero | _ => Pos end) (bi_mag b).
Definition bi_negated (b : bigint) : bigint := BigInt (match bi_sign b with Neg => Pos | Zero => Zero | Pos => Neg end) (bi_mag b).

(** numeric.rs:300-330 [add]. *)
Definition bi_add (x y : bigint) : bigint :=
  match as_single (bi_mag x), as_single (bi_mag y) with
  | Some a, Some b =>
      let av := if bsign_eqb (bi_sign x) Neg then - a else a in
      let bv := if bsign_eqb (bi_sign y) Neg then - b else b in
      from_sign_mag_u128 (av + bv <? 0) (Z.abs (av + bv))
  | _, _ =>
      match bi_sign x, bi_sign y with
      | Zero, _ => y
      | _, Zero => x
      | a, b =>
          if bsign_eqb a b then from_sign_mag (bsign_eqb a Neg) (mag_add (limbs (bi_mag x)) (limbs (bi_mag y)))
          else match mag_cmp (limbs (bi_mag x)) (limbs (bi_mag y)) with
               | Eq => bi_zero
               | Gt => from_sign_mag (bsign_eqb a Neg) (mag_sub (limbs (bi_mag x)) (limbs (bi_mag y)))
               | Lt => from_sign_mag (bsign_eqb b Neg) (mag_sub (limbs (bi_mag y)) (limbs (bi_mag x)))
               end
      end
  end.
(** numeric.rs:333-335 [sub]. *)
Definition bi_sub (x y : bigint) : bigint := bi_add x (bi_negated y).
(** numeric.rs:338-348 [mul]; the panic of [mag_mul] is proved not to happen, here it gives zero. *)
Definition bi_mul (x y : bigint) : bigint :=
  let neg := xorb (bsign_eqb (bi_sign x) Neg) (bsign_eqb (bi_sign y) Neg) in
  match as_single (bi_mag x), as_single (bi_mag y) with
  | Some a, Some b => from_sign_mag_u128 neg (wrap128 (a * b))
  | _, _ =>
      if bi_is_zero x || bi_is_zero y then bi_zero
      else from_sign_mag neg (default [] (mag_mul (limbs (bi_mag x)) (limbs (bi_mag y))))
  end.
(** numeric.rs:354-375 [div_rem]. *)
Definition bi_div_rem (x y : bigint) : option (bigint * bigint) :=
  if bi_is_zero y then None
  else
    let q_neg := xorb (bsign_eqb (bi_sign x) Neg) (bsign_eqb (bi_sign y) Neg) in
    match as_single (bi_mag x), as_single (bi_mag y) with
    | Some a, Some b => Some (from_sign_mag_u128 q_neg (a / b), from_sign_mag_u128 (bsign_eqb (bi_sign x) Neg) (a mod b))
    | _, _ =>
        if bi_is_zero x then Some (bi_zero, bi_zero)
        else let '(qm, rm) := mag_divrem (limbs (bi_mag x)) (limbs (bi_mag y)) in
             Some (from_sign_mag q_neg qm, from_sign_mag (bsign_eqb (bi_sign x) Neg) rm)
    end.

(** numeric.rs:378-397 [parse_decimal]; a text is its bytes. *)
Definition is_ascii_digit (d : Z) : bool := (48 <=? d) && (d <=? 57).
Fixpoint parse_digits (acc : bigint) (ds : list Z) : option bigint :=
  match ds with
  | [] => Some acc
  | d :: ds => if is_ascii_digit d then parse_digits (bi_add (bi_mul acc (bi_from_u64 10)) (bi_from_u64 (d - 48))) ds else None
  end.
Definition bi_parse_decimal (s : list Z) : option bigint :=
  let '(neg, digits) := match s with c :: s' => if c =? 45 then (true, s') else if c =? 43 then (false, s') else (false, s) | [] => (false, s) end in
  match digits with
  | [] => None
  | _ => match parse_digits bi_zero digits with None => None | Some acc => Some (if neg then bi_negated acc else acc) end
  end.

(** numeric.rs:401-414 [pow]; a [u32] exponent takes at most 32 rounds. *)
Fixpoint bi_pow_loop (n : nat) (result base : bigint) (exp : Z) : bigint :=
  match n with
  | O => result
  | S n =>
      if exp =? 0 then result
      else
        let result := if Z.land exp 1 =? 1 then bi_mul result base else result in
        let exp := Z.shiftr exp 1 in
        bi_pow_loop n result (if 0 <? exp then bi_mul base base else base) exp
  end.
Definition bi_pow (b : bigint) (exp : Z) : bigint := bi_pow_loop 32 (bi_from_u64 1) b exp.

(** numeric.rs:419-438 [to_le_bytes], [from_le_bytes]. *)
Definition bi_to_le_bytes (b : bigint) : bool * list Z :=
  (bsign_eqb (bi_sign b) Neg, concat (map (le_bytes 8) (limbs (bi_mag b)))).
Fixpoint limbs_of_bytes (n : nat) (bs : list Z) : list Z :=
  match n, bs with
  | S n, _ :: _ => from_le (take 8 bs) :: limbs_of_bytes n (drop 8 bs)
  | _, _ => []
  end.
Definition bi_from_le_bytes (neg : bool) (bs : list Z) : bigint := from_sign_mag neg (limbs_of_bytes (length bs) bs).

(** numeric.rs:441-458 [cmp]. *)
Definition rank (s : bsign) : Z := match s with Neg => -1 | Zero => 0 | Pos => 1 end.
Definition bi_cmp (x y : bigint) : comparison :=
  match rank (bi_sign x) ?= rank (bi_sign y) with
  | Eq => match bi_sign x with
          | Zero => Eq
          | Pos => mag_cmp (limbs (bi_mag x)) (limbs (bi_mag y))
          | Neg => mag_cmp (limbs (bi_mag y)) (limbs (bi_mag x))
          end
  | c => c
  end.
(** The derived structural equality (numeric.rs:30, 43). *)
Definition bi_eqb (x y : bigint) : bool :=
  bsign_eqb (bi_sign x) (bi_sign y) &&
  match bi_mag x, bi_mag y with
  | Inline a, Inline b => a =? b
  | Heap a, Heap b => bool_decide (a = b)
  | _, _ => false
  end.

(** [u64]'s decimal formatting, [{}] and [{:019}]: digits from the last to the first. *)
Fixpoint digits_rev (n : nat) (x : Z) : list Z :=
  match n with O => [] | S n => 48 + x mod 10 :: (if x / 10 =? 0 then [] else digits_rev n (x / 10)) end.
Definition show_u64 (x : Z) : list Z := rev (digits_rev 20 x).
Definition show_u64_19 (x : Z) : list Z := repeat 48 (19 - length (show_u64 x)) ++ show_u64 x.

(** numeric.rs:466-494 [Display]. The loop is bounded by the number of bits; [None] is the panic
    of [expect] or [unwrap]. Chunks are collected most significant first. *)
Definition TEN19 : Z := 10000000000000000000.
Fixpoint chunk_loop (n : nat) (cur : bigint) (chunks : list Z) : option (list Z) :=
  if bi_is_zero cur then Some chunks
  else match n with
       | O => None
       | S n => match bi_div_rem cur (bi_from_u64 TEN19) with
                | None => None
                | Some (q, r) => chunk_loop n q (hd 0 (limbs (bi_mag r)) :: chunks)
                end
       end.
Definition bi_show (b : bigint) : option (list Z) :=
  if bi_is_zero b then Some [48]
  else match chunk_loop (64 * length (limbs (bi_mag b))) (bi_abs b) [] with
       | Some (c :: cs) => Some ((if bi_is_negative b then [45] else []) ++ show_u64 c ++ concat (map show_u64_19 cs))
       | _ => None
       end.
