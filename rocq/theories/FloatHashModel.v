(** Model of exact float interoperation and of the shared numeric hash:
    crates/logicaffeine_base/src/numeric.rs, lines 1449–1616.
    An [f64] is its 64-bit pattern. [None] at the outer level means a panic. *)
From Coq Require Import ZArith List QArith.
From stdpp Require Import list.
From Verif Require Import MachInt BigIntModel RationalModel.
Open Scope Z_scope.

(** ** The [f64] operations of the standard library that the code uses (IEEE 754 binary64) *)
Definition f_biased (bits : Z) : Z := Z.land (Z.shiftr bits 52) 2047.
Definition f_frac (bits : Z) : Z := Z.land bits (2 ^ 52 - 1).
Definition f_is_nan (bits : Z) : bool := (f_biased bits =? 2047) && negb (f_frac bits =? 0).
Definition f_is_finite (bits : Z) : bool := negb (f_biased bits =? 2047).
Definition INFINITY : Z := 2047 * 2 ^ 52.
Definition NEG_INFINITY : Z := 2 ^ 63 + 2047 * 2 ^ 52.
(** The number a finite pattern stands for: sign bit, then [1.frac · 2^(biased-1023)], or
    [0.frac · 2^-1022] for subnormal patterns. *)
Definition fval (bits : Z) : Q :=
  ((if bits / 2 ^ 63 =? 0 then 1 else -1) *
   (if (bits / 2 ^ 52) mod 2 ^ 11 =? 0 then (inject_Z (bits mod 2 ^ 52) / inject_Z (2 ^ 52)) * (2 # 1) ^ (-1022)
    else (1 + inject_Z (bits mod 2 ^ 52) / inject_Z (2 ^ 52)) * (2 # 1) ^ ((bits / 2 ^ 52) mod 2 ^ 11 - 1023)))%Q.
(** [i as f64] where it is exact, |i| <= 2^53: the leading bit gives the exponent, the rest the fraction. *)
Definition i64_as_f64 (i : Z) : Z :=
  if i =? 0 then 0 else
  let e := Z.log2 (Z.abs i) in
  (if i <? 0 then 2 ^ 63 else 0) + (e + 1023) * 2 ^ 52 + (Z.abs i - 2 ^ e) * 2 ^ 52 / 2 ^ e.
(** [f64::partial_cmp] on patterns that are neither NaN nor infinite compares the numbers. *)
Definition f_partial_cmp (a b : Z) : option comparison :=
  if f_is_nan a || f_is_nan b then None
  else Some (if a =? b then Eq else if a =? INFINITY then Gt else if a =? NEG_INFINITY then Lt else if b =? INFINITY then Lt else if b =? NEG_INFINITY then Gt else (fval a ?= fval b)%Q).

(** ** The code *)
(** numeric.rs 1461. *)
Definition HASH_P : Z := 2 ^ 61 - 1.
(** numeric.rs 1465–1479. *)
Definition decompose_f64 (bits : Z) : option (bool * Z * Z) :=
  if negb (f_is_finite bits) then None
  else
    let neg := Z.shiftr bits 63 =? 1 in
    let biased := Z.land (Z.shiftr bits 52) 2047 in
    let frac := Z.land bits (2 ^ 52 - 1) in
    let '(m, e) := if biased =? 0 then (frac, -1074) else (Z.lor frac (2 ^ 52), biased - 1075) in
    Some (neg, m, e).
(** numeric.rs 1482–1493. *)
Definition rational_from_f64_exact (bits : Z) : option (option rational) :=
  match decompose_f64 bits with
  | None => Some None
  | Some (neg, m, e) =>
      let mag := bi_from_u64 m in
      let two := bi_from_u64 2 in
      let '(num, den) := if 0 <=? e then (bi_mul mag (bi_pow two e), bi_from_i64 1) else (mag, bi_pow two (- e)) in
      let num := if neg then bi_negated num else num in
      rat_new num den
  end.
(** numeric.rs 1496–1513. *)
Definition cmp_i64_f64_exact (i bits : Z) : option (option comparison) :=
  if f_is_nan bits then Some None
  else if bits =? INFINITY then Some (Some Lt)
  else if bits =? NEG_INFINITY then Some (Some Gt)
  else if Z.abs i <=? 2 ^ 53 then Some (f_partial_cmp (i64_as_f64 i) bits)
  else match rational_from_f64_exact bits with Some (Some fr) => Some (Some (rat_cmp (rat_from_i64 i) fr)) | _ => None end.
(** numeric.rs 1516–1528. *)
Definition cmp_bigint_f64_exact (b : bigint) (bits : Z) : option (option comparison) :=
  if f_is_nan bits then Some None
  else if bits =? INFINITY then Some (Some Lt)
  else if bits =? NEG_INFINITY then Some (Some Gt)
  else match rational_from_f64_exact bits with Some (Some fr) => Some (Some (rat_cmp (rat_from_bigint b) fr)) | _ => None end.
(** numeric.rs 1531–1543. *)
Definition cmp_rational_f64_exact (r : rational) (bits : Z) : option (option comparison) :=
  if f_is_nan bits then Some None
  else if bits =? INFINITY then Some (Some Lt)
  else if bits =? NEG_INFINITY then Some (Some Gt)
  else match rational_from_f64_exact bits with Some (Some fr) => Some (Some (rat_cmp r fr)) | _ => None end.

(** numeric.rs 1546–1549. *)
Definition mod_p (x : Z) : Z :=
  let r := Z.land x HASH_P + Z.shiftr x 61 in
  if HASH_P <=? r then r - HASH_P else r.
(** numeric.rs 1551–1553; the product is a [u128]. *)
Definition mul_mod_p (a b : Z) : Z := (wrap128 (a * b)) mod HASH_P.
(** The loop of [pow_mod_p], at most 64 rounds for a [u64]. numeric.rs 1558–1564. *)
Fixpoint pow_mod_loop (n : nat) (acc base exp : Z) : Z :=
  match n with
  | O => acc
  | S n =>
      if exp =? 0 then acc else
      let acc := if Z.land exp 1 =? 1 then mul_mod_p acc base else acc in
      pow_mod_loop n acc (mul_mod_p base base) (Z.shiftr exp 1)
  end.
(** numeric.rs 1555–1566. *)
Definition pow_mod_p (base exp : Z) : Z := pow_mod_loop 64 1 (base mod HASH_P) exp.
(** numeric.rs 1570–1572. *)
Definition signed_hash (neg : bool) (h : Z) : Z := if neg && negb (h =? 0) then HASH_P - h else h.
(** numeric.rs 1575–1577. *)
Definition hash_i64 (n : Z) : Z := signed_hash (n <? 0) (mod_p (Z.abs n)).
(** numeric.rs 1581–1588: limbs from the most significant one. *)
Fixpoint hash_limbs (rev_limbs : list Z) (acc : Z) : Z :=
  match rev_limbs with
  | [] => acc
  | limb :: rest => hash_limbs rest ((acc * 8 + mod_p limb) mod HASH_P)
  end.
Definition hash_bigint (b : bigint) : Z := signed_hash (bi_is_negative b) (hash_limbs (rev (limbs (bi_mag b))) 0).
(** numeric.rs 1593–1606. [rem_euclid(61)] is the nonnegative remainder. *)
Definition hash_f64 (bits : Z) : option Z :=
  if f_is_nan bits then Some 7233902
  else if bits =? INFINITY then Some 314159
  else if bits =? NEG_INFINITY then Some (HASH_P - 314159)
  else match decompose_f64 bits with
       | None => None
       | Some (neg, m, e) => Some (signed_hash neg (mul_mod_p (mod_p m) (pow_mod_p 2 (e mod 61))))
       end.
(** numeric.rs 1611–1616. *)
Definition hash_rational (r : rational) : Z :=
  let num := hash_bigint (bi_abs (r_num r)) in
  let den := hash_bigint (bi_abs (r_den r)) in
  let inv := pow_mod_p den (HASH_P - 2) in
  signed_hash (rat_is_negative r) (mul_mod_p num inv).
