(** Model of exact fractions: crates/logicaffeine_base/src/numeric.rs, lines 508–767.
    [None] where the code says [expect] means a panic; the theorems show it never happens. Texts are
    lists of bytes. *)
From Coq Require Import ZArith List.
From stdpp Require Import list.
From Verif Require Import MachInt BigIntModel.
Open Scope Z_scope.

(** The loop of [bigint_gcd]; the bound is a step limit, proved never to be reached.
    numeric.rs 516–520. *)
Fixpoint gcd_loop (n : nat) (a b : bigint) : option bigint :=
  if bi_is_zero b then Some a else
  match n with
  | O => None
  | S n => match bi_div_rem a b with Some (_, r) => gcd_loop n b r | None => None end
  end.
(** numeric.rs 513–522. Two rounds halve the second number, hence the step limit. *)
Definition bigint_gcd (a b : bigint) : option bigint :=
  gcd_loop (128 * length (limbs (bi_mag b))) (bi_abs a) (bi_abs b).

(** numeric.rs 534–541. *)
Record rational := Rat { r_num : bigint; r_den : bigint }.
Definition bi_one : bigint := bi_from_i64 1.

(** [Rational::new]: the outer option is the panic of an [expect], the inner one the refusal.
    numeric.rs 547–563. *)
Definition rat_new (num den : bigint) : option (option rational) :=
  if bi_is_zero den then Some None else
  let '(num, den) := if bi_is_negative den then (bi_negated num, bi_negated den) else (num, den) in
  if bi_is_zero num then Some (Some (Rat bi_zero bi_one)) else
  match bigint_gcd num den with
  | None => None
  | Some g => match bi_div_rem num g, bi_div_rem den g with
              | Some (n, _), Some (d, _) => Some (Some (Rat n d))
              | _, _ => None
              end
  end.
(** [Rational::new(..).expect(..)]. *)
Definition expect (o : option (option rational)) : option rational := match o with Some (Some r) => Some r | _ => None end.

(** numeric.rs 566–585. *)
Definition rat_from_bigint (n : bigint) : rational := Rat n bi_one.
Definition rat_from_i64 (x : Z) : rational := rat_from_bigint (bi_from_i64 x).
Definition rat_from_ratio_i64 (n d : Z) : option (option rational) := rat_new (bi_from_i64 n) (bi_from_i64 d).
Definition rat_zero : rational := Rat bi_zero bi_one.
Definition rat_one : rational := rat_from_i64 1.

(** numeric.rs 596–629. *)
Definition rat_is_integer (x : rational) : bool := bi_eqb (r_den x) bi_one.
Definition rat_is_zero (x : rational) : bool := bi_is_zero (r_num x).
Definition rat_is_negative (x : rational) : bool := bi_is_negative (r_num x).
Definition rat_is_positive (x : rational) : bool := bi_is_positive (r_num x).
Definition rat_to_bigint (x : rational) : option bigint := if rat_is_integer x then Some (r_num x) else None.
Definition rat_to_i64 (x : rational) : option Z := if rat_is_integer x then bi_to_i64 (r_num x) else None.

(** numeric.rs 639–646. *)
Definition rat_floor (x : rational) : option bigint :=
  match bi_div_rem (r_num x) (r_den x) with
  | Some (q, r) => Some (if bi_is_negative (r_num x) && negb (bi_is_zero r) then bi_sub q bi_one else q)
  | None => None
  end.
(** numeric.rs 650–657. *)
Definition rat_ceil (x : rational) : option bigint :=
  match bi_div_rem (r_num x) (r_den x) with
  | Some (q, r) => Some (if negb (bi_is_negative (r_num x)) && negb (bi_is_zero r) then bi_add q bi_one else q)
  | None => None
  end.
(** numeric.rs 661–671. *)
Definition rat_round (x : rational) : option bigint :=
  let two := bi_from_i64 2 in
  let numerator := bi_add (bi_mul (bi_abs (r_num x)) two) (r_den x) in
  let denominator := bi_mul (r_den x) two in
  match bi_div_rem numerator denominator with
  | Some (mag, _) => Some (if bi_is_negative (r_num x) then bi_negated mag else mag)
  | None => None
  end.

(** numeric.rs 673–684. *)
Definition rat_negated (x : rational) : rational := Rat (bi_negated (r_num x)) (r_den x).
Definition rat_abs (x : rational) : rational := Rat (bi_abs (r_num x)) (r_den x).
Definition rat_recip (x : rational) : option (option rational) := rat_new (r_den x) (r_num x).

(** numeric.rs 686–711. *)
Definition rat_add (x y : rational) : option rational :=
  expect (rat_new (bi_add (bi_mul (r_num x) (r_den y)) (bi_mul (r_num y) (r_den x))) (bi_mul (r_den x) (r_den y))).
Definition rat_sub (x y : rational) : option rational :=
  expect (rat_new (bi_sub (bi_mul (r_num x) (r_den y)) (bi_mul (r_num y) (r_den x))) (bi_mul (r_den x) (r_den y))).
Definition rat_mul (x y : rational) : option rational :=
  expect (rat_new (bi_mul (r_num x) (r_num y)) (bi_mul (r_den x) (r_den y))).
Definition rat_div (x y : rational) : option (option rational) :=
  rat_new (bi_mul (r_num x) (r_den y)) (bi_mul (r_den x) (r_num y)).

(** The exponent is an [i32]. numeric.rs 715–730. *)
Definition rat_pow (x : rational) (exp : Z) : option (option rational) :=
  if 0 <=? exp then
    match expect (rat_new (bi_pow (r_num x) exp) (bi_pow (r_den x) exp)) with Some r => Some (Some r) | None => None end
  else if bi_is_zero (r_num x) then Some None
  else rat_new (bi_pow (r_den x) (Z.abs exp)) (bi_pow (r_num x) (Z.abs exp)).

(** [str::trim]. Only the ASCII white space is modelled. *)
Definition is_space (c : Z) : bool := ((9 <=? c) && (c <=? 13)) || (c =? 32).
Fixpoint trim_start (s : list Z) : list Z := match s with c :: s' => if is_space c then trim_start s' else s | [] => [] end.
Definition trim (s : list Z) : list Z := rev (trim_start (rev (trim_start s))).
(** [str::split_once] with a character. *)
Fixpoint split_once (sep : Z) (s : list Z) : option (list Z * list Z) :=
  match s with
  | [] => None
  | c :: s' => if c =? sep then Some ([], s') else match split_once sep s' with Some (a, b) => Some (c :: a, b) | None => None end
  end.

(** numeric.rs 734–743. *)
Definition rat_parse (s : list Z) : option (option rational) :=
  let s := trim s in
  match split_once 47 s with
  | Some (n, d) =>
      match bi_parse_decimal (trim n) with
      | None => Some None
      | Some num => match bi_parse_decimal (trim d) with None => Some None | Some den => rat_new num den end
      end
  | None => Some (match bi_parse_decimal s with Some n => Some (rat_from_bigint n) | None => None end)
  end.

(** Derived structural equality, numeric.rs 533; the order, 746–751. *)
Definition rat_eqb (x y : rational) : bool := bi_eqb (r_num x) (r_num y) && bi_eqb (r_den x) (r_den y).
Definition rat_cmp (x y : rational) : comparison := bi_cmp (bi_mul (r_num x) (r_den y)) (bi_mul (r_num y) (r_den x)).

(** [Display], numeric.rs 759–767. *)
Definition rat_show (x : rational) : option (list Z) :=
  if rat_is_integer x then bi_show (r_num x) else
  match bi_show (r_num x), bi_show (r_den x) with Some n, Some d => Some (n ++ [47] ++ d) | _, _ => None end.
