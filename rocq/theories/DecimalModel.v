(** Model of base-ten fixed-point numbers: crates/logicaffeine_base/src/numeric.rs, lines 787–1070.
    [None] is a panic of an [expect]. Scales are [u32]. *)
From Coq Require Import ZArith List.
From stdpp Require Import list.
From Verif Require Import MachInt BigIntModel RationalModel.
Open Scope Z_scope.

(** numeric.rs 795–810. *)
Inductive rounding := Down | Up | Floor | Ceiling | HalfUp | HalfDown | HalfEven.

(** numeric.rs 813–815. *)
Definition ten_pow (k : Z) : bigint := bi_pow (bi_from_u64 10) k.

(** numeric.rs 820–846. *)
Definition round_rational (x : rational) (mode : rounding) : option bigint :=
  let num := r_num x in let den := r_den x in
  match bi_div_rem num den with
  | None => None
  | Some (q, r) =>
      if bi_is_zero r then Some q else
      let neg := bi_is_negative num in
      let half := bi_cmp (bi_mul (bi_abs r) (bi_from_i64 2)) den in
      let away := match mode with
                  | Down => false
                  | Up => true
                  | Floor => neg
                  | Ceiling => negb neg
                  | HalfUp => match half with Lt => false | _ => true end
                  | HalfDown => match half with Gt => true | _ => false end
                  | HalfEven => match half with Gt => true | Eq => bi_is_odd q | Lt => false end
                  end in
      Some (if away then if neg then bi_sub q bi_one else bi_add q bi_one else q)
  end.

(** numeric.rs 859–863. *)
Record decimal := Dec { d_coeff : bigint; d_scale : Z }.

(** numeric.rs 865–910. *)
Definition dec_from_bigint (c : bigint) : decimal := Dec c 0.
Definition dec_from_i64 (x : Z) : decimal := dec_from_bigint (bi_from_i64 x).
Definition dec_from_coeff_scale (c : bigint) (s : Z) : decimal := Dec c s.
Definition dec_is_zero (x : decimal) : bool := bi_is_zero (d_coeff x).
Definition dec_is_negative (x : decimal) : bool := bi_is_negative (d_coeff x).
Definition dec_negated (x : decimal) : decimal := Dec (bi_negated (d_coeff x)) (d_scale x).
Definition dec_abs (x : decimal) : decimal := Dec (bi_abs (d_coeff x)) (d_scale x).

(** numeric.rs 914–916. *)
Definition dec_to_rational (x : decimal) : option rational := expect (rat_new (d_coeff x) (ten_pow (d_scale x))).
(** numeric.rs 919–922. *)
Definition dec_from_rational (value : rational) (scale : Z) (mode : rounding) : option decimal :=
  match rat_mul value (rat_from_bigint (ten_pow scale)) with
  | None => None
  | Some scaled => match round_rational scaled mode with None => None | Some c => Some (Dec c scale) end
  end.
(** numeric.rs 926–932. *)
Definition dec_rescale (x : decimal) (scale : Z) (mode : rounding) : option decimal :=
  if d_scale x <=? scale then Some (Dec (bi_mul (d_coeff x) (ten_pow (scale - d_scale x))) scale)
  else match dec_to_rational x with None => None | Some r => dec_from_rational r scale mode end.
(** numeric.rs 935–940. *)
Definition dec_aligned (x y : decimal) : bigint * bigint * Z :=
  let s := Z.max (d_scale x) (d_scale y) in
  (bi_mul (d_coeff x) (ten_pow (s - d_scale x)), bi_mul (d_coeff y) (ten_pow (s - d_scale y)), s).
(** numeric.rs 942–955. The sum of the scales wraps in a release build (it panics in a debug build). *)
Definition dec_add (x y : decimal) : decimal := let '(a, b, s) := dec_aligned x y in Dec (bi_add a b) s.
Definition dec_sub (x y : decimal) : decimal := let '(a, b, s) := dec_aligned x y in Dec (bi_sub a b) s.
Definition dec_mul (x y : decimal) : decimal := Dec (bi_mul (d_coeff x) (d_coeff y)) ((d_scale x + d_scale y) mod 2 ^ 32).
(** numeric.rs 959–962; the inner option is the refusal. *)
Definition dec_div (x y : decimal) (scale : Z) (mode : rounding) : option (option decimal) :=
  match dec_to_rational x, dec_to_rational y with
  | Some p, Some q =>
      match rat_div p q with
      | None => None
      | Some None => Some None
      | Some (Some r) => match dec_from_rational r scale mode with None => None | Some d => Some (Some d) end
      end
  | _, _ => None
  end.

(** The loop of [normalized]: at most [s] rounds. numeric.rs 973–980. *)
Fixpoint norm_loop (s : nat) (c : bigint) : option (bigint * Z) :=
  match s with
  | O => Some (c, 0)
  | S s' => match bi_div_rem c (bi_from_u64 10) with
            | None => None
            | Some (q, r) => if bi_is_zero r then norm_loop s' q else Some (c, Z.of_nat s)
            end
  end.
(** numeric.rs 966–982. *)
Definition dec_normalized (x : decimal) : option (bigint * Z) :=
  if bi_is_zero (d_coeff x) then Some (bi_zero, 0) else norm_loop (Z.to_nat (d_scale x)) (d_coeff x).

(** numeric.rs 986–993. *)
Definition dec_to_le_bytes (x : decimal) : bool * list Z * Z := (bi_to_le_bytes (d_coeff x), d_scale x).
Definition dec_from_le_bytes (neg : bool) (bs : list Z) (scale : Z) : decimal := Dec (bi_from_le_bytes neg bs) scale.

(** numeric.rs 998–1022. *)
Definition dec_parse (s : list Z) : option decimal :=
  let s := trim s in
  let '(neg, body) := match s with c :: s' => if c =? 45 then (true, s') else if c =? 43 then (false, s') else (false, s) | [] => (false, s) end in
  match body with
  | [] => None
  | _ =>
      let '(i, f) := match split_once 46 body with Some p => p | None => (body, []) end in
      match i ++ f with
      | [] => None
      | digits =>
          if negb (forallb is_ascii_digit i) || negb (forallb is_ascii_digit f) then None else
          match bi_parse_decimal digits with
          | None => None
          | Some mag => Some (Dec (if neg : bool then bi_negated mag else mag) (Z.of_nat (length f) mod 2 ^ 32))
          end
      end
  end.

(** numeric.rs 1025–1044; the derived equality of pairs. *)
Definition dec_eqb (x y : decimal) : option bool :=
  match dec_normalized x, dec_normalized y with
  | Some (c, s), Some (d, t) => Some (bi_eqb c d && (s =? t))
  | _, _ => None
  end.
Definition dec_cmp (x y : decimal) : option comparison :=
  match dec_to_rational x, dec_to_rational y with Some p, Some q => Some (rat_cmp p q) | _, _ => None end.

(** [Display], numeric.rs 1052–1070. *)
Definition dec_show (x : decimal) : option (list Z) :=
  if d_scale x =? 0 then bi_show (d_coeff x) else
  let neg := bi_is_negative (d_coeff x) in
  match bi_show (bi_abs (d_coeff x)) with
  | None => None
  | Some digits =>
      let scale := Z.to_nat (d_scale x) in
      let digits := if (length digits <=? scale)%nat then repeat 48 (scale + 1 - length digits) ++ digits else digits in
      let point := (length digits - scale)%nat in
      Some ((if neg then [45] else []) ++ take point digits ++ [46] ++ drop point digits)
  end.
