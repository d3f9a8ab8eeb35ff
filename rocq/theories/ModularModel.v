(** Model of residue arithmetic: crates/logicaffeine_base/src/numeric.rs, lines 1299–1435.
    [None] at the outer level means a panic (an [expect] that fails) or that the step limit of the
    Euclid loop was reached; the theorems show neither happens. *)
From Coq Require Import ZArith List.
From stdpp Require Import list.
From Verif Require Import MachInt BigIntModel.
Open Scope Z_scope.

(** The loop of [bigint_egcd] with a step limit. numeric.rs 1309–1318. *)
Fixpoint egcd_loop (n : nat) (old_r r old_s s old_t t : bigint) : option (bigint * bigint * bigint) :=
  if bi_is_zero r then Some (old_r, old_s, old_t) else
  match n with
  | O => None
  | S n =>
      match bi_div_rem old_r r with
      | None => None
      | Some (q, _) =>
          egcd_loop n r (bi_sub old_r (bi_mul q r)) s (bi_sub old_s (bi_mul q s)) t (bi_sub old_t (bi_mul q t))
      end
  end.
(** numeric.rs 1305–1319. *)
Definition bigint_egcd (a b : bigint) : option (bigint * bigint * bigint) :=
  egcd_loop (128 * length (limbs (bi_mag b))) a b (bi_from_i64 1) bi_zero bi_zero (bi_from_i64 1).

(** numeric.rs 1331–1334. *)
Record modular := Mod { m_value : bigint; m_modulus : bigint }.

(** numeric.rs 1337–1344. *)
Definition mod_reduce (value modulus : bigint) : option bigint :=
  match bi_div_rem value modulus with
  | None => None
  | Some (_, r) => Some (if bi_is_negative r then bi_add r modulus else r)
  end.

(** numeric.rs 1348–1354; the inner option is the function's own. *)
Definition mod_new (value modulus : bigint) : option (option modular) :=
  if bi_is_zero modulus || bi_is_negative modulus then Some None
  else match mod_reduce value modulus with None => None | Some v => Some (Some (Mod v modulus)) end.
(** numeric.rs 1357–1359. *)
Definition mod_from_i64 (value modulus : Z) : option (option modular) := mod_new (bi_from_i64 value) (bi_from_i64 modulus).
(** numeric.rs 1370–1372. *)
Definition mod_is_zero (x : modular) : bool := bi_is_zero (m_value x).
(** numeric.rs 1375–1394. *)
Definition mod_add (x y : modular) : option (option modular) :=
  if negb (bi_eqb (m_modulus x) (m_modulus y)) then Some None else mod_new (bi_add (m_value x) (m_value y)) (m_modulus x).
Definition mod_sub (x y : modular) : option (option modular) :=
  if negb (bi_eqb (m_modulus x) (m_modulus y)) then Some None else mod_new (bi_sub (m_value x) (m_value y)) (m_modulus x).
Definition mod_mul (x y : modular) : option (option modular) :=
  if negb (bi_eqb (m_modulus x) (m_modulus y)) then Some None else mod_new (bi_mul (m_value x) (m_value y)) (m_modulus x).
(** [.expect(..)] *)
Definition must (r : option (option modular)) : option modular := match r with Some (Some x) => Some x | _ => None end.
(** numeric.rs 1397–1399. *)
Definition mod_negated (x : modular) : option modular := must (mod_new (bi_negated (m_value x)) (m_modulus x)).
(** The loop of [pow]; a [u64] exponent needs at most 64 rounds. numeric.rs 1406–1414. *)
Fixpoint mod_pow_loop (n : nat) (result base : modular) (exp : Z) : option modular :=
  if exp =? 0 then Some result else
  match n with
  | O => None
  | S n =>
      match (if Z.land exp 1 =? 1 then must (mod_mul result base) else Some result) with
      | None => None
      | Some result =>
          let exp := exp / 2 in
          match (if 0 <? exp then must (mod_mul base base) else Some base) with
          | None => None
          | Some base => mod_pow_loop n result base exp
          end
      end
  end.
(** numeric.rs 1402–1416. *)
Definition mod_pow (x : modular) (exp : Z) : option modular :=
  match must (mod_new (bi_from_i64 1) (m_modulus x)) with None => None | Some one => mod_pow_loop 64 one x exp end.
(** numeric.rs 1420–1426. *)
Definition mod_inverse (x : modular) : option (option modular) :=
  match bigint_egcd (m_value x) (m_modulus x) with
  | None => None
  | Some (g, s, _) => if negb (bi_eqb g (bi_from_i64 1)) then Some None else mod_new s (m_modulus x)
  end.
(** numeric.rs 1429–1434. *)
Definition mod_div (x y : modular) : option (option modular) :=
  if negb (bi_eqb (m_modulus x) (m_modulus y)) then Some None else
  match mod_inverse y with None => None | Some None => Some None | Some (Some i) => mod_mul x i end.
(** The derived [PartialEq]. numeric.rs 1330. *)
Definition mod_eqb (x y : modular) : bool := bi_eqb (m_value x) (m_value y) && bi_eqb (m_modulus x) (m_modulus y).
