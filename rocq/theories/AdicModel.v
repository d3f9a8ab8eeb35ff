(* 2-adic complexity and maximal order complexity of
   /repo/crates/logicaffeine_base/src/describe.rs:751-890, and the keystream check
   of 1858-1866.

   BigInt is Z (its arithmetic is C26's subject), div_rem is truncating division;
   loops carry fuel, which is shown to suffice. *)
From Coq Require Import ZArith List Lia Bool Arith.
Import ListNotations.
Open Scope Z_scope.

(* describe.rs:762-770 (bigint_bitlen): from the highest non-zero byte *)
Definition bigint_bitlen (x : Z) : Z := if x =? 0 then 0 else Z.log2 (Z.abs x) + 1.

(* describe.rs:751-759 (bigint_gcd_local) *)
Fixpoint gcd_loop (fuel : nat) (a b : Z) : option Z :=
  if b =? 0 then Some a
  else match fuel with O => None | S f => gcd_loop f b (Z.rem a b) end.
Definition bigint_gcd_local (a b : Z) : option Z :=
  gcd_loop (2 * Z.to_nat (bigint_bitlen b) + 2) (Z.abs a) (Z.abs b).

(* describe.rs:783-790: the number and the power of two *)
Definition value_step (st : Z * Z) (bit : bool) : Z * Z :=
  let '(alpha, pow2) := st in ((if bit then alpha + pow2 else alpha), pow2 * 2).

(* describe.rs:795-802 *)
Fixpoint euclid (fuel : nat) (nb r0 t0 r1 t1 : Z) : option (Z * Z) :=
  if negb (r1 =? 0) && (nb <? r1 * r1) then
    match fuel with
    | O => None
    | S f => euclid f nb r1 t1 (Z.rem r0 r1) (t0 - Z.quot r0 r1 * t1)
    end
  else Some (r1, t1).

(* describe.rs:775-823 (two_adic_reconstruct); the outer None is a loop that does
   not end *)
Definition two_adic_reconstruct (bits : list bool) : option (option (Z * Z)) :=
  match bits with
  | [] => Some None
  | _ =>
    let '(alpha, nb) := fold_left value_step bits (0, 1) in
    match euclid (2 * length bits + 2) nb nb 0 alpha 1 with
    | None => None
    | Some (p, q) =>
      if q =? 0 then Some None
      else
        let '(p, q) := if q <? 0 then (0 - p, 0 - q) else (p, q) in
        match bigint_gcd_local p q with
        | None => None
        | Some g =>
          let '(p, q) := if negb (g =? 0) && negb (g =? 1) then (Z.quot p g, Z.quot q g) else (p, q) in
          if negb (Z.odd q) then Some None else Some (Some (p, q))
        end
    end
  end.

(* describe.rs:827-842 (fcsr_generate) *)
Fixpoint fcsr_generate (r q : Z) (n : nat) : list bool :=
  match n with
  | O => []
  | S n => let bit := Z.odd r in
           let r := if bit then r - q else r in
           bit :: fcsr_generate (Z.quot r 2) q n
  end.

(* describe.rs:846-851 (two_adic_complexity) *)
Definition two_adic_complexity (bits : list bool) : option Z :=
  match two_adic_reconstruct bits with
  | Some (Some (p, q)) => Some (Z.max (bigint_bitlen p) (bigint_bitlen q))
  | Some None => Some (Z.of_nat (length bits))
  | None => None
  end.

Fixpoint bits_eqb (a b : list bool) : bool :=
  match a, b with
  | [], [] => true
  | x :: a, y :: b => Bool.eqb x y && bits_eqb a b
  | _, _ => false
  end.
(* describe.rs:1858-1866 (detect_fcsr_bytes), on the bits of the column *)
Definition detect_fcsr (bits : list bool) : option (option (Z * Z)) :=
  match two_adic_reconstruct bits with
  | Some (Some (p, q)) => if bits_eqb (fcsr_generate p q (length bits)) bits then Some (Some (p, q)) else Some None
  | r => r
  end.

(* describe.rs:865-878: is every window of length l followed by one bit? The hash
   map from windows to bits is an association list, newest first *)
Definition window (bits : list bool) (i l : nat) : list bool := firstn l (skipn i bits).
Fixpoint lookup (m : list (list bool * bool)) (k : list bool) : option bool :=
  match m with
  | [] => None
  | (k', v) :: m => if bits_eqb k' k then Some v else lookup m k
  end.
Fixpoint scan (bits : list bool) (l : nat) (is : list nat) (m : list (list bool * bool)) : bool :=
  match is with
  | [] => true
  | i :: is =>
    let w := window bits i l in
    let next := nth (i + l) bits false in
    match lookup m w with
    | Some prev => if Bool.eqb prev next then scan bits l is ((w, next) :: m) else false
    | None => scan bits l is ((w, next) :: m)
    end
  end.
Definition consistent (bits : list bool) (l : nat) : bool :=
  let n := length bits in
  if (n <=? l)%nat then true else scan bits l (seq 0 (n - l)) [].
(* describe.rs:879-889: binary search *)
Fixpoint search (fuel : nat) (p : nat -> bool) (lo hi : nat) : nat :=
  match fuel with
  | O => lo
  | S f => if (lo <? hi)%nat then
             let mid := ((lo + hi) / 2)%nat in
             if p mid then search f p lo mid else search f p (mid + 1) hi
           else lo
  end.
(* describe.rs:860-890 (maximal_order_complexity); the fuel is the width of the range *)
Definition maximal_order_complexity (bits : list bool) : nat :=
  let n := length bits in
  if (n =? 0)%nat then 0%nat else search n (consistent bits) 0 n.
