(* Berlekamp-Massey over a field, and the byte field GF(256), of
   /repo/crates/logicaffeine_base/src/describe.rs:559-739.

   Vectors are lists indexed by nat; None is a panic (an index out of bounds, or a
   subtraction below zero). *)
From Coq Require Import NArith ZArith List Lia Bool Arith.
Import ListNotations.

Fixpoint upd {A} (l : list A) (i : nat) (v : A) : list A :=
  match l, i with
  | [], _ => []
  | _ :: l, O => v :: l
  | x :: l, S i => x :: upd l i v
  end.

Section field.
(* describe.rs:560-568 (FieldElem) *)
Context {F : Type} (zero one : F) (add sub mul : F -> F -> F) (inv : F -> F) (eqb : F -> F -> bool).

(* describe.rs:630-636: the two polynomials, the length, the shift and the
   discrepancy at the last change *)
Record state := mk { pc : list F; pb : list F; len : nat; shift : nat; disc : F }.

(* describe.rs:638-641 *)
Definition discrepancy (s : list F) (st : state) (nn : nat) : F :=
  fold_left (fun d i => add d (mul (nth i (pc st) zero) (nth (nn - i) s zero))) (seq 1 (len st)) (nth nn s zero).

(* describe.rs:647-651, in place *)
Definition correct (n m : nat) (coef : F) (b c : list F) : list F :=
  fold_left (fun c i =>
    if (i + m <=? n) && negb (eqb (nth i b zero) zero)
    then upd c (i + m) (sub (nth (i + m) c zero) (mul coef (nth i b zero)))
    else c) (seq 0 (n + 1)) c.

(* describe.rs:637-661, one round; the accesses c[i] and s[nn - i] need l <= n and
   l <= nn *)
Definition round (s : list F) (st : state) (nn : nat) : option state :=
  let n := length s in
  if (len st <=? n) && (len st <=? nn) then
    let d := discrepancy s st nn in
    if eqb d zero then Some (mk (pc st) (pb st) (len st) (shift st + 1) (disc st))
    else
      let coef := mul d (inv (disc st)) in
      let c := correct n (shift st) coef (pb st) (pc st) in
      if 2 * len st <=? nn then Some (mk c (pc st) (nn + 1 - len st) 1 d)
      else Some (mk c (pb st) (len st) (shift st + 1) (disc st))
  else None.

Fixpoint rounds (s : list F) (st : state) (is : list nat) : option state :=
  match is with
  | [] => Some st
  | i :: is => match round s st i with Some st => rounds s st is | None => None end
  end.

Definition start (n : nat) : state :=
  mk (one :: repeat zero n) (one :: repeat zero n) 0 1 one.

(* describe.rs:628-664 (berlekamp_massey_field) *)
Definition berlekamp_massey_field (s : list F) : option (nat * list F) :=
  match rounds s (start (length s)) (seq 0 (length s)) with
  | Some st => if len st <=? length s then Some (len st, firstn (len st) (skipn 1 (pc st))) else None
  | None => None
  end.

(* describe.rs:672-675: the sum over the taps; out[i - 1 - j] *)
Fixpoint tap_sum (taps out : list F) (i j : nat) (acc : F) : option F :=
  match taps with
  | [] => Some acc
  | t :: taps => match nth_error out (i - 1 - j) with
                 | Some x => tap_sum taps out i (S j) (add acc (mul t x))
                 | None => None
                 end
  end.
Fixpoint replay (taps : list F) (is : list nat) (out : list F) : option (list F) :=
  match is with
  | [] => Some out
  | i :: is => match tap_sum taps out i 0 zero with
               | Some acc => replay taps is (out ++ [sub zero acc])
               | None => None
               end
  end.
(* describe.rs:667-680 (lfsr_generate_field) *)
Definition lfsr_generate_field (taps seed : list F) (total : nat) : option (list F) :=
  let l := length taps in
  match replay taps (seq l (total - l)) (firstn (Nat.min (Nat.min l (length seed)) total) seed) with
  | Some out => Some (firstn total out)
  | None => None
  end.
End field.

(* describe.rs:571-580 (Gf2), 684-695 (berlekamp_massey_gf2, lfsr_generate): the
   wrapper around a bit is dropped *)
Definition berlekamp_massey_gf2 (s : list bool) : option (nat * list bool) :=
  berlekamp_massey_field false true xorb xorb andb (fun x => x) Bool.eqb s.
Definition lfsr_generate (taps seed : list bool) (total : nat) : option (list bool) :=
  lfsr_generate_field false xorb xorb andb taps seed total.

(* describe.rs:714-723 (bytes_to_bits): x as u8, least significant bit first *)
Definition bytes_to_bits (v : list Z) : list bool :=
  flat_map (fun x => map (fun j => Z.testbit (x mod 256) (Z.of_nat j)) (seq 0 8)) v.
(* describe.rs:727-739 (bits_to_bytes) *)
Definition pack (chunk : list bool) : Z :=
  fold_left (fun byte '(j, bit) => if (bit : bool) then Z.lor byte (Z.shiftl 1 (Z.of_nat j)) else byte)
    (combine (seq 0 (length chunk)) chunk) 0%Z.
Fixpoint bits_to_bytes_fuel (fuel : nat) (bits : list bool) : list Z :=
  match fuel, bits with
  | O, _ | _, [] => []
  | S f, _ => pack (firstn 8 bits) :: bits_to_bytes_fuel f (skipn 8 bits)
  end.
Definition bits_to_bytes (bits : list bool) : list Z := bits_to_bytes_fuel (length bits) bits.

Fixpoint bits_eqb (a b : list bool) : bool :=
  match a, b with
  | [], [] => true
  | x :: a, y :: b => Bool.eqb x y && bits_eqb a b
  | _, _ => false
  end.
(* describe.rs:700-711 (detect_lfsr_bytes); the outer None is a panic *)
Definition detect_lfsr_bytes (v : list Z) : option (option (nat * list bool * list bool)) :=
  let bits := bytes_to_bits v in
  match berlekamp_massey_gf2 bits with
  | None => None
  | Some (l, taps) =>
    if (l =? 0) || (length bits <=? l) then Some None
    else
      let seed := firstn l bits in
      match lfsr_generate taps seed (length bits) with
      | None => None
      | Some out => if bits_eqb out bits then Some (Some (l, taps, seed)) else Some None
      end
  end.

(* describe.rs:586-588 (gf256_xtime); bytes are N below 256 *)
Definition gf256_xtime (a : N) : N :=
  N.lxor (N.land (N.shiftl a 1) 255) (if N.eqb (N.land a 128) 0 then 0 else 27)%N.
(* describe.rs:594-605: 255 powers of 3, their logarithms, and the doubled table *)
Fixpoint gf256_fill (i k : nat) (x : N) (exp log : list N) : list N * list N :=
  match k with
  | O => (exp, log)
  | S k => gf256_fill (S i) k (N.lxor x (gf256_xtime x)) (upd exp i x) (upd log (N.to_nat x) (N.of_nat i))
  end.
Definition gf256_tables : list N * list N :=
  let '(exp, log) := gf256_fill 0 255 1%N (repeat 0%N 512) (repeat 0%N 256) in
  (log, fold_left (fun e i => upd e i (nth (i - 255) e 0%N)) (seq 255 257) exp).
Definition gf256_log : list N := Eval vm_compute in fst gf256_tables.
Definition gf256_exp : list N := Eval vm_compute in snd gf256_tables.
Definition log_at (a : N) : nat := N.to_nat (nth (N.to_nat a) gf256_log 0%N).
Definition exp_at (i : nat) : N := nth i gf256_exp 0%N.
(* describe.rs:613-623 (mul, inv) *)
Definition gf256_mul (a b : N) : N :=
  if N.eqb a 0 || N.eqb b 0 then 0%N else exp_at (log_at a + log_at b).
Definition gf256_inv (a : N) : N := exp_at (255 - log_at a).
