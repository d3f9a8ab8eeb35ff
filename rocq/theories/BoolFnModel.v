(* The Boolean-function analysis of
   /repo/crates/logicaffeine_base/src/describe.rs:1125-1246: the Walsh-Hadamard and
   Möbius transforms and what is computed from them.

   Arrays are lists indexed by nat (a truth table is indexed by the assignment, bit
   i being variable i); i64 is Z without wrap-around: the transforms of a truth
   table of 2^n entries stay within 8^n, and n is below 31 for any table that fits in
   memory. *)
From Coq Require Import ZArith List Lia Bool Arith.
Import ListNotations.
Open Scope Z_scope.

Fixpoint upd {A} (l : list A) (i : nat) (v : A) : list A :=
  match l, i with
  | [], _ => []
  | _ :: l, O => v :: l
  | x :: l, S i => x :: upd l i v
  end.

(* usize::is_power_of_two and, for such a number, trailing_zeros *)
Definition is_power_of_two (n : nat) : bool := negb (n =? 0)%nat && (2 ^ Nat.log2 n =? n)%nat.
Definition trailing_zeros (n : nat) : nat := Nat.log2 n.
(* count_ones of a usize *)
Fixpoint ones (fuel w : nat) : nat :=
  match fuel with O => 0 | S f => (w mod 2 + ones f (w / 2))%nat end.
Definition count_ones (w : nat) : nat := ones 64 w.

(* describe.rs:1129-1141 (fast_walsh_hadamard) *)
Definition wh_pair (len : nat) (a : list Z) (j : nat) : list Z :=
  let x := nth j a 0 in
  let y := nth (j + len) a 0 in
  upd (upd a j (x + y)) (j + len) (x - y).
Fixpoint wh_blocks (fuel len i : nat) (a : list Z) : list Z :=
  match fuel with
  | O => a
  | S f =>
    if (i <? length a)%nat
    then wh_blocks f len (i + 2 * len) (fold_left (wh_pair len) (seq i len) a)
    else a
  end.
Fixpoint wh_loop (fuel len : nat) (a : list Z) : list Z :=
  match fuel with
  | O => a
  | S f => if (len <? length a)%nat then wh_loop f (2 * len) (wh_blocks (length a) len 0 a) else a
  end.
Definition fast_walsh_hadamard (a : list Z) : list Z := wh_loop (length a) 1 a.

(* describe.rs:1146-1153 *)
Definition walsh_spectrum (truth : list bool) : option (list Z) :=
  if (length truth =? 0)%nat || negb (is_power_of_two (length truth)) then None
  else Some (fast_walsh_hadamard (map (fun b : bool => if b then -1 else 1) truth)).

(* Iterator::max_by_key keeps the last of the largest *)
Fixpoint max_by_key {A} (key : A -> Z) (best : option A) (l : list A) : option A :=
  match l with
  | [] => best
  | x :: l =>
    max_by_key key
      (match best with
       | None => Some x
       | Some b => if key b <=? key x then Some x else Some b
       end) l
  end.

(* describe.rs:1158-1166; the bias is a float quotient, here its numerator and
   denominator *)
Definition best_linear_approximation (truth : list bool) (skip_zero : bool) : option (nat * (Z * Z)) :=
  match walsh_spectrum truth with
  | None => None
  | Some spec =>
    let denom := 2 * Z.of_nat (length truth) in
    option_map (fun '(w, c) => (w, (Z.abs c, denom)))
      (max_by_key (fun '(_, c) => Z.abs c) None
         (skipn (if skip_zero then 1 else 0) (combine (seq 0 (length spec)) spec)))
  end.

(* describe.rs:1171-1175 *)
Definition nonlinearity (truth : list bool) : option Z :=
  match walsh_spectrum truth with
  | None => None
  | Some spec =>
    match max_by_key (fun x => x) None (map Z.abs spec) with
    | None => None
    | Some max_abs => Some (Z.of_nat (length truth) / 2 - max_abs / 2)
    end
  end.

(* describe.rs:1181-1195 *)
Definition vanishes (spec : list Z) (m : nat) : bool :=
  forallb (fun '(w, c) => c =? 0)
    (List.filter (fun '(w, c) => (count_ones w =? m)%nat) (combine (seq 0 (length spec)) spec)).
Fixpoint immune_loop (spec : list Z) (n : nat) (ms : list nat) : nat :=
  match ms with
  | [] => n
  | m :: ms => if negb (vanishes spec m) then (m - 1)%nat else immune_loop spec n ms
  end.
Definition correlation_immunity_order (truth : list bool) : option nat :=
  match walsh_spectrum truth with
  | None => None
  | Some spec =>
    let n := trailing_zeros (length truth) in
    Some (immune_loop spec n (seq 1 n))
  end.

(* describe.rs:1201-1219 (anf) *)
Definition anf_pair (step : nat) (a : list bool) (k : nat) : list bool :=
  let lo := nth k a false in
  upd a (k + step) (xorb (nth (k + step) a false) lo).
Fixpoint anf_blocks (fuel step j : nat) (a : list bool) : list bool :=
  match fuel with
  | O => a
  | S f =>
    if (j <? length a)%nat
    then anf_blocks f step (j + 2 * step) (fold_left (anf_pair step) (seq j step) a)
    else a
  end.
Definition anf (truth : list bool) : option (list bool) :=
  if (length truth =? 0)%nat || negb (is_power_of_two (length truth)) then None
  else
    let n := trailing_zeros (length truth) in
    Some (fold_left (fun a i => anf_blocks (length a) (2 ^ i) 0 a) (seq 0 n) truth).

(* describe.rs:1223-1226 *)
Definition algebraic_degree (truth : list bool) : option nat :=
  match anf truth with
  | None => None
  | Some a =>
    Some (fold_left Nat.max
            (map (fun '(m, _) => count_ones m)
               (List.filter (fun '(_, c) => c) (combine (seq 0 (length a)) a))) 0%nat)
  end.

(* describe.rs:1233-1246 (autocorrelation) *)
Definition autocorrelation (truth : list bool) : option (list Z) :=
  match walsh_spectrum truth with
  | None => None
  | Some w =>
    let w := fast_walsh_hadamard (map (fun c => c * c) w) in
    Some (map (fun c => Z.quot c (Z.of_nat (length truth))) w)
  end.
