(** Group cohomology with coefficients modulo an integer: [/repo/crates/logicaffeine_proof/src/postnikov.rs] lines 21-89 and 104-129.

    Simplified: values are unbounded integers; the result table is listed in the order of the tuples, which is the order of their indices
    (lemma [idx_tuples]); reading past the end of a table panics in the code and gives 0 here. *)
From Coq Require Import List Arith ZArith Bool.
From Verif Require Import TwoGroupModel.
Import ListNotations.

(** [idx] (21-23), [tuples] (25-38), [all_cochains] (42-56). *)
Definition idx (ord : nat) (t : list nat) : nat := fold_left (fun a x => a * ord + x) t 0.
Fixpoint tuples (ord n : nat) : list (list nat) :=
  match n with 0 => [[]] | S n => flat_map (fun t => map (fun e => t ++ [e]) (seq 0 ord)) (tuples ord n) end.
Definition all_cochains (ord modulus n : nat) : list (list nat) := tuples modulus (ord ^ n).
(** [coboundary] (61-79). *)
Definition sign (i : nat) : Z := if Nat.even i then 1%Z else (-1)%Z.
Definition read (ord : nat) (f : list nat) (t : list nat) : Z := Z.of_nat (nth (idx ord t) f 0).
Definition coboundary_at (g : group) (n : nat) (f t : list nat) : Z :=
  let ord := order g in
  let v0 := read ord f (skipn 1 t) in
  let v1 := fold_left (fun v i => (v + sign i * read ord f (firstn (i - 1) t ++ [mul g (nth (i - 1) t 0) (nth i t 0)] ++ skipn (i + 1) t)%nat)%Z) (seq 1 n) v0 in
  (v1 + sign (n + 1) * read ord f (firstn n t))%Z.
Definition coboundary (g : group) (modulus n : nat) (f : list nat) : list nat :=
  map (fun t => Z.to_nat (coboundary_at g n f t mod Z.of_nat modulus)) (tuples (order g) (n + 1)).
(** [is_cocycle] (82-84), [is_coboundary] (87-89). *)
Definition is_cocycle (g : group) (modulus n : nat) (f : list nat) : bool := forallb (fun x => x =? 0) (coboundary g modulus n f).
Fixpoint list_eqb (a b : list nat) : bool := match a, b with [], [] => true | x :: a, y :: b => (x =? y) && list_eqb a b | _, _ => false end.
Definition is_coboundary (g : group) (modulus n : nat) (f : list nat) : bool :=
  existsb (fun b => list_eqb (coboundary g modulus (n - 1) b) f) (all_cochains (order g) modulus (n - 1)).
(** [cup] (104-111), [cup_square] (117-119), [bockstein] (125-129). *)
Definition cup (g : group) (modulus p q : nat) (f h : list nat) : list nat :=
  map (fun t => (nth (idx (order g) (firstn p t)) f 0 * nth (idx (order g) (skipn p t)) h 0) mod modulus) (tuples (order g) (p + q)).
Definition cup_square (g : group) (modulus n : nat) (f : list nat) : list nat := cup g modulus n n f f.
Definition bockstein (g : group) (n : nat) (c : list nat) : list nat := map (fun v => (v / 2) mod 2) (coboundary g 4 n (map (fun v => v mod 4) c)).
