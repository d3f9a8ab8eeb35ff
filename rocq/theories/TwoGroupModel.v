(** Finite groups, crossed modules and faces of the nerve: [/repo/crates/logicaffeine_proof/src/two_group.rs] lines 17-113 without
    [symmetric], and [/repo/crates/logicaffeine_proof/src/kan_complex.rs] lines 20-35.

    Simplified: reading past the end of a table panics in the code and gives 0 here. *)
From Coq Require Import List Arith Bool.
Import ListNotations.

(** [FiniteGroup] (two_group.rs:18-24), [order] (27-29), [inverse] (31-33; [None] is the panic), [trivial] (36-38), [cyclic] (41-44). *)
Record group := Group { table : list (list nat); gid : nat }.
Definition order (g : group) : nat := length (table g).
Definition mul (g : group) (a b : nat) : nat := nth b (nth a (table g) []) 0.
Definition inverse (g : group) (a : nat) : option nat := find (fun b => mul g a b =? gid g) (seq 0 (order g)).
Definition trivial : group := Group [[0]] 0.
Definition cyclic (m : nat) : group := Group (map (fun a => map (fun b => (a + b) mod m) (seq 0 m)) (seq 0 m)) 0.

(** [CrossedModule] (79-84), [is_homomorphism] (88-94), [pi_two] (97-99), [image_size] (102-107), [pi_one_order] (110-112). *)
Record crossed := Crossed { cg : group; ch : group; partial : list nat }.
Definition bd (c : crossed) (x : nat) : nat := nth x (partial c) 0.
Definition is_homomorphism (c : crossed) : bool :=
  forallb (fun x => forallb (fun y => bd c (mul (ch c) x y) =? mul (cg c) (bd c x) (bd c y)) (seq 0 (order (ch c)))) (seq 0 (order (ch c))).
Definition pi_two (c : crossed) : list nat := filter (fun x => bd c x =? gid (cg c)) (seq 0 (order (ch c))).
Definition image_size (c : crossed) : nat := length (nodup Nat.eq_dec (map (bd c) (seq 0 (order (ch c))))).
Definition pi_one_order (c : crossed) : nat := order (cg c) / image_size c.

(** [face] (kan_complex.rs:22-35). *)
Definition face (g : group) (s : list nat) (i : nat) : list nat :=
  let n := length s in
  if i =? 0 then tl s else if i =? n then firstn (n - 1) s
  else firstn (i - 1) s ++ mul g (nth (i - 1) s 0) (nth i s 0) :: skipn (i + 1) s.
