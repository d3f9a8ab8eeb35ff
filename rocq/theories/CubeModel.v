(** Cubical complexes: [/repo/crates/logicaffeine_proof/src/cubical.rs] lines 18-70.

    Simplified: the sorted sets of cells are lists used as sets; raising a coordinate that does not exist panics in the code and leaves the
    corner unchanged here. *)
From Coq Require Import List Arith Bool.
Import ListNotations.

(** [Cube] (20-23), [dim] (26-28), [boundary] (32-43). *)
Record cube := Cube { corner : list nat; dirs : list nat }.
Definition dim (c : cube) : nat := length (dirs c).
Fixpoint raise (a : nat) (x : list nat) : list nat := match x, a with [], _ => [] | v :: x, 0 => S v :: x | v :: x, S a => v :: raise a x end.
Fixpoint remove_at (i : nat) (l : list nat) : list nat := match l, i with [], _ => [] | _ :: l, 0 => l | x :: l, S i => x :: remove_at i l end.
Definition boundary (c : cube) : list cube :=
  flat_map (fun i => let sub := remove_at i (dirs c) in [Cube (corner c) sub; Cube (raise (nth i (dirs c) 0) (corner c)) sub]) (seq 0 (dim c)).
(** [from_top_cells] (54-70): [level top d k] are the cells of dimension [d - k] after the rounds for [d], ..., [d - k + 1]. *)
Definition top_dim (top : list cube) : nat := fold_left Nat.max (map dim top) 0.
Fixpoint level (top : list cube) (d k : nat) : list cube :=
  let own := filter (fun c => dim c =? d - k) top in
  match k with 0 => own | S k' => own ++ flat_map boundary (level top d k') end.
Definition cells (top : list cube) (k : nat) : list cube := if k <=? top_dim top then level top (top_dim top) (top_dim top - k) else [].
