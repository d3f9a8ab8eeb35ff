(** The action groupoid of literal permutations on assignments: [/repo/crates/logicaffeine_proof/src/groupoid.rs] lines 21-136,
    with [Perm] from [/repo/crates/logicaffeine_proof/src/proof.rs] lines 26-83.

    Simplified: assignments and indices are [nat] (the code uses [u32]); the parent vector is a function; [find]'s two loops
    take fuel, which the model supplies in sufficient quantity. *)
From Coq Require Import List Arith Bool.
Import ListNotations.

(** [Lit]: variable and sign.  [Perm] (proof.rs:26-29): the images of the positive literals; reading past the end panics in
    the code, here it gives variable 0. *)
Definition lit : Type := nat * bool.
Definition perm : Type := list lit.
Definition image (g : perm) (v : nat) : lit := nth v g (0, true).
(** [Perm::identity] (32-34), [apply] (42-49), [compose] (77-83). *)
Definition identity (nv : nat) : perm := map (fun v => (v, true)) (seq 0 nv).
Definition apply (g : perm) (l : lit) : lit := let img := image g (fst l) in if snd l then img else (fst img, negb (snd img)).
Definition compose (g e : perm) : perm := map (fun v => apply g (apply e (v, true))) (seq 0 (length g)).

(** [act] (35-48). *)
Definition act (nv : nat) (g : perm) (a : nat) : nat :=
  fold_left (fun b v =>
    let val := Nat.testbit a v in
    let img := apply g (v, true) in
    let new_val := if snd img then val else negb val in
    if new_val then Nat.lor b (Nat.shiftl 1 (fst img)) else b) (seq 0 nv) 0.

(** [find] (56-69): the root (57-60), then path compression (62-67). *)
Definition upd (p : nat -> nat) (k v : nat) : nat -> nat := fun x => if x =? k then v else p x.
Fixpoint climb (fuel : nat) (p : nat -> nat) (r : nat) : nat :=
  match fuel with O => r | S f => if p r =? r then r else climb f p (p r) end.
Fixpoint compress (fuel : nat) (p : nat -> nat) (c r : nat) : nat -> nat :=
  match fuel with O => p | S f => if p c =? r then p else compress f (upd p c r) (p c) r end.
Definition find (p : nat -> nat) (x : nat) : (nat -> nat) * nat :=
  let r := climb (S x) p x in (compress (S x) p x r, r).
(** One edge (72-81). *)
Definition union (nv : nat) (a : nat) (p : nat -> nat) (g : perm) : nat -> nat :=
  let b := act nv g a in
  let '(p1, ra) := find p a in
  let '(p2, rb) := find p1 b in
  if ra =? rb then p2 else if ra <? rb then upd p2 rb ra else upd p2 ra rb.
Definition merge_all (nv : nat) (gens : list perm) : nat -> nat :=
  fold_left (fun p a => fold_left (union nv a) gens p) (seq 0 (2 ^ nv)) (fun x => x).
(** [orbits] (53-85): the last pass also compresses (84). *)
Fixpoint find_all (p : nat -> nat) (xs : list nat) : list nat :=
  match xs with [] => [] | x :: xs => let '(p', r) := find p x in r :: find_all p' xs end.
Definition orbits (nv : nat) (gens : list perm) : list nat := find_all (merge_all nv gens) (seq 0 (2 ^ nv)).
(** [num_orbits] (89-95), [stabilizer_size] (127-129), [orbit_size] (132-135). *)
Definition num_orbits (nv : nat) (gens : list perm) : nat := length (nodup Nat.eq_dec (orbits nv gens)).
Definition stabilizer_size (nv : nat) (a : nat) (group : list perm) : nat := length (filter (fun g => act nv g a =? a) group).
Definition orbit_size (nv : nat) (gens : list perm) (a : nat) : nat :=
  let reps := orbits nv gens in length (filter (fun r => r =? nth a reps 0) reps).

(** [group_elements] (99-122): the two inner loops over the pairs (frontier element, generator); [inr] is the early return
    (113-115).  [seen] always holds the elements of [elems].  The outer loop takes fuel. *)
Definition perm_dec : forall a b : perm, {a = b} + {a <> b}.
Proof. repeat decide equality. Defined.
Fixpoint round (cap : nat) (pairs : list (perm * perm)) (elems next : list perm) : (list perm * list perm) + list perm :=
  match pairs with
  | [] => inl (elems, next)
  | (e, g) :: pairs =>
      let prod := compose g e in
      if in_dec perm_dec prod elems then round cap pairs elems next
      else let elems := elems ++ [prod] in
           if cap <=? length elems then inr elems else round cap pairs elems (next ++ [prod])
  end.
Fixpoint bfs (fuel cap : nat) (gens elems frontier : list perm) : option (list perm) :=
  match fuel with
  | O => None
  | S f =>
      match frontier with
      | [] => Some elems
      | _ =>
          if length elems <? cap then
            match round cap (list_prod frontier gens) elems [] with
            | inr elems => Some elems
            | inl (elems, next) => bfs f cap gens elems next
            end
          else Some elems
      end
  end.
Definition group_elements (nv : nat) (gens : list perm) (cap : nat) : option (list perm) :=
  bfs (S (S cap)) cap gens [identity nv] [identity nv].
