(** Model of [crates/logicaffeine_data/src/indexing.rs]. [None] is a panic; [usize] is 64 bits. *)
From Coq Require Import ZArith List.
From stdpp Require Import list gmap.
From Verif Require Import MachInt Utf8.
Open Scope Z_scope.

(** indexing.rs:73-89 [resolve_logos_index]. [index.unsigned_abs()] is the absolute value. *)
Definition resolve_logos_index (index : Z) (len : nat) : option nat :=
  if 1 <=? index then
    let idx := Z.to_nat (index - 1) in
    if Nat.leb len idx then None else Some idx
  else if index <=? -1 then
    let back := Z.to_nat (Z.abs index) in
    if Nat.ltb len back then None else Some (len - back)%nat
  else None.

(** indexing.rs:93-151 and 216-232 for [Vec], slices and [LogosSeq]. *)
Definition logos_get {A} (l : list A) (index : Z) : option A :=
  match resolve_logos_index index (length l) with Some i => l !! i | None => None end.
Definition logos_set {A} (l : list A) (index : Z) (v : A) : option (list A) :=
  match resolve_logos_index index (length l) with Some i => Some (<[i := v]> l) | None => None end.

(** indexing.rs:155-212 [LogosIndex for String] and [LogosGetChar]: the same computation; the
    character is returned as a one-character text or as a [char]. *)
Definition text_get (t : list Z) (index : Z) : option Z :=
  match (if 1 <=? index then Some (Z.to_nat (index - 1)) else resolve_logos_index index (length t)) with
  | None => None
  | Some idx =>
      match bytes t !! idx with
      | Some b => if b <? 128 then Some b else t !! idx
      | None => t !! idx
      end
  end.

(** indexing.rs:236-306: maps. *)
Definition map_get {K V} `{Countable K} (m : gmap K V) (k : K) : option V := m !! k.
Definition map_set {K V} `{Countable K} (m : gmap K V) (k : K) (v : V) : gmap K V := <[k := v]> m.
