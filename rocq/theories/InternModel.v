(** Model of [crates/logicaffeine_base/src/intern.rs].
    Strings are Coq strings (byte sequences); a symbol is the [u32] inside [Symbol]. *)
From Coq Require Import NArith String List.
From stdpp Require Import gmap strings.

(** intern.rs:72-75. [map: HashMap<String, Symbol>], [vec: Vec<String>]. *)
Record interner := Interner { in_map : gmap string N; in_vec : list string }.

(** intern.rs:79-86 [Interner::new]: the empty string is pushed to [vec] only. *)
Definition in_new : interner := Interner ∅ [""%string].

(** intern.rs:91-99 [Interner::intern]. [vec.len() as u32] truncates. *)
Definition intern (i : interner) (s : string) : interner * N :=
  match in_map i !! s with
  | Some sym => (i, sym)
  | None =>
      let sym := (N.of_nat (length (in_vec i)) mod 4294967296)%N in
      (Interner (<[s := sym]> (in_map i)) (in_vec i ++ [s]), sym)
  end.

(** intern.rs:106-108 [resolve]; [None] is the panic of an index out of bounds. *)
Definition resolve (i : interner) (sym : N) : option string := in_vec i !! N.to_nat sym.
(** intern.rs:113-115 [lookup]. *)
Definition lookup_sym (i : interner) (s : string) : option N := in_map i !! s.
(** intern.rs:118-120 [len], 123-125 [is_empty]. *)
Definition in_len (i : interner) : nat := length (in_vec i).
Definition in_is_empty (i : interner) : bool := Nat.leb (length (in_vec i)) 1.
(** intern.rs:44-57 [Symbol::EMPTY] is index 0. *)
Definition sym_empty : N := 0%N.
(** intern.rs:142-147 [SymbolEq::is]. *)
Definition sym_is (i : interner) (sym : N) (s : string) : option bool :=
  match resolve i sym with Some t => Some (String.eqb t s) | None => None end.

(** A history: interning a list of strings in order, from a new interner. *)
Definition intern_all (ss : list string) : interner := fold_left (fun i s => (intern i s).1) ss in_new.
