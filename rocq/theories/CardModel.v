(** Cardinality constraints: crates/logicaffeine_proof/src/cardinality.rs. [usize] is [nat]. *)
From Coq Require Import String List Arith Bool Decimal DecimalString.
From stdpp Require Import list strings.
From Verif Require Import UnifyModel.
Local Open Scope list_scope.

(** cardinality.rs:11-37: the connectives. *)
Definition c_and (a b : pexpr) : pexpr := EBin CAnd a b.
Definition c_implies (a b : pexpr) : pexpr := EBin CImplies a b.
Definition tautology : pexpr := EBin COr (EAtom "__card_true") (ENot (EAtom "__card_true")).
Definition contradiction : pexpr := c_and (EAtom "__card_false") (ENot (EAtom "__card_false")).
Definition conj (parts : list pexpr) : pexpr :=
  match parts with [] => tautology | first :: it => fold_left c_and it first end.

(** [format!("{aux}_{i}_{j}")], cardinality.rs:49-50. *)
Definition dec (n : nat) : string := NilEmpty.string_of_uint (Nat.to_uint n).
Definition s_name (aux : string) (i j : nat) : string := (aux ++ "_" ++ dec i ++ "_" ++ dec j)%string.
Definition s_atom (aux : string) (i j : nat) : pexpr := EAtom (s_name aux i j).

(** cardinality.rs:57-67: the clauses pushed for [i] in [2..=n]. *)
Definition counter_step (aux : string) (k i : nat) (xi : pexpr) : list pexpr :=
  let s := s_atom aux in
  c_implies xi (s i 1) :: c_implies (s (i - 1) 1) (s i 1)
  :: flat_map (fun j => [c_implies (c_and xi (s (i - 1) (j - 1))) (s i j); c_implies (s (i - 1) j) (s i j)]) (seq 2 (k - 1))
  ++ [ENot (c_and xi (s (i - 1) k))].
Fixpoint counter_steps (aux : string) (k i : nat) (xs : list pexpr) : list pexpr :=
  match xs with [] => [] | x :: xs => counter_step aux k i x ++ counter_steps aux k (S i) xs end.

(** cardinality.rs:41-69 [at_most]. [vars[0]] exists as [k < n]. *)
Definition at_most (vars : list pexpr) (k : nat) (aux : string) : pexpr :=
  if Nat.leb (length vars) k then tautology
  else if Nat.eqb k 0 then conj (map ENot vars)
  else match vars with
       | [] => tautology
       | x :: rest => conj (c_implies x (s_atom aux 1 1) :: map (fun j => ENot (s_atom aux 1 j)) (seq 2 (k - 1)) ++ counter_steps aux k 2 rest)
       end.
(** cardinality.rs:72-82 [at_least]. *)
Definition at_least (vars : list pexpr) (k : nat) (aux : string) : pexpr :=
  if Nat.eqb k 0 then tautology
  else if Nat.ltb (length vars) k then contradiction
  else at_most (map ENot vars) (length vars - k) aux.
(** cardinality.rs:85-90 [exactly]. *)
Definition exactly (vars : list pexpr) (k : nat) (aux : string) : pexpr :=
  c_and (at_least vars k (aux ++ "_ge")%string) (at_most vars k (aux ++ "_le")%string).
