(** Model of the pigeonhole recogniser [crates/logicaffeine_proof/src/pigeonhole.rs]. The helper
    functions [flatten_and], [positive_disjunction], [exclusion_pair] and the union-find
    (pigeonhole.rs:185-252) are the ones of pseudo_boolean.rs, modelled in PbModel. *)
From Coq Require Import List Arith Bool String.
From stdpp Require Import gmap list.
From Verif Require Import UnifyModel PbModel MatchModel.
Local Open Scope list_scope.

(** pigeonhole.rs:97-110: the rows and the exclusions. *)
Fixpoint split_clauses (l : list pexpr) : option (list (list string) * list (string * string)) :=
  match l with
  | [] => Some ([], [])
  | c :: l =>
      match positive_disjunction c with
      | Some atoms => if (length atoms =? 0)%nat then None else '(rows, excl) ← split_clauses l; Some (atoms :: rows, excl)
      | None => match exclusion_pair c with Some p => '(rows, excl) ← split_clauses l; Some (rows, p :: excl) | None => None end
      end
  end.
(** pigeonhole.rs:115-123: does a variable occur twice in the rows. *)
Fixpoint insert_all (seen : gset string) (l : list string) : option (gset string) :=
  match l with
  | [] => Some seen
  | a :: l => if bool_decide (a ∈ seen) then None else insert_all ({[a]} ∪ seen) l
  end.
(** pigeonhole.rs:127, 130: the number of a variable. *)
Definition number (vars : list string) (a : string) : option nat := fst <$> list_find (a =.) vars.
Definition number_pair (vars : list string) (p : string * string) : option (nat * nat) := x ← number vars (fst p); y ← number vars (snd p); Some (x, y).
(** pigeonhole.rs:137-148, the slot of a variable: the place of its component. *)
Definition slot_of (groups : list (list nat)) (v : nat) : option nat := fst <$> list_find (fun g => v ∈ g) groups.
(** pigeonhole.rs:171-181: the slots of one row without repetition. *)
Fixpoint row_slots (vars : list string) (groups : list (list nat)) (acc : list nat) (row : list string) : option (list nat) :=
  match row with
  | [] => Some acc
  | a :: row => v ← number vars a; s ← slot_of groups v; row_slots vars groups (if bool_decide (s ∈ acc) then acc else acc ++ [s]) row
  end.
(** The variables are numbered in the order of the keys of a hash map: any permutation. *)
Section order.
Context (order : list string -> list string).
(** pigeonhole.rs:86-183 [extract_bipartite]. The clause list is never empty. *)
Definition extract_bipartite (e : pexpr) : option (list (list nat) * nat) :=
  '(rows, excl) ← split_clauses (flatten_and e);
  if (length rows =? 0)%nat then None else
  _ ← insert_all ∅ (concat rows);
  let vars := order (concat rows) in
  pairs ← mapM (number_pair vars) excl;
  let groups := components (length vars) pairs in
  if forallb (is_clique pairs) groups then
    adj ← mapM (row_slots vars groups []) rows; Some (adj, length groups)
  else None.
(** pigeonhole.rs:51-57 [hall_refutation]. *)
Definition hall_refutation (e : pexpr) : option hall :=
  '(adj, ns) ← extract_bipartite e;
  match assign_or_hall adj ns with
  | Some (Infeasible w) => if is_hall_witness adj w then Some w else None
  | _ => None
  end.
(** pigeonhole.rs:26-34 [decide_pigeonhole_unsat]. *)
Definition decide_pigeonhole_unsat (e : pexpr) : bool :=
  match extract_bipartite e with
  | None => false
  | Some (adj, ns) => match assign_or_hall adj ns with Some (Infeasible w) => is_hall_witness adj w | _ => false end
  end.
(** pigeonhole.rs:69-78 [certify_pigeonhole_unsat]; the numbers are unbounded. *)
Definition certify_pigeonhole_unsat (pigeons holes : nat) : option (nat * nat) := if (holes <? pigeons)%nat then Some (pigeons, holes) else None.
(** pigeonhole.rs:82-84 [check_counting_cert]. *)
Definition check_counting_cert (c : nat * nat) : bool := (snd c <? fst c)%nat.
(** pigeonhole.rs:41-44 [counting_certificate]. *)
Definition counting_certificate (e : pexpr) : option (nat * nat) :=
  '(adj, ns) ← extract_bipartite e; certify_pigeonhole_unsat (length adj) ns.
End order.
Local Open Scope string_scope.
(** Three pigeons for two holes; and a variable excluded with itself. *)
Definition ex_php : pexpr :=
  let and_ := EBin CAnd in let row a b := EBin COr (EAtom a) (EAtom b) in let ex a b := ENot (EBin CAnd (EAtom a) (EAtom b)) in
  and_ (row "a0" "a1") (and_ (row "b0" "b1") (and_ (row "c0" "c1")
    (and_ (and_ (ex "a0" "b0") (and_ (ex "a0" "c0") (ex "b0" "c0"))) (and_ (ex "a1" "b1") (and_ (ex "a1" "c1") (EBin COr (ENot (EAtom "b1")) (ENot (EAtom "c1")))))))).
Definition ex_self : pexpr := EBin CAnd (EAtom "a") (ENot (EBin CAnd (EAtom "a") (EAtom "a"))).
