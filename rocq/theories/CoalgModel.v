(** Finite transition systems and countdown measures:
    [/repo/crates/logicaffeine_proof/src/coalgebra.rs] lines 1-116.

    Simplified: the vectors [indeg], [rank] and [done] of length [n] are functions on state numbers (only
    arguments below [n] are ever used); the two worklist loops carry a step budget, which the proofs show is
    never used up. *)
From Coq Require Import List Arith Bool.
Import ListNotations.

(** [TransitionSystem] (19-23). *)
Record system := Sys { n_states : nat; successors : list (list nat) }.
(** [TransitionSystem::path] (27-32). *)
Definition path (n : nat) : system := Sys n (map (fun s => if s + 1 <? n then [s + 1] else []) (seq 0 n)).
Definition succs (y : system) (s : nat) : list nat := nth s (successors y) [].

(** [is_countdown_morphism] (38-47). *)
Definition is_countdown_morphism (y : system) (measure : list nat) : bool :=
  if negb (length measure =? n_states y) then false
  else forallb (fun p => forallb (fun t => (t <? length measure) && (nth t measure 0 <? nth (fst p) measure 0)) (snd p))
         (combine (seq 0 (length (successors y))) (successors y)).

Definition upd {A} (f : nat -> A) (k : nat) (v : A) : nat -> A := fun i => if i =? k then v else f i.
(** In-degrees (53-61): successors outside the state range are skipped. *)
Definition indegrees (y : system) : nat -> nat :=
  fold_left (fun d succ => fold_left (fun d t => if t <? n_states y then upd d t (d t + 1) else d) succ d)
    (successors y) (fun _ => 0).
(** The inner loop (69-76): decrement, push a state that reaches zero. *)
Definition relax (n : nat) (st : (nat -> nat) * list nat) (t : nat) : (nat -> nat) * list nat :=
  let '(d, q) := st in
  if t <? n then
    let d := upd d t (d t - 1) in
    (d, if d t =? 0 then q ++ [t] else q)
  else st.
(** The outer loop (65-77): [queue] is the part from [qi] on. [None]: out of budget. *)
Fixpoint kahn (fuel : nat) (y : system) (d : nat -> nat) (queue : list nat) (seen : nat) : option nat :=
  match fuel with
  | O => None
  | S fuel =>
      match queue with
      | [] => Some seen
      | s :: q => let '(d, q) := fold_left (relax (n_states y)) (succs y s) (d, q) in kahn fuel y d q (seen + 1)
      end
  end.
(** [is_well_founded] (52-79). *)
Definition is_well_founded (y : system) : bool :=
  let d := indegrees y in
  match kahn (S (n_states y)) y d (List.filter (fun s => d s =? 0) (seq 0 (n_states y))) 0 with
  | Some seen => seen =? n_states y
  | None => false
  end.

(** The explicit stack (95-113); the head of the list is the top. [None]: out of budget. *)
Fixpoint dfs (fuel : nat) (y : system) (rank : nat -> nat) (done : nat -> bool) (stack : list nat)
  : option ((nat -> nat) * (nat -> bool)) :=
  match fuel with
  | O => None
  | S fuel =>
      match stack with
      | [] => Some (rank, done)
      | s :: rest =>
          match List.find (fun t => (t <? n_states y) && negb (done t)) (succs y s) with
          | Some t => dfs fuel y rank done (t :: stack)
          | None =>
              let r := fold_right Nat.max 0 (map (fun t => rank t + 1) (List.filter (fun t => t <? n_states y) (succs y s))) in
              dfs fuel y (upd rank s r) (upd done s true) rest
          end
      end
  end.
(** The loop over the starts (91-114). *)
Fixpoint ranks (y : system) (starts : list nat) (rank : nat -> nat) (done : nat -> bool) : option (nat -> nat) :=
  match starts with
  | [] => Some rank
  | s :: starts =>
      if done s then ranks y starts rank done
      else match dfs (S (2 * n_states y)) y rank done [s] with
           | Some (rank, done) => ranks y starts rank done
           | None => None
           end
  end.
(** [canonical_countdown_morphism] (84-116). *)
Definition canonical_countdown_morphism (y : system) : option (list nat) :=
  if negb (is_well_founded y) then None
  else match ranks y (seq 0 (n_states y)) (fun _ => 0) (fun _ => false) with
       | Some rank => Some (map rank (seq 0 (n_states y)))
       | None => None
       end.
