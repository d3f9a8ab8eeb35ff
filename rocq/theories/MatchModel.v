(** Model of the bipartite matching of [crates/logicaffeine_proof/src/matching.rs]. [None] is an
    index panic, an overflow of a distance, or running out of the step count that replaces the
    unbounded loops and the recursion; [C75_total] rules all of them out. *)
From Coq Require Import List Arith Bool.
From stdpp Require Import list.
Local Open Scope list_scope.

Notation matches := (list (option nat)).
(** matching.rs:20-37 [HallWitness], [MatchOutcome]. *)
Record hall := Hall { h_items : list nat; h_slots : list nat }.
Inductive outcome := Feasible (assignment : list nat) | Infeasible (w : hall).

Section matching.
Context (adj : list (list nat)).

(** matching.rs:86-101, the slots of one item; a distance is [None] for [INF]. *)
Definition bfs_slot (sm : matches) (u : nat) (st : list (option nat) * list nat * bool) (v : nat) : option (list (option nat) * list nat * bool) :=
  let '(dist, queue, free) := st in
  if length sm <=? v then Some st
  else
    match sm !! v with
    | None => None
    | Some None => Some (dist, queue, true)
    | Some (Some w) =>
        match dist !! w with
        | None => None
        | Some (Some _) => Some st
        | Some None =>
            match dist !! u with
            | Some (Some d) => Some (<[w := Some (S d)]> dist, queue ++ [w], free)
            | _ => None
            end
        end
    end.
Fixpoint foldM {A B} (f : A -> B -> option A) (l : list B) (a : A) : option A :=
  match l with
  | [] => Some a
  | b :: l => match f a b with Some a => foldM f l a | None => None end
  end.
(** matching.rs:84-101, the breadth-first search. *)
Fixpoint bfs (fuel : nat) (sm : matches) (st : list (option nat) * list nat * bool) : option (list (option nat) * bool) :=
  match fuel with
  | O => None
  | S fuel =>
      let '(dist, queue, free) := st in
      match queue with
      | [] => Some (dist, free)
      | u :: queue => vs ← adj !! u; st' ← foldM (bfs_slot sm u) vs (dist, queue, free); bfs fuel sm st'
      end
  end.
(** matching.rs:76-83: free items start at distance 0. *)
Definition is_free (m : option nat) : bool := match m with None => true | Some _ => false end.
Definition free_items (im : matches) : list nat := List.filter (fun u => match im !! u with Some None => true | _ => false end) (seq 0 (length im)).
Definition bfs_start (im : matches) : list (option nat) * list nat * bool := (map (fun m => if is_free m then Some 0 else None) im, free_items im, false).

(** matching.rs:113-141 [hk_dfs]. *)
Record hk := Hk { slot_match : matches; item_match : matches; dist : list (option nat) }.
Definition place (st : hk) (u v : nat) : hk := Hk (<[v := Some u]> (slot_match st)) (<[u := Some v]> (item_match st)) (dist st).
Definition dead (st : hk) (u : nat) : hk := Hk (slot_match st) (item_match st) (<[u := None]> (dist st)).
Fixpoint hk_slots (rec : nat -> hk -> option (bool * hk)) (u : nat) (vs : list nat) (st : hk) : option (bool * hk) :=
  match vs with
  | [] => Some (false, dead st u)
  | v :: vs =>
      if length (slot_match st) <=? v then hk_slots rec u vs st
      else
        match slot_match st !! v with
        | None => None
        | Some None => Some (true, place st u v)
        | Some (Some w) =>
            match dist st !! w, dist st !! u with
            | Some dw, Some (Some d) =>
                if bool_decide (dw = Some (S d)) then
                  match rec w st with
                  | None => None
                  | Some (true, st') => Some (true, place st' u v)
                  | Some (false, st') => hk_slots rec u vs st'
                  end
                else hk_slots rec u vs st
            | _, _ => None
            end
        end
  end.
Fixpoint hk_dfs (fuel : nat) (u : nat) (st : hk) : option (bool * hk) :=
  match fuel with
  | O => None
  | S fuel => vs ← adj !! u; hk_slots (hk_dfs fuel) u vs st
  end.
(** matching.rs:103-107: an augmenting search from every free item. *)
Definition hk_item (st : hk) (u : nat) : option hk :=
  match item_match st !! u with
  | None => None
  | Some None => r ← hk_dfs (S (length adj)) u st; Some (snd r)
  | Some (Some _) => Some st
  end.
(** matching.rs:66-109 [hopcroft_karp]. *)
Fixpoint hopcroft_karp (fuel : nat) (sm im : matches) : option (matches * matches) :=
  match fuel with
  | O => None
  | S fuel =>
      match bfs (S (length adj)) sm (bfs_start im) with
      | None => None
      | Some (d, free) =>
          if free then st ← foldM hk_item (seq 0 (length adj)) (Hk sm im d); hopcroft_karp fuel (slot_match st) (item_match st)
          else Some (sm, im)
      end
  end.

(** matching.rs:148-184 [extract_hall]. *)
Definition reach_slot (sm : matches) (st : list bool * list bool * list nat) (v : nat) : option (list bool * list bool * list nat) :=
  let '(items, slots, stack) := st in
  if length slots <=? v then Some st
  else
    match slots !! v with
    | None => None
    | Some true => Some st
    | Some false =>
        let slots := <[v := true]> slots in
        match sm !! v with
        | None => None
        | Some None => Some (items, slots, stack)
        | Some (Some w) =>
            match items !! w with
            | None => None
            | Some true => Some (items, slots, stack)
            | Some false => Some (<[w := true]> items, slots, w :: stack)
            end
        end
    end.
Fixpoint reach (fuel : nat) (sm : matches) (st : list bool * list bool * list nat) : option (list bool * list bool) :=
  match fuel with
  | O => None
  | S fuel =>
      let '(items, slots, stack) := st in
      match stack with
      | [] => Some (items, slots)
      | u :: stack => vs ← adj !! u; st' ← foldM (reach_slot sm) vs (items, slots, stack); reach fuel sm st'
      end
  end.
Definition marked (l : list bool) : list nat := List.filter (fun u => match l !! u with Some true => true | _ => false end) (seq 0 (length l)).
Definition extract_hall (num_slots : nat) (sm im : matches) : option hall :=
  '(items, slots) ← reach (S (length adj)) sm (map is_free im, replicate num_slots false, rev (free_items im)); Some (Hall (marked items) (marked slots)).

(** matching.rs:44-64 [assign_or_hall]. *)
Definition assign_or_hall (num_slots : nat) : option outcome :=
  let n := length adj in
  if num_slots <? n then Some (Infeasible (Hall (seq 0 n) (seq 0 num_slots)))
  else
    '(sm, im) ← hopcroft_karp (S n) (replicate num_slots None) (replicate n None);
    match mapM id im with
    | Some a => Some (Feasible a)
    | None => w ← extract_hall num_slots sm im; Some (Infeasible w)
    end.

(** matching.rs:186-200 [is_hall_witness]. *)
Definition is_hall_witness (w : hall) : bool :=
  if length (h_items w) <=? length (h_slots w) then false
  else forallb (fun i => match adj !! i with None => false | Some vs => forallb (fun s => bool_decide (s ∈ h_slots w)) vs end) (h_items w).
(** matching.rs:202-215 [is_valid_assignment]. *)
Fixpoint valid_from (num_slots : nat) (used : list nat) (rows : list (list nat)) (a : list nat) : bool :=
  match rows, a with
  | vs :: rows, s :: a => (s <? num_slots) && bool_decide (s ∈ vs) && negb (bool_decide (s ∈ used)) && valid_from num_slots (s :: used) rows a
  | _, _ => true
  end.
Definition is_valid_assignment (num_slots : nat) (a : list nat) : bool := (length a =? length adj) && valid_from num_slots [] adj a.
End matching.

(** ** Capacities *)
(** matching.rs:241-275 [assign_or_hall_capacitated]. *)
Fixpoint offsets_from (o : nat) (caps : list nat) : list nat := match caps with [] => [o] | c :: caps => o :: offsets_from (o + c) caps end.
Definition offsets (caps : list nat) : list nat := offsets_from 0 caps.
Definition copies (caps : list nat) (s : nat) : list nat := seq (nth s (offsets caps) 0) (nth s caps 0).
Definition expand (caps : list nat) (adj : list (list nat)) : list (list nat) :=
  map (fun vs => flat_map (copies caps) (List.filter (fun s => s <? length caps) vs)) adj.
(** The binary search of [partition_point] on ascending offsets finds their number up to [c]. *)
Definition copy_to_slot (caps : list nat) (c : nat) : nat := length (List.filter (fun o => o <=? c) (offsets caps)) - 1.
Fixpoint insert_sorted (x : nat) (l : list nat) : list nat :=
  match l with
  | [] => [x]
  | y :: l' => if x <? y then x :: l else if x =? y then l else y :: insert_sorted x l'
  end.
Definition sort_dedup (l : list nat) : list nat := fold_right insert_sorted [] l.
Definition assign_or_hall_capacitated (adj : list (list nat)) (caps : list nat) : option outcome :=
  r ← assign_or_hall (expand caps adj) (fold_right Nat.add 0 caps);
  Some (match r with
        | Feasible a => Feasible (map (copy_to_slot caps) a)
        | Infeasible w => Infeasible (Hall (h_items w) (sort_dedup (map (copy_to_slot caps) (h_slots w))))
        end).
(** matching.rs:277-291 [is_cap_hall_witness]. *)
Definition is_cap_hall_witness (adj : list (list nat)) (caps : list nat) (w : hall) : bool :=
  if length (h_items w) <=? fold_right Nat.add 0 (map (fun s => nth s caps 0) (h_slots w)) then false
  else forallb (fun i => match adj !! i with None => false | Some vs => forallb (fun s => bool_decide (s ∈ h_slots w)) vs end) (h_items w).

