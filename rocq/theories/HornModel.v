(** Model of [crates/logicaffeine_proof/src/hornsat.rs]. Variables and clause indices are [nat].
    [None] results are panics (index out of bounds, subtraction underflow) or running out of the
    step bound that replaces an unbounded loop; both are shown impossible where claimed. *)
From Coq Require Import List Arith Bool.
From stdpp Require Import list sets gmap.

(** hornsat.rs:16-21 [HornClause]. *)
Record horn := Horn { h_body : list nat; h_head : option nat }.

(** hornsat.rs:40-46 [HornOutcome]. *)
Inductive horn_outcome := HSat (model : list bool) | HUnsat (derivation : list nat).

(** hornsat.rs:51-67: loop state. [forced_by] uses [usize::MAX] for "not forced": [None] here. *)
Record hstate := HState { hs_val : list bool; hs_forced : list (option nat); hs_rem : list nat; hs_ready : list nat }.

(** hornsat.rs:54-57. *)
Definition h_remaining (n : nat) (cs : list horn) : list nat :=
  map (fun c => length (List.filter (fun b => Nat.ltb b n) (h_body c))) cs.

(** hornsat.rs:58-65: [in_body[b]], the clauses with [b] in the body, once per occurrence. *)
Fixpoint h_in_body_from (i : nat) (b : nat) (cs : list horn) : list nat :=
  match cs with
  | [] => []
  | c :: cs => repeat i (length (List.filter (Nat.eqb b) (h_body c))) ++ h_in_body_from (S i) b cs
  end.
Definition h_in_body (cs : list horn) (b : nat) : list nat := h_in_body_from 0 b cs.

(** hornsat.rs:66-67. *)
Definition h_ready0 (rem : list nat) : list nat :=
  List.filter (fun i => match rem !! i with Some 0 => true | _ => false end) (seq 0 (length rem)).

(** hornsat.rs:78-83, the loop over [in_body[h]]. *)
Fixpoint h_dec (js : list nat) (rem ready : list nat) : option (list nat * list nat) :=
  match js with
  | [] => Some (rem, ready)
  | j :: js =>
      match rem !! j with
      | Some (S k) => h_dec js (<[j := k]> rem) (if Nat.eqb k 0 then ready ++ [j] else ready)
      | _ => None
      end
  end.

(** hornsat.rs:93-109 [derivation]. The sets are finite sets, the stack a list (top first:
    [extend] pushes the body in order, so it is reversed onto the top). *)
Fixpoint h_deriv (steps : nat) (cs : list horn) (forced : list (option nat))
    (used : list nat) (seen_c : gset nat) (seen_v : gset nat) (stack : list nat) : option (list nat) :=
  match steps with
  | O => None
  | S steps =>
      match stack with
      | [] => Some used
      | v :: stack =>
          if bool_decide (v ∈ seen_v) then h_deriv steps cs forced used seen_c seen_v stack
          else
            let seen_v := {[v]} ∪ seen_v in
            match mjoin (forced !! v) with
            | None => h_deriv steps cs forced used seen_c seen_v stack
            | Some fc =>
                if bool_decide (fc ∈ seen_c) then h_deriv steps cs forced used seen_c seen_v stack
                else match cs !! fc with
                     | None => None
                     | Some c => h_deriv steps cs forced (used ++ [fc]) ({[fc]} ∪ seen_c) seen_v (rev (h_body c) ++ stack)
                     end
            end
      end
  end.
Definition h_size (cs : list horn) : nat := list_sum (map (fun c => length (h_body c)) cs).
Definition h_derivation (cs : list horn) (goal : nat) (forced : list (option nat)) : option (list nat) :=
  match cs !! goal with
  | None => None
  | Some c => h_deriv (S (h_size cs)) cs forced [goal] {[goal]} ∅ (rev (h_body c))
  end.

(** hornsat.rs:68-88, the main loop. *)
Fixpoint h_loop (steps : nat) (n : nat) (cs : list horn) (st : hstate) : option horn_outcome :=
  match steps with
  | O => None
  | S steps =>
      match hs_ready st with
      | [] => Some (HSat (hs_val st))
      | ci :: ready =>
          match cs !! ci with
          | None => None
          | Some c =>
              match h_head c with
              | None => match h_derivation cs ci (hs_forced st) with Some d => Some (HUnsat d) | None => None end
              | Some h =>
                  if Nat.ltb h n && negb (default false (hs_val st !! h)) then
                    match h_dec (h_in_body cs h) (hs_rem st) ready with
                    | None => None
                    | Some (rem, ready) =>
                        h_loop steps n cs (HState (<[h := true]> (hs_val st)) (<[h := Some ci]> (hs_forced st)) rem ready)
                    end
                  else h_loop steps n cs (HState (hs_val st) (hs_forced st) (hs_rem st) ready)
              end
          end
      end
  end.

(** hornsat.rs:50-89 [solve]. *)
Definition h_solve (cs : list horn) (n : nat) : option horn_outcome :=
  let rem := h_remaining n cs in
  h_loop (S (length cs)) n cs (HState (replicate n false) (replicate n None) rem (h_ready0 rem)).

(** hornsat.rs:113-121 [satisfies]. *)
Definition h_var_true (a : list bool) (b : nat) : bool := default false (a !! b).
Definition h_satisfies (cs : list horn) (a : list bool) : bool :=
  forallb (fun c =>
    let body_true := forallb (h_var_true a) (h_body c) in
    match h_head c with
    | Some h => negb body_true || h_var_true a h
    | None => negb body_true
    end) cs.

(** hornsat.rs:125-150 [is_refutation]: one pass over the listed clauses, repeated while it
    changes something. Inner [None]: a listed index is out of range (the check returns false). *)
Fixpoint h_replay_pass (cs : list horn) (n : nat) (refn : list nat) (val : list bool) (changed : bool) : option (list bool * bool) :=
  match refn with
  | [] => Some (val, changed)
  | ci :: refn =>
      match cs !! ci with
      | None => None
      | Some c =>
          match h_head c with
          | None => h_replay_pass cs n refn val changed
          | Some h =>
              if forallb (fun b => Nat.ltb b n && h_var_true val b) (h_body c) && Nat.ltb h n && negb (h_var_true val h)
              then h_replay_pass cs n refn (<[h := true]> val) true
              else h_replay_pass cs n refn val changed
          end
      end
  end.
Fixpoint h_replay (steps : nat) (cs : list horn) (n : nat) (refn : list nat) (val : list bool) : option (option (list bool)) :=
  match steps with
  | O => None
  | S steps =>
      match h_replay_pass cs n refn val false with
      | None => Some None
      | Some (val', changed) => if changed then h_replay steps cs n refn val' else Some (Some val')
      end
  end.
Definition h_is_refutation (cs : list horn) (n : nat) (refn : list nat) : option bool :=
  match h_replay (S n) cs n refn (replicate n false) with
  | None => None
  | Some None => Some false
  | Some (Some val) =>
      Some (existsb (fun ci => match cs !! ci with
                               | Some c => match h_head c with
                                           | None => forallb (fun b => Nat.ltb b n && h_var_true val b) (h_body c)
                                           | Some _ => false
                                           end
                               | None => false
                               end) refn)
  end.
