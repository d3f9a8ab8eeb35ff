(** Model of [crates/logicaffeine_proof/src/twosat.rs]. Nodes and variables are [nat].
    [None] results are index panics or running out of the bound on recursion depth or loop steps;
    both are shown impossible. *)
From Coq Require Import List Arith Bool.
From stdpp Require Import list.

(** twosat.rs:13-18 [Lit]. *)
Record tlit := TLit { t_var : nat; t_pos : bool }.
(** twosat.rs:33-39 [TwoSatOutcome]. *)
Inductive twosat_outcome := TSat (assignment : list bool) | TUnsat (var : nat).

(** twosat.rs:43-49 [node], [neg_node]. *)
Definition t_node (l : tlit) : nat := 2 * t_var l + (if t_pos l then 1 else 0).
Definition neg_node (n : nat) : nat := Nat.lxor n 1.

(** twosat.rs:76-87: the edges added for the clauses, in order, skipping clauses with a variable
    out of range. *)
Definition clause_edges (num_vars : nat) (cl : tlit * tlit) : list (nat * nat) :=
  if Nat.leb num_vars (t_var cl.1) || Nat.leb num_vars (t_var cl.2) then []
  else [(neg_node (t_node cl.1), t_node cl.2); (neg_node (t_node cl.2), t_node cl.1)].
Definition t_edges (cls : list (tlit * tlit)) (num_vars : nat) : list (nat * nat) := concat (map (clause_edges num_vars) cls).
(** [adj[from].push(to)]; [radj[to].push(from)] is the same on swapped pairs. *)
Definition push_edge (adj : list (list nat)) (e : nat * nat) : list (list nat) := alter (fun l => l ++ [e.2]) e.1 adj.
Definition build_adj (nn : nat) (es : list (nat * nat)) : list (list nat) := fold_left push_edge es (replicate nn []).
Definition swap_edge (e : nat * nat) : nat * nat := (e.2, e.1).

(** twosat.rs:51-59 [dfs1]; the inner function is the loop over [adj[v]]. *)
Fixpoint dfs1 (depth : nat) (adj : list (list nat)) (v : nat) (visited : list bool) (order : list nat) : option (list bool * list nat) :=
  match depth with
  | O => None
  | S depth =>
      match adj !! v with
      | None => None
      | Some us =>
          (fix go (us : list nat) (visited : list bool) (order : list nat) :=
             match us with
             | [] => Some (visited, order ++ [v])
             | u :: us =>
                 match visited !! u with
                 | None => None
                 | Some true => go us visited order
                 | Some false =>
                     match dfs1 depth adj u visited order with
                     | None => None
                     | Some (visited, order) => go us visited order
                     end
                 end
             end) us (<[v := true]> visited) order
      end
  end.

(** twosat.rs:61-68 [dfs2]; [usize::MAX] (unassigned) is [None]. *)
Fixpoint dfs2 (depth : nat) (radj : list (list nat)) (v : nat) (comp : list (option nat)) (c : nat) : option (list (option nat)) :=
  match depth with
  | O => None
  | S depth =>
      match radj !! v with
      | None => None
      | Some us =>
          (fix go (us : list nat) (comp : list (option nat)) :=
             match us with
             | [] => Some comp
             | u :: us =>
                 match comp !! u with
                 | None => None
                 | Some (Some _) => go us comp
                 | Some None =>
                     match dfs2 depth radj u comp c with
                     | None => None
                     | Some comp => go us comp
                     end
                 end
             end) us (<[v := Some c]> comp)
      end
  end.

(** twosat.rs:91-95: the first pass over all nodes. *)
Fixpoint pass1 (nn : nat) (adj : list (list nat)) (vs : list nat) (visited : list bool) (order : list nat) : option (list bool * list nat) :=
  match vs with
  | [] => Some (visited, order)
  | v :: vs =>
      match visited !! v with
      | None => None
      | Some true => pass1 nn adj vs visited order
      | Some false =>
          match dfs1 (S nn) adj v visited order with
          | None => None
          | Some (visited, order) => pass1 nn adj vs visited order
          end
      end
  end.

(** twosat.rs:96-103: the second pass, over the reversed order. *)
Fixpoint pass2 (nn : nat) (radj : list (list nat)) (vs : list nat) (comp : list (option nat)) (c : nat) : option (list (option nat)) :=
  match vs with
  | [] => Some comp
  | v :: vs =>
      match comp !! v with
      | None => None
      | Some (Some _) => pass2 nn radj vs comp c
      | Some None =>
          match dfs2 (S nn) radj v comp c with
          | None => None
          | Some comp => pass2 nn radj vs comp (S c)
          end
      end
  end.

(** twosat.rs:89-103 together. *)
Definition components (nn : nat) (es : list (nat * nat)) : option (list (option nat)) :=
  match pass1 nn (build_adj nn es) (seq 0 nn) (replicate nn false) [] with
  | None => None
  | Some (_, order) => pass2 nn (build_adj nn (map swap_edge es)) (rev order) (replicate nn None) 0
  end.

(** twosat.rs:105-109. [None] entries do not remain (shown below); they compare as [usize::MAX]. *)
Definition comp_eqb (a b : option nat) : bool := bool_decide (a = b).
Fixpoint find_conflict (comp : list (option nat)) (vs : list nat) : option nat :=
  match vs with
  | [] => None
  | v :: vs => if comp_eqb (mjoin (comp !! (2 * v))) (mjoin (comp !! (2 * v + 1))) then Some v else find_conflict comp vs
  end.
(** twosat.rs:111-113. *)
Definition comp_gtb (a b : option nat) : bool :=
  match a, b with
  | Some x, Some y => Nat.ltb y x
  | None, Some _ => true
  | _, None => false
  end.
Definition read_model (comp : list (option nat)) (num_vars : nat) : list bool :=
  map (fun v => comp_gtb (mjoin (comp !! t_node (TLit v true))) (mjoin (comp !! t_node (TLit v false)))) (seq 0 num_vars).

(** twosat.rs:72-115 [solve]. *)
Definition t_solve (cls : list (tlit * tlit)) (num_vars : nat) : option twosat_outcome :=
  match components (2 * num_vars) (t_edges cls num_vars) with
  | None => None
  | Some comp =>
      match find_conflict comp (seq 0 num_vars) with
      | Some v => Some (TUnsat v)
      | None => Some (TSat (read_model comp num_vars))
      end
  end.

(** twosat.rs:118-121 [satisfies]. *)
Definition t_holds (a : list bool) (l : tlit) : bool := match a !! t_var l with Some b => Bool.eqb b (t_pos l) | None => false end.
Definition t_satisfies (cls : list (tlit * tlit)) (a : list bool) : bool := forallb (fun cl => t_holds a cl.1 || t_holds a cl.2) cls.

(** twosat.rs:137-153 [reaches]: iterative search with a stack (top first). *)
Fixpoint push_new (ws : list nat) (seen : list bool) (stack : list nat) : option (list bool * list nat) :=
  match ws with
  | [] => Some (seen, stack)
  | w :: ws =>
      match seen !! w with
      | None => None
      | Some true => push_new ws seen stack
      | Some false => push_new ws (<[w := true]> seen) (w :: stack)
      end
  end.
Fixpoint reach_loop (steps : nat) (adj : list (list nat)) (to : nat) (seen : list bool) (stack : list nat) : option bool :=
  match steps with
  | O => None
  | S steps =>
      match stack with
      | [] => Some false
      | u :: stack =>
          if Nat.eqb u to then Some true
          else match adj !! u with
               | None => None
               | Some ws => match push_new ws seen stack with
                            | None => None
                            | Some (seen, stack) => reach_loop steps adj to seen stack
                            end
               end
      end
  end.
Definition reaches (nn : nat) (adj : list (list nat)) (from to : nat) : option bool :=
  match reach_loop (S nn) adj to (<[from := true]> (replicate nn false)) [from] with
  | Some false => Some (Nat.eqb from to)
  | r => r
  end.

(** twosat.rs:125-157 [is_refutation]. *)
Definition t_is_refutation (cls : list (tlit * tlit)) (num_vars var : nat) : option bool :=
  if Nat.leb num_vars var then Some false
  else
    let nn := 2 * num_vars in
    let adj := build_adj nn (t_edges cls num_vars) in
    let xt := t_node (TLit var true) in
    let xf := t_node (TLit var false) in
    match reaches nn adj xt xf with
    | Some true => reaches nn adj xf xt
    | r => r
    end.
