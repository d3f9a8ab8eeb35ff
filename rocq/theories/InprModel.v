(** Certified inprocessing: crates/logicaffeine_proof/src/inprocess.rs. Literals, clauses and the
    RUP test are those of [RupModel]; proof steps and the checker are those of [PrModel].
    [equivalent_literal_scc] (inprocess.rs:89-165) is not modelled. Variables are unbounded. *)
From Coq Require Import List Arith Bool Lia.
From stdpp Require Import list list_numbers sorting.
From Verif Require Import RupModel PrModel.

Definition has (l : lit) (c : clause) : bool := bool_decide (l ∈ c).

(** inprocess.rs:17-28 [resolve]. *)
Definition resolvent (a b : clause) (x : nat) : clause :=
  fold_left (fun r l => if negb (Nat.eqb (lvar l) x) && negb (has l r) then r ++ [l] else r) b
    (List.filter (fun l => negb (Nat.eqb (lvar l) x)) a).
Definition resolve (a b : clause) (x : nat) : option clause :=
  let r := resolvent a b x in
  if existsb (fun l => has (negated l) r) r then None else Some r.

(** inprocess.rs:36-37, 190-191: the clauses with [x] and the clauses with [¬x]. *)
Definition with_lit (l : lit) (cs : list clause) : list clause := List.filter (has l) cs.
(** inprocess.rs:41-49, 203-213: all non-tautological resolvents, in the order of the two loops. *)
Definition resolvents (pos neg : list clause) (x : nat) : list clause :=
  flat_map (fun a => flat_map (fun b => match resolve a b x with Some r => [r] | None => [] end) neg) pos.
(** inprocess.rs:57-62, 214-221: the new clause set and the proof steps. *)
Definition without_var (x : nat) (cs : list clause) : list clause :=
  List.filter (fun c => negb (has (Lit x true) c) && negb (has (Lit x false) c)) cs.
Definition elim_steps (pos neg rs : list clause) : list step := map SRup rs ++ map SDelete (pos ++ neg).

(** inprocess.rs:34-63 [eliminate_variable]. *)
Definition eliminate_variable (cs : list clause) (x : nat) : option (list clause * list step) :=
  let pos := with_lit (Lit x true) cs in
  let neg := with_lit (Lit x false) cs in
  if Nat.eqb (length pos) 0 && Nat.eqb (length neg) 0 then None
  else
    let rs := resolvents pos neg x in
    if Nat.ltb (length pos + length neg) (length rs) then None
    else Some (without_var x cs ++ rs, elim_steps pos neg rs).

(** inprocess.rs:72-80: one pass over the variables. *)
Fixpoint bve_pass (vars : list nat) (cur : list clause) (steps : list step) (changed : bool) : list clause * list step * bool :=
  match vars with
  | [] => (cur, steps, changed)
  | x :: vars =>
      match eliminate_variable cur x with
      | Some (next, s) => bve_pass vars next (steps ++ s) true
      | None => bve_pass vars cur steps changed
      end
  end.
Fixpoint bve_passes (k n : nat) (cur : list clause) (steps : list step) : list clause * list step :=
  match k with
  | O => (cur, steps)
  | S k =>
      match bve_pass (seq 0 n) cur steps false with
      | (cur, steps, true) => bve_passes k n cur steps
      | (cur, steps, false) => (cur, steps)
      end
  end.
(** inprocess.rs:68-87 [bve]: at most four passes. *)
Definition bve (num_vars : nat) (cs : list clause) : list clause * list step := bve_passes 4 num_vars cs [].

(** inprocess.rs:180-189: the variables in increasing order without repetition, and the first one
    of least degree. *)
Definition degree (cs : list clause) (v : nat) : nat := length (List.filter (existsb (fun l => Nat.eqb (lvar l) v)) cs).
Definition max_var (cs : list clause) : nat := fold_right (fun l m => Nat.max (lvar l) m) 0 (concat cs).
Definition vars_of (cs : list clause) : list nat := List.filter (fun v => negb (Nat.eqb (degree cs v) 0)) (seq 0 (S (max_var cs))).
Definition min_degree (cs : list clause) (v : nat) (vs : list nat) : nat :=
  fold_left (fun best w => if Nat.ltb (degree cs w) (degree cs best) then w else best) vs v.

Definition has_empty (cs : list clause) : bool := existsb (fun c => Nat.eqb (length c) 0) cs.
(** inprocess.rs:174-232 [bucket_elimination_refute]; the bounds 16 384 and 50 000 are the parameters
    [product_cap] and [size_cap] (nothing depends on their values). [k] is the number of rounds left. *)
Fixpoint bucket (k : nat) (cur : list clause) (steps : list step) (width_cap product_cap size_cap : nat) : option (list step) :=
  match k with
  | O => if has_empty cur then Some steps else None
  | S k =>
      if has_empty cur then Some steps
      else
        match vars_of cur with
        | [] => None
        | v0 :: vs =>
            let v := min_degree cur v0 vs in
            let pos := with_lit (Lit v true) cur in
            let neg := with_lit (Lit v false) cur in
            if Nat.ltb product_cap (length pos * length neg) then None
            else
              let rs := resolvents pos neg v in
              if existsb (fun r => Nat.ltb width_cap (length r)) rs then None
              else
                let cur := without_var v cur ++ rs in
                if Nat.ltb size_cap (length cur) then None
                else bucket k cur (steps ++ elim_steps pos neg rs) width_cap product_cap size_cap
        end
  end.
Definition bucket_elimination_refute (num_vars : nat) (cs : list clause) (width_cap product_cap size_cap : nat) : option (list step) :=
  bucket (S num_vars) cs [] width_cap product_cap size_cap.

(** inprocess.rs:237-252 [vivify_clause]. The inner [option] is the returned one, the outer one is
    [None] when the RUP test panics. Every round decreases [cur.len() - i]. *)
Fixpoint vivify_loop (fuel num_vars : nat) (db : list clause) (cur : clause) (i : nat) (improved : bool) : option (option clause) :=
  match fuel with
  | O => Some (if improved then Some cur else None)
  | S fuel =>
      if Nat.ltb 1 (length cur) && Nat.ltb i (length cur) then
        let without := delete i cur in
        match is_rup num_vars db without with
        | None => None
        | Some true => vivify_loop fuel num_vars db without i true
        | Some false => vivify_loop fuel num_vars db cur (S i) improved
        end
      else Some (if improved then Some cur else None)
  end.
Definition vivify_clause (num_vars : nat) (db : list clause) (c : clause) : option (option clause) :=
  vivify_loop (length c) num_vars db c 0 false.

(** inprocess.rs:257-271 [vivify]. *)
Fixpoint vivify_from (idxs : list nat) (num_vars : nat) (cur : list clause) (steps : list step) : option (list clause * list step) :=
  match idxs with
  | [] => Some (cur, steps)
  | i :: idxs =>
      match cur !! i with
      | None => None
      | Some c =>
          if Nat.leb (length c) 1 then vivify_from idxs num_vars cur steps
          else
            match vivify_clause num_vars cur c with
            | None => None
            | Some None => vivify_from idxs num_vars cur steps
            | Some (Some c2) => vivify_from idxs num_vars (<[i := c2]> cur) (steps ++ [SRup c2; SDelete c])
            end
      end
  end.
Definition vivify (num_vars : nat) (cs : list clause) : option (list clause * list step) := vivify_from (seq 0 (length cs)) num_vars cs [].
