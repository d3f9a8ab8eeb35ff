(** Model of the clausal proofs of XOR refutations (crates/logicaffeine_proof/src/xor_drat.rs). *)
From Coq Require Import List Bool Arith NArith.
From stdpp Require Import base list numbers.
From Verif Require Import RupModel GaussModel IvModel.
Open Scope nat_scope.

(** 32-43; the mask is a u32, and an equation has less than 32 variables (the shift would overflow). *)
Definition wrong_parity (rhs : bool) (mask : N) : bool := xorb (Nat.odd (ones mask)) rhs.
Definition forbid (vars : list nat) (mask : N) : clause := imap (fun i v => Lit v (negb (N.testbit_nat mask i))) vars.
Definition gadget_clauses (e : xor_eq) : list clause :=
  map (forbid (xvars e)) (List.filter (wrong_parity (xrhs e)) (map N.of_nat (seq 0 (2 ^ length (xvars e))))).

(** 48, 65: the code of a literal; unbounded instead of u32. *)
Definition code (l : lit) : nat := lvar l * 2 + (if lpos l then 0 else 1).
(** Vec::dedup. *)
Fixpoint dedup {A} `{EqDecision A} (l : list A) : list A :=
  match l with x :: (y :: _) as l' => if decide (x = y) then dedup l' else x :: dedup l' | _ => l end.
(** 46-51. *)
Definition key (c : clause) : list nat := dedup (sort_by Nat.leb (map code c)).
Definition by_code (a b : lit) : bool := code a <=? code b.
(** 55-72; the map is a list of its pairs in some order. *)
Fixpoint merge (v : nat) (seen : list lit) (ls : list lit) : option (list lit) :=
  match ls with
  | [] => Some seen
  | l :: ls =>
      if lvar l =? v then merge v seen ls
      else match List.find (fun k => lvar k =? lvar l) seen with
           | Some k => if Bool.eqb (lpos k) (lpos l) then merge v seen ls else None
           | None => merge v (seen ++ [l]) ls
           end
  end.
Definition resolve (a b : clause) (v : nat) : option clause := sort_by by_code <$> merge v [] (a ++ b).

(** 86-99: the first clauses, each with its literals in order. *)
Definition tidy (c : clause) : clause := dedup (sort_by by_code c).
Fixpoint intake (present : list (list nat)) (active : list clause) (support : list clause) : list (list nat) * list clause :=
  match support with
  | [] => (present, active)
  | c :: support => if decide (key c ∈ present) then intake present active support else intake (key c :: present) (active ++ [tidy c]) support
  end.
(** 107-127: the variable with the smallest product, the first of them in ascending order. *)
Definition mention (v : nat) (c : clause) : option lit := List.find (fun l => lvar l =? v) c.
Definition in_pos (v : nat) (c : clause) : bool := match mention v c with Some l => lpos l | None => false end.
Definition in_neg (v : nat) (c : clause) : bool := match mention v c with Some l => negb (lpos l) | None => false end.
Definition in_none (v : nat) (c : clause) : bool := match mention v c with Some _ => false | None => true end.
Definition vars_of (active : list clause) : list nat := dedup (sort_by Nat.leb (map lvar (concat active))).
Definition fanout (active : list clause) (v : nat) : nat := length (List.filter (in_pos v) active) * length (List.filter (in_neg v) active).
Fixpoint min_by (f : nat -> nat) (best : nat) (vs : list nat) : nat :=
  match vs with [] => best | v :: vs => min_by f (if f v <? f best then v else best) vs end.
(** 140-164. [Blown]: out of budget. *)
Inductive round := Found (emitted : list clause) | Blown | Round (present : list (list nat)) (emitted next : list clause) (work : nat).
Fixpoint resolve_all (budget max_work : nat) (v : nat) (pairs : list (clause * clause)) (present : list (list nat)) (emitted next : list clause) (work : nat) : round :=
  match pairs with
  | [] => Round present emitted next work
  | (cp, cn) :: pairs =>
      let work := S work in
      if max_work <? work then Blown
      else match resolve cp cn v with
           | None => resolve_all budget max_work v pairs present emitted next work
           | Some [] => Found (emitted ++ [[]])
           | Some r =>
               if decide (key r ∈ present) then resolve_all budget max_work v pairs present emitted next work
               else if budget <? length (emitted ++ [r]) then Blown
               else resolve_all budget max_work v pairs (key r :: present) (emitted ++ [r]) (next ++ [r]) work
           end
  end.
(** 106-168; [n] bounds the number of variables eliminated. *)
Fixpoint eliminate_all (n budget max_work : nat) (present : list (list nat)) (active emitted : list clause) (work : nat) : option (option (list clause)) :=
  match n with O => None | S n =>
    match vars_of active with
    | [] => Some None
    | v0 :: vs =>
        let v := min_by (fanout active) v0 vs in
        let pos := List.filter (in_pos v) active in
        let neg := List.filter (in_neg v) active in
        match resolve_all budget max_work v (list_prod pos neg) present emitted (List.filter (in_none v) active) work with
        | Found proof => Some (Some proof)
        | Blown => Some None
        | Round present emitted next work => eliminate_all n budget max_work present next emitted work
        end
    end
  end.
(** 85-168. The two budgets (78, 83) are arguments. *)
Definition resolution_refutation_with (budget max_work : nat) (support : list clause) : option (list clause) :=
  let '(present, active) := intake [] [] support in
  if existsb (fun c => match c with [] => true | _ => false end) active then Some [[]]
  else match eliminate_all (S (length (vars_of active))) budget max_work present active [] 0 with Some r => r | None => None end.
Definition gadgets_at (eqs : list xor_eq) (refutation : list nat) : option (list clause) := (fun l => concat l) <$> mapM (fun i => gadget_clauses <$> eqs !! i) refutation.
(** 173-179; [None] outside is an index out of range. *)
Definition emit_xor_drat_with (budget max_work : nat) (eqs : list xor_eq) (refutation : list nat) : option (option (list clause)) :=
  resolution_refutation_with budget max_work <$> gadgets_at eqs refutation.
(** 185-192; [support] is a set of variables. *)
Definition emit_drat_over_support_with (budget max_work : nat) (clauses : list clause) (support : list nat) : option (list clause) :=
  resolution_refutation_with budget max_work (List.filter (fun c => forallb (fun l => bool_decide (lvar l ∈ support)) c) clauses).
