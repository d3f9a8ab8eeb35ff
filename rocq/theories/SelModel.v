(** Symmetric explanation learning: [/repo/crates/logicaffeine_proof/src/sym_dynamic.rs] lines 28-140.

    The CDCL solver and [find_generators] are parameters: [solve db budget] is the verdict, the learned clauses and the
    number of conflicts of a fresh solver on [db] (87-95), [gens] any list of permutations.  [None] results are index panics.
    The budget is [N] without saturation. *)
From Coq Require Import List Arith NArith Bool.
From stdpp Require Import list.
From Verif Require Import RupModel PrModel.

(** [SelOutcome] (28-38). *)
Inductive outcome := OUnsat (steps : list step) (conflicts : N) (amplified : nat) | OSat (model : list bool) | OUnknown (conflicts : N).
(** [BudgetedResult] of the solver. *)
Inductive verdict := VSat (model : list bool) | VUnsat | VBudget.

(** The database, the proof steps and the keys seen; [canon] (41-46) is [clause_key]. *)
Record state := State { db : list clause; steps : list step; seen : list (list nat) }.
(** [try_add] (49-68). *)
Definition try_add (num_vars : nat) (s : state) (x : clause) : option (state * bool) :=
  let key := clause_key x in
  if existsb (fun k => bool_decide (k = key)) (seen s) then Some (s, false)
  else match is_rup num_vars (db s) x with
       | None => None
       | Some true => Some (State (db s ++ [x]) (steps s ++ [SRup x]) (key :: seen s), true)
       | Some false => Some (s, false)
       end.
(** The closing clauses (99-106). *)
Fixpoint add_all (num_vars : nat) (s : state) (learned : list clause) : option state :=
  match learned with
  | [] => Some s
  | c :: learned => match try_add num_vars s c with None => None | Some (s, _) => add_all num_vars s learned end
  end.
(** The images of one clause (116-122). *)
Fixpoint amplify (num_vars : nat) (gens : list perm) (s : state) (c : clause) (amplified : nat) (progress : bool) : option (state * nat * bool) :=
  match gens with
  | [] => Some (s, amplified, progress)
  | g :: gens =>
      match apply_clause g c with
      | None => None
      | Some image =>
          match try_add num_vars s image with
          | None => None
          | Some (s, true) => amplify num_vars gens s c (S amplified) true
          | Some (s, false) => amplify num_vars gens s c amplified progress
          end
      end
  end.
(** The amplification pass (107-123). *)
Fixpoint learn (num_vars : nat) (gens : list perm) (s : state) (learned : list clause) (amplified : nat) (progress : bool) : option (state * nat * bool) :=
  match learned with
  | [] => Some (s, amplified, progress)
  | c :: learned =>
      match try_add num_vars s c with
      | None => None
      | Some (s, b) =>
          match amplify num_vars gens s c amplified (progress || b) with
          | None => None
          | Some (s, amplified, progress) => learn num_vars gens s learned amplified progress
          end
      end
  end.
(** The rounds (83-133): left with a model or with the final state. *)
Fixpoint rounds (fuel num_vars : nat) (gens : list perm) (solve : list clause -> N -> verdict * list clause * N) (s : state) (conflicts : N) (amplified : nat) (budget : N) : option (list bool + state * N * nat) :=
  match fuel with
  | O => Some (inr (s, conflicts, amplified))
  | S fuel =>
      match is_rup num_vars (db s) [] with
      | None => None
      | Some true => Some (inr (s, conflicts, amplified))
      | Some false =>
          let '(v, learned, k) := solve (db s) budget in
          let conflicts := (conflicts + k)%N in
          match v with
          | VSat model => Some (inl model)
          | VUnsat => match add_all num_vars s learned with None => None | Some s => Some (inr (s, conflicts, amplified)) end
          | VBudget =>
              match learn num_vars gens s learned amplified false with
              | None => None
              | Some (s, amplified, progress) =>
                  if progress then rounds fuel num_vars gens solve s conflicts amplified budget
                  else let budget := (2 * budget)%N in
                       if (1000000 <? budget)%N then Some (inr (s, conflicts, amplified))
                       else rounds fuel num_vars gens solve s conflicts amplified budget
              end
          end
      end
  end.
(** [sel_refute] (73-140), with the round cap (81) as a parameter. *)
Definition sel_refute (max_rounds num_vars : nat) (gens : list perm) (solve : list clause -> N -> verdict * list clause * N) (clauses : list clause) : option outcome :=
  match rounds max_rounds num_vars gens solve (State clauses [] (map clause_key clauses)) 0 0 64 with
  | None => None
  | Some (inl model) => Some (OSat model)
  | Some (inr (s, conflicts, amplified)) =>
      match check_pr_refutation_fast num_vars clauses (steps s) with
      | None => None
      | Some true => Some (OUnsat (steps s) conflicts amplified)
      | Some false => Some (OUnknown conflicts)
      end
  end.
