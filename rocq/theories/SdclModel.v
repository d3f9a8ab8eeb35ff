(** Satisfaction-driven clause learning: [/repo/crates/logicaffeine_proof/src/sdcl.rs] lines 24-193.

    The CDCL solver and [find_generators] are parameters: [solve db] is the model, if any, and the learned clauses of a
    fresh solver; [gens db] any permutations.  [None] results are index panics.  Simplified: the relevant variables (33) are
    listed in the order of their first occurrence from the end (the code iterates over a hash set). *)
From Coq Require Import List Arith Bool.
From stdpp Require Import list.
From Verif Require Import RupModel PrModel.

Definition solver : Type := list clause -> option (list bool) * list clause.
Definition lit_eqb (l k : lit) : bool := (lvar l =? lvar k)%nat && eqb (lpos l) (lpos k).
(** The test [d.iter().any(|l| alpha.contains(l))] (36). *)
Definition touched (alpha d : clause) : bool := existsb (fun l => existsb (lit_eqb l) alpha) d.
(** [omega] (48). *)
Definition read_model (model : list bool) (vs : list nat) : option (list lit) :=
  mapM (fun v => match model !! v with None => None | Some b => Some (Lit v b) end) vs.
(** [find_pr_clause] (24-56). *)
Definition find_pr_clause (num_vars : nat) (solve : solver) (clauses : list clause) (alpha : clause) : option (option (clause * witness)) :=
  let c := map negated alpha in
  match c with
  | [] => Some None
  | _ =>
      let satisfied := List.filter (touched alpha) clauses in
      let relevant := nodup Nat.eq_dec (map lvar (c ++ concat satisfied)) in
      match fst (solve (c :: satisfied)) with
      | None => Some None
      | Some model =>
          match read_model model relevant with
          | None => None
          | Some omega =>
              match is_pr num_vars clauses c (WAssignment omega) with
              | None => None
              | Some true => Some (Some (c, WAssignment omega))
              | Some false => Some None
              end
          end
      end
  end.
(** The generators of [find_pr_clause_unified] (186-191). *)
Fixpoint try_generators (num_vars : nat) (clauses : list clause) (c : clause) (gs : list perm) : option (option (clause * witness)) :=
  match gs with
  | [] => Some None
  | g :: gs =>
      let w := WSubstitution (perm_extended g num_vars) in
      match is_pr num_vars clauses c w with
      | None => None
      | Some true => Some (Some (c, w))
      | Some false => try_generators num_vars clauses c gs
      end
  end.
(** [find_pr_clause_unified] (176-193). *)
Definition find_unified (num_vars : nat) (solve : solver) (clauses : list clause) (alpha : clause) (gs : list perm) : option (option (clause * witness)) :=
  match find_pr_clause num_vars solve clauses alpha with
  | None => None
  | Some (Some r) => Some (Some r)
  | Some None => try_generators num_vars clauses (map negated alpha) gs
  end.
Definition clause_eqb (c d : clause) : bool := bool_decide (map code c = map code d).
(** The probes of one round (75-87): the first new clause. *)
Fixpoint probe (num_vars : nat) (solve : solver) (db : list clause) (gs : list perm) (ls : list lit) : option (option (clause * witness)) :=
  match ls with
  | [] => Some None
  | l :: ls =>
      match find_unified num_vars solve db [l] gs with
      | None => None
      | Some (Some (c, w)) => if existsb (clause_eqb c) db then probe num_vars solve db gs ls else Some (Some (c, w))
      | Some None => probe num_vars solve db gs ls
      end
  end.
Definition probes (num_vars : nat) : list lit := flat_map (fun v => [Lit v true; Lit v false]) (seq 0 num_vars).
(** The loop of [sdcl_discover] (72-91): every round but the last adds one step, so [fuel] is the cap minus the steps. *)
Fixpoint discover (fuel num_vars : nat) (solve : solver) (gens : list clause -> list perm) (db : list clause) (steps : list step) : option (list clause * list step) :=
  match fuel with
  | O => Some (db, steps)
  | S fuel =>
      match probe num_vars solve db (gens db) (probes num_vars) with
      | None => None
      | Some None => Some (db, steps)
      | Some (Some (c, w)) => discover fuel num_vars solve gens (db ++ [c]) (steps ++ [SPr c w])
      end
  end.
(** [sdcl_discover] (68-93). *)
Definition sdcl_discover (num_vars : nat) (solve : solver) (gens : list clause -> list perm) (clauses : list clause) : option (list clause * list step) :=
  discover (num_vars * num_vars + 8) num_vars solve gens clauses [].
(** [plain_cdcl_refutation] (162-169). *)
Definition plain (solve : solver) (clauses : list clause) : list step := map SRup (snd (solve clauses)).
(** [CertifiedOutcome] (119-125) and [solve_certified] (133-157). *)
Inductive outcome := Unsat (steps : list step) (discovered : nat) | Sat (model : list bool).
Definition solve_certified (num_vars : nat) (solve : solver) (gens : list clause -> list perm) (clauses : list clause) : option outcome :=
  match sdcl_discover num_vars solve gens clauses with
  | None => None
  | Some (db, steps) =>
      match solve db with
      | (Some model, _) => Some (Sat model)
      | (None, learned) =>
          let all := steps ++ map SRup learned in
          match check_pr_refutation num_vars clauses all with
          | None => None
          | Some true => Some (Unsat all (length steps))
          | Some false => Some (Unsat (plain solve clauses) 0)
          end
      end
  end.
(** [sdcl_refute] (95-116): [refuted], [sbp_clauses], [steps]. *)
Definition sdcl_refute (num_vars : nat) (solve : solver) (gens : list clause -> list perm) (clauses : list clause) : option (bool * nat * list step) :=
  match sdcl_discover num_vars solve gens clauses with
  | None => None
  | Some (db, steps) =>
      match solve db with
      | (Some _, _) => Some (false, length steps, steps)
      | (None, learned) =>
          let all := steps ++ map SRup learned in
          match check_pr_refutation num_vars clauses all with
          | None => None
          | Some true => Some (true, length steps, all)
          | Some false => Some (true, 0, plain solve clauses)
          end
      end
  end.
