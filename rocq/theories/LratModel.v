(** Model of proof emission and the LRAT checker (crates/logicaffeine_proof/src/proof_emit.rs).
    The results of functions that index by variable are options; [None] is an index panic. *)
From Coq Require Import List Bool ZArith NArith.
From stdpp Require Import list gmap.
From Verif Require Import IvModel DimacsModel RupModel PrModel.

(** 38-56; SizeCapExceeded is only returned by the streaming writers. *)
Inductive emit_error := StepNotRup (index : nat) | EmptyClauseNotRup | RequiresSubstitutionRedundancy (index : nat) | PrInRupOnlyFormat (index : nat).

(** ** Text *)
(** Display of an i64. *)
Definition show (z : Z) : text := if (z <? 0)%Z then 45%N :: dec (Z.abs_N z) else dec (Z.abs_N z).
(** 101-109 dimacs. *)
Definition dimacs (l : RupModel.lit) : Z := let v := Z.of_nat (lvar l + 1) in if lpos l then v else (- v)%Z.
(** Integers, each followed by a space. *)
Definition spaced (zs : list Z) : text := concat (map (fun z => show z ++ [32%N]) zs).
(** 112-118 push_clause. *)
Definition push_clause (c : clause) : text := spaced (map dimacs c) ++ [48%N].
(** Lit::new ((n.unsigned_abs() - 1) as u32, n > 0); the u32 keeps 31 bits of the variable (cdcl.rs 32). *)
Definition lit_of_int (n : Z) : RupModel.lit := Lit (N.to_nat ((Z.abs_N n - 1) mod 2 ^ 31)%N) (0 <? n)%Z.
(** 454-462, 472-479, 677-694: integers up to the first 0 or the end; whether there was a 0, and what follows. [None]: a token that is not an integer. *)
Fixpoint until_zero (toks : list text) : option (list Z * bool * list text) :=
  match toks with
  | [] => Some ([], false, [])
  | t :: toks =>
      match parse_i64 t with
      | None => None
      | Some n => if (n =? 0)%Z then Some ([], true, toks) else match until_zero toks with Some (ns, z, rest) => Some (n :: ns, z, rest) | None => None end
      end
  end.

(** ** DRAT and DPR *)
(** 205-236 emit_drat; [i] is the index of the next step. The removal is that of pr.rs. *)
Fixpoint drat_from (n i : nat) (db : list clause) (out : text) (steps : list step) : option (emit_error + text) :=
  match steps with
  | [] => match is_rup n db [] with None => None | Some false => Some (inl EmptyClauseNotRup) | Some true => Some (inr (out ++ [48; 10]%N)) end
  | SRup c :: steps =>
      match is_rup n db c with
      | None => None
      | Some false => Some (inl (StepNotRup i))
      | Some true => drat_from n (S i) (db ++ [c]) (out ++ push_clause c ++ [10%N]) steps
      end
  | SDelete c :: steps => drat_from n (S i) (delete_clause c db) (out ++ [100; 32]%N ++ push_clause c ++ [10%N]) steps
  | SPr _ _ :: _ => Some (inl (PrInRupOnlyFormat i))
  end.
Definition emit_drat (n : nat) (original : list clause) (steps : list step) : option (emit_error + text) := drat_from n 0 original [] steps.

(** 188-199, the candidates with a pivot. *)
Fixpoint layer (w : list RupModel.lit) (ls : list RupModel.lit) : list RupModel.lit :=
  match ls with
  | [] => w
  | l :: ls => layer (if bool_decide (l ∈ w) || bool_decide (negated l ∈ w) then w else w ++ [l]) ls
  end.
Fixpoint try_pivots (n : nat) (db : list clause) (c canon : clause) (pivots : list RupModel.lit) : option (option (list RupModel.lit)) :=
  match pivots with
  | [] => Some None
  | p :: pivots =>
      let w := layer [p] canon in
      match is_pr n db c (WAssignment w) with None => None | Some true => Some (Some w) | Some false => try_pivots n db c canon pivots end
  end.
(** 159-203 try_assignment_witness. *)
Definition try_assignment_witness (n : nat) (db : list clause) (c : clause) (w : witness) : option (option (list RupModel.lit)) :=
  match w with
  | WAssignment ls => match is_pr n db c (WAssignment ls) with None => None | Some b => Some (if b then Some ls else None) end
  | WSubstitution s =>
      match apply_clause s c with
      | None => None
      | Some d =>
          let canon := map negated d in
          match is_pr n db c (WAssignment canon) with
          | None => None
          | Some true => Some (Some canon)
          | Some false => try_pivots n db c canon c
          end
      end
  end.
(** 264-270: the pivot is put first. *)
Definition front (p : RupModel.lit) (c : clause) : clause := p :: List.filter (fun l => negb (bool_decide (l = p))) c.
(** 244-292 emit_dpr. *)
Fixpoint dpr_from (n i : nat) (db : list clause) (out : text) (steps : list step) : option (emit_error + text) :=
  match steps with
  | [] => match is_rup n db [] with None => None | Some false => Some (inl EmptyClauseNotRup) | Some true => Some (inr (out ++ [48; 10]%N)) end
  | SRup c :: steps =>
      match is_rup n db c with
      | None => None
      | Some false => Some (inl (StepNotRup i))
      | Some true => dpr_from n (S i) (db ++ [c]) (out ++ push_clause c ++ [10%N]) steps
      end
  | SPr c w :: steps =>
      match try_assignment_witness n db c w with
      | None => None
      | Some None => Some (inl (RequiresSubstitutionRedundancy i))
      | Some (Some omega) =>
          match List.find (fun l => bool_decide (l ∈ omega)) c with
          | None => None
          | Some p => dpr_from n (S i) (db ++ [c]) (out ++ push_clause (front p c) ++ [32%N] ++ push_clause (front p omega) ++ [10%N]) steps
          end
      end
  | SDelete c :: steps => dpr_from n (S i) (delete_clause c db) (out ++ [100; 32]%N ++ push_clause c ++ [10%N]) steps
  end.
Definition emit_dpr (n : nat) (original : list clause) (steps : list step) : option (emit_error + text) := dpr_from n 0 original [] steps.

(** 439-486 parse_dpr; the error messages are left out. *)
Definition parse_line (line : text) : option step :=
  match split_whitespace line with
  | [100%N] :: toks => match until_zero toks with Some (ns, true, _) => Some (SDelete (map lit_of_int ns)) | _ => None end
  | toks =>
      match until_zero toks with
      | Some (ns, true, []) => Some (SRup (map lit_of_int ns))
      | Some (ns, true, rest) => match until_zero rest with Some (ws, _, _) => Some (SPr (map lit_of_int ns) (WAssignment (map lit_of_int ws))) | None => None end
      | _ => None
      end
  end.
Fixpoint parse_lines (ls : list text) : option (list step) :=
  match ls with
  | [] => Some []
  | l :: ls =>
      let line := trim l in
      if skipped line then parse_lines ls
      else match parse_line line with None => None | Some s => match parse_lines ls with None => None | Some ss => Some (s :: ss) end end
  end.
Definition parse_dpr (t : text) : option (list step) := parse_lines (lines t).

(** ** LRAT *)
(** 498-501: the assignment, the reasons, the trail positions and the next position. *)
Record trail := Trail { t_assign : assign; t_reason : list (option N); t_pos : list (option nat); t_next : nat }.
Definition push (t : trail) (l : RupModel.lit) (reason : option N) : trail :=
  Trail (<[lvar l := Some (lpos l)]> (t_assign t)) (<[lvar l := reason]> (t_reason t)) (<[lvar l := Some (t_next t)]> (t_pos t)) (S (t_next t)).
(** 503-514; the reason stays None. [Some None]: an immediate clash. *)
Fixpoint assume_trail (t : trail) (c : clause) : option (option trail) :=
  match c with
  | [] => Some (Some t)
  | l :: c =>
      match lit_val (t_assign t) (negated l) with
      | None => None
      | Some (Some true) => assume_trail t c
      | Some (Some false) => Some None
      | Some None => assume_trail (push t (negated l) None) c
      end
  end.
(** 517-553, one pass: a conflict with a clause, or the state after it. *)
Inductive passed_ids := ConflictAt (id : N) (c : clause) (t : trail) | NextTrail (t : trail) (changed : bool).
Fixpoint pass_ids (t : trail) (changed : bool) (db : list (N * clause)) : option passed_ids :=
  match db with
  | [] => Some (NextTrail t changed)
  | (id, c) :: db =>
      match scan (t_assign t) [] c with
      | None => None
      | Some Satisfied => pass_ids t changed db
      | Some (Unset []) => Some (ConflictAt id c t)
      | Some (Unset [u]) => pass_ids (push t u (Some id)) true db
      | Some (Unset _) => pass_ids t changed db
      end
  end.
(** 566-567 by_id. *)
Fixpoint by_id (db : list (N * clause)) (id : N) : option clause :=
  match db with [] => None | (i, c) :: db => match by_id db id with Some d => Some d | None => if N.eqb i id then Some c else None end end.
(** 571-585. The loop is bounded by a step count (shown sufficient); the stack has its top first. *)
Fixpoint collect_steps (fuel : nat) (db : list (N * clause)) (t : trail) (visited : list bool) (needed : list (nat * N)) (stack : list nat) : option (list (nat * N)) :=
  match fuel with
  | O => None
  | S fuel =>
      match stack with
      | [] => Some needed
      | v :: stack =>
          match visited !! v with
          | None => None
          | Some true => collect_steps fuel db t visited needed stack
          | Some false =>
              let visited := <[v := true]> visited in
              match t_reason t !! v with
              | None => None
              | Some None => collect_steps fuel db t visited needed stack
              | Some (Some rid) =>
                  match t_pos t !! v with
                  | Some (Some pos) => collect_steps fuel db t visited (needed ++ [(pos, rid)])
                      (match by_id db rid with Some rc => rev (map lvar rc) ++ stack | None => stack end)
                  | _ => None
                  end
              end
          end
      end
  end.
Definition size (db : list (N * clause)) : nat := length (concat (map snd db)).
(** 562-590 build_chain. *)
Definition build_chain (db : list (N * clause)) (t : trail) (c : clause) (id : N) : option (list N) :=
  let nv := length (t_reason t) in
  match collect_steps (S (length c + nv * S (size db))) db t (replicate nv false) [] (rev (map lvar c)) with
  | None => None
  | Some needed => Some (map snd (sort_by (fun a b => (fst a <=? fst b)%nat) needed) ++ [id])
  end.
(** 516-560, the loop: [Some None] is not RUP. *)
Fixpoint hints_steps (m : nat) (db : list (N * clause)) (t : trail) : option (option (list N)) :=
  match m with
  | O => None
  | S m =>
      match pass_ids t false db with
      | None => None
      | Some (ConflictAt id c t') => match build_chain db t' c id with None => None | Some ch => Some (Some ch) end
      | Some (NextTrail t' changed) => if changed then hints_steps m db t' else Some None
      end
  end.
(** 497-560 rup_hints. *)
Definition rup_hints (n : nat) (db : list (N * clause)) (c : clause) : option (option (list N)) :=
  match assume_trail (Trail (replicate n None) (replicate n None) (replicate n None) 0) c with
  | None => None
  | Some None => Some (Some [])
  | Some (Some t) => hints_steps (S n) db t
  end.
(** 627-634: the last clause with the key is removed. *)
Fixpoint remove_last (k : list nat) (db : list (N * clause)) : option (N * list (N * clause)) :=
  match db with
  | [] => None
  | (id, d) :: db =>
      match remove_last k db with
      | Some (did, db') => Some (did, (id, d) :: db')
      | None => if bool_decide (clause_key d = k) then Some (id, db) else None
      end
  end.
Definition add_line (id : N) (c : clause) (hints : list N) : text := dec id ++ [32%N] ++ push_clause c ++ [32%N] ++ spaced (map Z.of_N hints) ++ [48; 10]%N.
Definition delete_line (id did : N) : text := dec id ++ [32; 100; 32]%N ++ dec did ++ [32; 48; 10]%N.
(** 599-645 emit_lrat. *)
Fixpoint lrat_from (n i : nat) (next_id : N) (db : list (N * clause)) (out : text) (steps : list step) : option (emit_error + text) :=
  match steps with
  | [] =>
      match rup_hints n db [] with
      | None => None
      | Some None => Some (inl EmptyClauseNotRup)
      | Some (Some hints) => Some (inr (out ++ dec next_id ++ [32; 48; 32]%N ++ spaced (map Z.of_N hints) ++ [48; 10]%N))
      end
  | SRup c :: steps =>
      match rup_hints n db c with
      | None => None
      | Some None => Some (inl (StepNotRup i))
      | Some (Some hints) => lrat_from n (S i) (next_id + 1)%N (db ++ [(next_id, c)]) (out ++ add_line next_id c hints) steps
      end
  | SDelete c :: steps =>
      match remove_last (clause_key c) db with
      | None => lrat_from n (S i) next_id db out steps
      | Some (did, db') => lrat_from n (S i) next_id db' (out ++ delete_line (next_id - 1)%N did) steps
      end
  | SPr _ _ :: _ => Some (inl (PrInRupOnlyFormat i))
  end.
Fixpoint numbered (i : N) (cs : list clause) : list (N * clause) := match cs with [] => [] | c :: cs => (i, c) :: numbered (i + 1)%N cs end.
Definition emit_lrat (n : nat) (original : list clause) (steps : list step) : option (emit_error + text) :=
  lrat_from n 0 (N.of_nat (length original) + 1)%N (numbered 1%N original) [] steps.

(** 716-754, the loop of verify_rup_step. *)
Fixpoint replay (db : gmap N clause) (a : assign) (hints : list N) : option bool :=
  match hints with
  | [] => Some false
  | h :: hints =>
      match db !! h with
      | None => Some false
      | Some c =>
          match scan a [] c with
          | None => None
          | Some Satisfied => Some false
          | Some (Unset []) => Some (match hints with [] => true | _ => false end)
          | Some (Unset [u]) => match set_true a u with None => None | Some (a', _) => replay db a' hints end
          | Some (Unset _) => Some false
          end
      end
  end.
(** 706-755 verify_rup_step. *)
Definition verify_rup_step (n : nat) (db : gmap N clause) (c : clause) (hints : list N) : option bool :=
  match assume_neg (replicate n None) c with
  | None => None
  | Some None => Some true
  | Some (Some a) => replay db a hints
  end.
(** 662-668: tokens that are not numbers are skipped. *)
Definition delete_ids (db : gmap N clause) (toks : list text) : gmap N clause :=
  fold_left (fun db t => match parse_usize t with Some d => if (d =? 0)%N then db else base.delete d db | None => db end) toks db.
(** 651-701 check_lrat; u64 is parsed like a usize of 64 bits. *)
Fixpoint check_lines (n : nat) (db : gmap N clause) (ls : list text) : option bool :=
  match ls with
  | [] => Some false
  | l :: ls =>
      let line := trim l in
      if skipped line then check_lines n db ls
      else match split_whitespace line with
           | [] => check_lines n db ls
           | id_tok :: rest =>
               match parse_usize id_tok with
               | None => Some false
               | Some id =>
                   match rest with
                   | [100%N] :: toks => check_lines n (delete_ids db toks) ls
                   | _ =>
                       match until_zero rest with
                       | None => Some false
                       | Some (ns, _, rest) =>
                           match until_zero rest with
                           | None => Some false
                           | Some (hs, _, _) =>
                               let c := map lit_of_int ns in
                               match verify_rup_step n db c (map (fun h => Z.to_N (h mod 2 ^ 64)%Z) hs) with
                               | None => None
                               | Some false => Some false
                               | Some true => match c with [] => Some true | _ => check_lines n (<[id := c]> db) ls end
                               end
                           end
                       end
                   end
               end
           end
  end.
Definition check_lrat (n : nat) (original : list clause) (t : text) : option bool :=
  check_lines n (list_to_map (numbered 1%N original)) (lines t).
