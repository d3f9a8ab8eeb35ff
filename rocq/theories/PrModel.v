(** Model of the propagation-redundancy checker: [crates/logicaffeine_proof/src/pr.rs],
    [proof.rs] and the automorphism checks of [symmetry_detect.rs:1-348].
    [None] results are index panics (a variable outside an assignment or a permutation). *)
From Coq Require Import List Arith Bool.
From stdpp Require Import list sorting.
From Verif Require Import RupModel.

(** proof.rs:24-28 [Perm]: the image of every positive literal. *)
Notation perm := (list lit).
(** proof.rs:31-33 [identity]. *)
Definition perm_identity (n : nat) : perm := map (fun v => Lit v true) (seq 0 n).
(** proof.rs:41-48 [apply]. *)
Definition apply_lit (s : perm) (l : lit) : option lit :=
  match s !! lvar l with
  | None => None
  | Some img => Some (if lpos l then img else negated img)
  end.
(** proof.rs:51-53 [apply_clause]. *)
Definition apply_clause (s : perm) (c : clause) : option clause := mapM (apply_lit s) c.
(** proof.rs:67-73 [extended]. *)
Definition perm_extended (s : perm) (n : nat) : perm := s ++ map (fun v => Lit v true) (seq (length s) (n - length s)).
(** proof.rs:76-82 [compose]: [other] first. *)
Definition perm_compose (s other : perm) : option perm :=
  mapM (fun v => match apply_lit other (Lit v true) with None => None | Some l => apply_lit s l end) (seq 0 (length s)).

(** proof.rs:86-93 [Witness] and 98-107 [ProofStep]. *)
Inductive witness := WAssignment (ls : list lit) | WSubstitution (s : perm).
Inductive step := SRup (c : clause) | SPr (c : clause) (w : witness) | SDelete (c : clause).

(** symmetry_detect.rs:19-24 [clause_key], pr.rs:66-71 [canon_clause]: the sorted codes without repetitions. *)
Definition code (l : lit) : nat := 2 * lvar l + (if lpos l then 0 else 1).
Fixpoint dedup (l : list nat) : list nat :=
  match l with
  | [] => []
  | x :: l' =>
      match l' with
      | [] => [x]
      | y :: _ => if Nat.eqb x y then dedup l' else x :: dedup l'
      end
  end.
Definition clause_key (c : clause) : list nat := dedup (merge_sort le (map code c)).
(** The hash set of the keys of a database. *)
Definition has_key (cs : list clause) (k : list nat) : bool := existsb (fun c => bool_decide (clause_key c = k)) cs.

(** symmetry_detect.rs:36-54 [perm_is_automorphism]. *)
Definition moved (s : perm) (v : nat) : bool :=
  match s !! v with Some img => negb (bool_decide (img = Lit v true)) | None => false end.
Fixpoint images_present (s : perm) (cs todo : list clause) : option bool :=
  match todo with
  | [] => Some true
  | c :: todo =>
      if existsb (fun l => moved s (lvar l)) c then
        match apply_clause s c with
        | None => None
        | Some d => if has_key cs (clause_key d) then images_present s cs todo else Some false
        end
      else images_present s cs todo
  end.
Definition perm_is_automorphism (cs : list clause) (s : perm) : option bool :=
  if forallb (fun v => negb (moved s v)) (seq 0 (length s)) then Some true else images_present s cs cs.

(** pr.rs:203-211 [up_conflict]. *)
Fixpoint assume (a : assign) (ls : list lit) : option (option assign) :=
  match ls with
  | [] => Some (Some a)
  | l :: ls =>
      match set_true a l with
      | None => None
      | Some (_, false) => Some None
      | Some (a', true) => assume a' ls
      end
  end.
Definition up_conflict (num_vars : nat) (db : list clause) (ls : list lit) : option bool :=
  match assume (replicate num_vars None) ls with
  | None => None
  | Some None => Some true
  | Some (Some a) => propagate db a
  end.

(** pr.rs:148-158 [substitution_sr]. *)
Definition substitution_sr (num_vars : nat) (db : list clause) (c : clause) (s : perm) : option bool :=
  match perm_is_automorphism db s with
  | None => None
  | Some false => Some false
  | Some true =>
      match apply_clause s c with
      | None => None
      | Some d => up_conflict num_vars db (map negated c ++ map negated d)
      end
  end.

(** pr.rs:163-198 [assignment_pr]. *)
Fixpoint any_true (a : assign) (c : clause) : option bool :=
  match c with
  | [] => Some false
  | l :: c =>
      match lit_val a l with
      | None => None
      | Some (Some true) => Some true
      | _ => any_true a c
      end
  end.
Definition unassigned (a : assign) (c : clause) : list lit :=
  List.filter (fun l => match lit_val a l with Some None => true | _ => false end) c.
Fixpoint obligations (num_vars : nat) (db : list clause) (c : clause) (omega : assign) (todo : list clause) : option bool :=
  match todo with
  | [] => Some true
  | d :: todo =>
      match any_true omega d with
      | None => None
      | Some true => obligations num_vars db c omega todo
      | Some false =>
          match up_conflict num_vars db (map negated c ++ map negated (unassigned omega d)) with
          | None => None
          | Some false => Some false
          | Some true => obligations num_vars db c omega todo
          end
      end
  end.
Definition assignment_pr (num_vars : nat) (db : list clause) (c : clause) (omega_true : list lit) : option bool :=
  match assume (replicate num_vars None) omega_true with
  | None => None
  | Some None => Some false
  | Some (Some omega) =>
      match any_true omega c with
      | None => None
      | Some false => Some false
      | Some true => obligations num_vars db c omega db
      end
  end.

(** pr.rs:74-79 [is_pr]. *)
Definition is_pr (num_vars : nat) (db : list clause) (c : clause) (w : witness) : option bool :=
  match w with
  | WAssignment ls => assignment_pr num_vars db c ls
  | WSubstitution s => substitution_sr num_vars db c s
  end.

(** pr.rs:54-59, deleting the first clause with the same key by [Vec::swap_remove]. *)
Fixpoint position (k : list nat) (db : list clause) : option nat :=
  match db with
  | [] => None
  | d :: db => if bool_decide (clause_key d = k) then Some 0 else option_map S (position k db)
  end.
Definition swap_remove (i : nat) (db : list clause) : list clause :=
  match last db with
  | None => db
  | Some d => take (length db - 1) (<[i := d]> db)
  end.
Definition delete_clause (c : clause) (db : list clause) : list clause :=
  match position (clause_key c) db with
  | None => db
  | Some i => swap_remove i db
  end.
(** pr.rs:38-63 [check_pr_refutation]. *)
Fixpoint check_pr_refutation (num_vars : nat) (db : list clause) (steps : list step) : option bool :=
  match steps with
  | [] => is_rup num_vars db []
  | SRup c :: steps =>
      match is_rup num_vars db c with
      | Some true => check_pr_refutation num_vars (db ++ [c]) steps
      | r => r
      end
  | SPr c w :: steps =>
      match is_pr num_vars db c w with
      | Some true => check_pr_refutation num_vars (db ++ [c]) steps
      | r => r
      end
  | SDelete c :: steps => check_pr_refutation num_vars (delete_clause c db) steps
  end.

(** ** The incremental index *)
(** symmetry_detect.rs:66-92 [AutomorphismIndex]. The key set, the key map and the occurrence
    lists are functions of the clauses and are computed from them; the stamped scratch layers
    are per-call values. *)
Record index := Index { ix_nv : nat; ix_clauses : list clause; ix_base : assign; ix_conflict : bool }.
(** [by_var[v]]: the clauses mentioning [v], in order of insertion. *)
Definition mentions (v : nat) (c : clause) : bool := existsb (fun l => Nat.eqb (lvar l) v) c.
Definition by_var (cs : list clause) (v : nat) : list nat :=
  List.filter (fun i => match cs !! i with Some c => mentions v c | None => false end) (seq 0 (length cs)).

(** symmetry_detect.rs:152-187 and 290-335, the scan of one clause. *)
Inductive verdict := VSatisfied | VConflict | VUnit (u : lit) | VMany.
Fixpoint scan_unit (a : assign) (unit : option lit) (more : bool) (c : clause) : option verdict :=
  match c with
  | [] => Some match unit with None => VConflict | Some u => if more then VMany else VUnit u end
  | l :: c =>
      match lit_val a l with
      | None => None
      | Some (Some true) => Some VSatisfied
      | Some (Some false) => scan_unit a unit more c
      | Some None =>
          match unit with
          | None => scan_unit a (Some l) more c
          | Some u =>
              if bool_decide (u = l) then scan_unit a unit more c
              else if bool_decide (u = negated l) then Some VSatisfied
              else scan_unit a unit true c
          end
      end
  end.
(** symmetry_detect.rs:148-190 and 287-339, the worklist loops. The queue of variables of
    [propagate_to_conflict] is kept as the list of clauses it is going to visit, in the same
    order. The loop is bounded by a step count (shown sufficient). [Some None] is a conflict. *)
Fixpoint work (fuel : nat) (cs : list clause) (a : assign) (wl : list nat) : option (option assign) :=
  match fuel with
  | O => None
  | S fuel =>
      match wl with
      | [] => Some (Some a)
      | ci :: wl =>
          match cs !! ci with
          | None => None
          | Some c =>
              match scan_unit a None false c with
              | None => None
              | Some VConflict => Some None
              | Some (VUnit u) => work fuel cs (<[lvar u := Some (lpos u)]> a) (wl ++ by_var cs (lvar u))
              | Some _ => work fuel cs a wl
              end
          end
      end
  end.
Definition enough (cs : list clause) (a : assign) (wl : list nat) : nat := S (length wl + length a * length cs).

(** symmetry_detect.rs:96-112 [new]. *)
Definition index_new (nv : nat) : index := Index nv [] (replicate nv None) false.
(** symmetry_detect.rs:124-146 [insert] and [base_propagate]. After a conflict the base is not
    looked at again, so it is not updated here. *)
Definition index_insert (ix : index) (c : clause) : option index :=
  let cs := ix_clauses ix ++ [c] in
  if ix_conflict ix then Some (Index (ix_nv ix) cs (ix_base ix) true)
  else
    let wl := [length (ix_clauses ix)] in
    match work (enough cs (ix_base ix) wl) cs (ix_base ix) wl with
    | None => None
    | Some None => Some (Index (ix_nv ix) cs (ix_base ix) true)
    | Some (Some b) => Some (Index (ix_nv ix) cs b false)
    end.
(** symmetry_detect.rs:114-120 [with_clauses]. *)
Fixpoint index_inserts (ix : index) (cs : list clause) : option index :=
  match cs with
  | [] => Some ix
  | c :: cs => match index_insert ix c with None => None | Some ix => index_inserts ix cs end
  end.

(** symmetry_detect.rs:208-211, is the permutation an involution. *)
Fixpoint involution (s : perm) (vs : list nat) : option bool :=
  match vs with
  | [] => Some true
  | v :: vs =>
      match apply_lit s (Lit v true) with
      | None => None
      | Some l =>
          match apply_lit s l with
          | None => None
          | Some k => if bool_decide (k = Lit v true) then involution s vs else Some false
          end
      end
  end.
(** [index_by_key]: the last clause inserted with the key. *)
Fixpoint last_with_key (k : list nat) (i : nat) (cs : list clause) : option nat :=
  match cs with
  | [] => None
  | c :: cs =>
      match last_with_key k (S i) cs with
      | Some j => Some j
      | None => if bool_decide (clause_key c = k) then Some i else None
      end
  end.
(** symmetry_detect.rs:220-244, the clauses of one variable; [Some None] is the answer [false]. *)
Fixpoint visit (cs : list clause) (s : perm) (inv : bool) (visited : list nat) (cis : list nat) : option (option (list nat)) :=
  match cis with
  | [] => Some (Some visited)
  | ci :: cis =>
      if bool_decide (ci ∈ visited) then visit cs s inv visited cis
      else
        match cs !! ci with
        | None => None
        | Some c =>
            match apply_clause s c with
            | None => None
            | Some d =>
                let k := clause_key d in
                if has_key cs k then
                  let visited := ci :: visited in
                  visit cs s inv (if inv then match last_with_key k 0 cs with Some p => p :: visited | None => visited end else visited) cis
                else Some None
            end
        end
  end.
Fixpoint visit_vars (cs : list clause) (s : perm) (inv : bool) (visited : list nat) (vs : list nat) : option bool :=
  match vs with
  | [] => Some true
  | v :: vs =>
      match apply_lit s (Lit v true) with
      | None => None
      | Some l =>
          if bool_decide (l = Lit v true) then visit_vars cs s inv visited vs
          else
            match visit cs s inv visited (by_var cs v) with
            | None => None
            | Some None => Some false
            | Some (Some visited) => visit_vars cs s inv visited vs
            end
      end
  end.
(** symmetry_detect.rs:197-247 [is_automorphism]. *)
Definition index_is_automorphism (ix : index) (s : perm) : option bool :=
  match involution s (seq 0 (ix_nv ix)) with
  | None => None
  | Some inv => visit_vars (ix_clauses ix) s inv [] (seq 0 (ix_nv ix))
  end.

(** symmetry_detect.rs:255-340 [propagate_to_conflict]; the temporary layer over the base is a
    copy of the base. *)
Fixpoint seed (cs : list clause) (a : assign) (wl : list nat) (ls : list lit) : option (option (assign * list nat)) :=
  match ls with
  | [] => Some (Some (a, wl))
  | l :: ls =>
      match lit_val a l with
      | None => None
      | Some (Some true) => seed cs a wl ls
      | Some (Some false) => Some None
      | Some None => seed cs (<[lvar l := Some (lpos l)]> a) (wl ++ by_var cs (lvar l)) ls
      end
  end.
Definition propagate_to_conflict (ix : index) (ls : list lit) : option bool :=
  if ix_conflict ix then Some true
  else
    match seed (ix_clauses ix) (ix_base ix) [] ls with
    | None => None
    | Some None => Some true
    | Some (Some (a, wl)) =>
        match work (enough (ix_clauses ix) a wl) (ix_clauses ix) a wl with
        | None => None
        | Some None => Some true
        | Some (Some _) => Some false
        end
    end.

(** pr.rs:86-108 [is_pr_indexed]. *)
Definition is_pr_indexed (num_vars : nat) (db : list clause) (ix : index) (c : clause) (w : witness) : option bool :=
  match w with
  | WAssignment ls => assignment_pr num_vars db c ls
  | WSubstitution s =>
      match index_is_automorphism ix s with
      | None => None
      | Some false => Some false
      | Some true =>
          match apply_clause s c with
          | None => None
          | Some d => propagate_to_conflict ix (map negated c ++ map negated d)
          end
      end
  end.
(** pr.rs:114-142 [check_pr_refutation_fast]. *)
Definition is_delete (s : step) : bool := match s with SDelete _ => true | _ => false end.
Fixpoint check_fast (num_vars : nat) (db : list clause) (ix : index) (steps : list step) : option bool :=
  match steps with
  | [] => is_rup num_vars db []
  | SRup c :: steps =>
      match is_rup num_vars db c with
      | Some true => match index_insert ix c with None => None | Some ix => check_fast num_vars (db ++ [c]) ix steps end
      | r => r
      end
  | SPr c w :: steps =>
      match is_pr_indexed num_vars db ix c w with
      | Some true => match index_insert ix c with None => None | Some ix => check_fast num_vars (db ++ [c]) ix steps end
      | r => r
      end
  | SDelete _ :: _ => None
  end.
Definition check_pr_refutation_fast (num_vars : nat) (original : list clause) (steps : list step) : option bool :=
  if existsb is_delete steps then check_pr_refutation num_vars original steps
  else
    match index_inserts (index_new num_vars) original with
    | None => None
    | Some ix => check_fast num_vars original ix steps
    end.
