(** Model of the RUP checker, [crates/logicaffeine_proof/src/rup.rs].
    A literal ([Lit(u32)] = [2*var + sign], cdcl.rs:27-68) is a variable and a polarity.
    [None] results are index panics (a literal whose variable is not below [num_vars]). *)
From Coq Require Import List Arith Bool.
From stdpp Require Import list.

(** cdcl.rs:27-62 [Lit], [var], [is_positive], [negated]. *)
Record lit := Lit { lvar : nat; lpos : bool }.
Global Instance lit_eq_dec : EqDecision lit.
Proof. solve_decision. Defined.
Definition negated (l : lit) : lit := Lit (lvar l) (negb (lpos l)).
Notation clause := (list lit).
Notation assign := (list (option bool)).

(** rup.rs:101-103 [lit_val]. *)
Definition lit_val (a : assign) (l : lit) : option (option bool) :=
  match a !! lvar l with
  | None => None
  | Some None => Some None
  | Some (Some b) => Some (Some (if lpos l then b else negb b))
  end.

(** rup.rs:107-116 [set_true]. *)
Definition set_true (a : assign) (l : lit) : option (assign * bool) :=
  match lit_val a l with
  | None => None
  | Some (Some true) => Some (a, true)
  | Some (Some false) => Some (a, false)
  | Some None => Some (<[lvar l := Some (lpos l)]> a, true)
  end.

(** rup.rs:127-146, the scan of one clause: [satisfied], or the distinct unset literals. *)
Inductive scanned := Satisfied | Unset (ls : list lit).
Fixpoint scan (a : assign) (unset : list lit) (c : clause) : option scanned :=
  match c with
  | [] => Some (Unset unset)
  | l :: c =>
      match lit_val a l with
      | None => None
      | Some (Some true) => Some Satisfied
      | Some (Some false) => scan a unset c
      | Some None =>
          if bool_decide (negated l ∈ unset) then Some Satisfied
          else scan a (if bool_decide (l ∈ unset) then unset else unset ++ [l]) c
      end
  end.

(** rup.rs:122-157, one pass over the database. *)
Inductive passed := Conflict | Next (a : assign) (changed : bool).
Fixpoint pass (a : assign) (changed : bool) (db : list clause) : option passed :=
  match db with
  | [] => Some (Next a changed)
  | c :: db =>
      match scan a [] c with
      | None => None
      | Some Satisfied => pass a changed db
      | Some (Unset []) => Some Conflict
      | Some (Unset [l]) =>
          match set_true a l with
          | None => None
          | Some (a', _) => pass a' true db
          end
      | Some (Unset _) => pass a changed db
      end
  end.

(** rup.rs:120-162 [propagate]: passes until a conflict or no change. The loop is bounded by a
    step count (shown sufficient); [None] is a panic or running out of steps. *)
Fixpoint propagate_steps (n : nat) (db : list clause) (a : assign) : option bool :=
  match n with
  | O => None
  | S n =>
      match pass a false db with
      | None => None
      | Some Conflict => Some true
      | Some (Next a' changed) => if changed then propagate_steps n db a' else Some false
      end
  end.
Definition propagate (db : list clause) (a : assign) : option bool := propagate_steps (S (length a)) db a.

(** rup.rs:88-97 [is_rup]. *)
Fixpoint assume_neg (a : assign) (c : clause) : option (option assign) :=
  match c with
  | [] => Some (Some a)
  | l :: c =>
      match set_true a (negated l) with
      | None => None
      | Some (_, false) => Some None
      | Some (a', true) => assume_neg a' c
      end
  end.
Definition is_rup (num_vars : nat) (db : list clause) (c : clause) : option bool :=
  match assume_neg (replicate num_vars None) c with
  | None => None
  | Some None => Some true
  | Some (Some a) => propagate db a
  end.

(** rup.rs:74-84 [check_refutation]. *)
Fixpoint check_learned (num_vars : nat) (db : list clause) (learned : list clause) : option bool :=
  match learned with
  | [] => is_rup num_vars db []
  | c :: learned =>
      match is_rup num_vars db c with
      | None => None
      | Some false => Some false
      | Some true => check_learned num_vars (db ++ [c]) learned
      end
  end.
Definition check_refutation (num_vars : nat) (original learned : list clause) : option bool :=
  check_learned num_vars original learned.
