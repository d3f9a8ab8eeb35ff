(** Model of [crates/logicaffeine_kernel/src/simp.rs], the simplifier behind the kernel's [try_simp]
    reduction and the re-check of [DSimpSolve] (reduction.rs:2496-2535, which hand the normalised
    goal to [simp::check_goal]). *)
From Coq Require Import ZArith String List.
From stdpp Require Import gmap strings list.
From Verif Require Import SynModel.
Local Open Scope string_scope.

(** simp.rs:50-59 [STerm]. Literals and variable indices are [i64] in the code. *)
Inductive sterm := SLitT (n : Z) | SVarT (i : Z) | SNameT (s : string) | SAppT (f a : sterm).
(** simp.rs:53 [derive(PartialEq)]. *)
Fixpoint sterm_eqb (x y : sterm) : bool :=
  match x, y with
  | SLitT n, SLitT m => Z.eqb n m
  | SVarT i, SVarT j => Z.eqb i j
  | SNameT s, SNameT t => String.eqb s t
  | SAppT f a, SAppT g b => sterm_eqb f g && sterm_eqb a b
  | _, _ => false
  end.
(** simp.rs:66 [Substitution]. *)
Notation ssubst := (gmap Z sterm).

(** simp.rs:73-97 [term_to_sterm], with the extractors of lines 269-322 (the same text as those of
    reify.rs, modelled in [SynModel]). *)
Fixpoint term_to_sterm (t : term) : option sterm :=
  match extract_slit t with
  | Some n => Some (SLitT n)
  | None =>
    match extract_svar t with
    | Some i => Some (SVarT i)
    | None =>
      match extract_sname t with
      | Some s => Some (SNameT s)
      | None =>
        match t with
        | TApp (TApp (TGlobal c) f) a =>
            if String.eqb c "SApp" then
              match term_to_sterm f with
              | Some sf => match term_to_sterm a with Some sa => Some (SAppT sf sa) | None => None end
              | None => None
              end
            else None
        | _ => None
        end
      end
    end
  end.

(** [i64::checked_add], [checked_sub], [checked_mul]; [checked_div], [checked_rem] round towards
    zero and refuse [i64::MIN / -1]. *)
Definition is_i64 (n : Z) : bool := Z.leb (- 2 ^ 63) n && Z.ltb n (2 ^ 63).
Definition checked (n : Z) : option Z := if is_i64 n then Some n else None.
(** [i64::checked_rem] is [None] for [i64::MIN % -1], where the quotient overflows. *)
Definition checked_rem (x y : Z) : option Z := if is_i64 (Z.quot x y) then Some (Z.rem x y) else None.

(** simp.rs:167-187 [try_arithmetic]. *)
Definition try_arithmetic (func arg : sterm) : option sterm :=
  match func, arg with
  | SAppT (SNameT op) (SLitT x), SLitT y =>
      option_map SLitT
        (if String.eqb op "add" then checked (x + y)
         else if String.eqb op "sub" then checked (x - y)
         else if String.eqb op "mul" then checked (x * y)
         else if String.eqb op "div" then (if Z.eqb y 0 then None else checked (Z.quot x y))
         else if String.eqb op "mod" then (if Z.eqb y 0 then None else checked_rem x y)
         else None)
  | _, _ => None
  end.

(** simp.rs:130-163 [simplify_sterm]. *)
Fixpoint simplify_sterm (t : sterm) (su : ssubst) (fuel : nat) {struct fuel} : sterm :=
  match fuel with
  | O => t
  | S fuel =>
      match t with
      | SVarT i => match su !! i with Some r => simplify_sterm r su fuel | None => t end
      | SLitT _ | SNameT _ => t
      | SAppT f a =>
          let sf := simplify_sterm f su fuel in
          let sa := simplify_sterm a su fuel in
          match try_arithmetic sf sa with
          | Some r => simplify_sterm r su fuel
          | None => SAppT sf sa
          end
      end
  end.

(** simp.rs:325-333 [extract_implication]. *)
Definition simp_implication (t : term) : option (term * term) :=
  match extract_binary_app t with
  | Some (op, h, c) => if String.eqb op "implies" then Some (h, c) else None
  | None => None
  end.
(** simp.rs:309-322 [extract_sapp]. *)
Definition extract_sapp (t : term) : option (term * term) :=
  match t with
  | TApp (TApp (TGlobal c) f) a => if String.eqb c "SApp" then Some (f, a) else None
  | _ => None
  end.
(** simp.rs:353-370 [extract_ternary_eq]. *)
Definition extract_ternary_eq (t : term) : option (term * term) :=
  match extract_sapp t with
  | Some (func, r) =>
    match extract_sapp func with
    | Some (func2, l) =>
      match extract_sapp func2 with
      | Some (eq_name, _) =>
        match extract_sname eq_name with
        | Some name => if String.eqb name "Eq" then Some (l, r) else None
        | None => None
        end
      | None => None
      end
    | None => None
    end
  | None => None
  end.
(** simp.rs:336-350 [extract_equality]. *)
Definition extract_equality (t : term) : option (term * term) :=
  match extract_binary_app t with
  | Some (op, l, r) => if String.eqb op "Eq" || String.eqb op "eq" then Some (l, r) else extract_ternary_eq t
  | None => extract_ternary_eq t
  end.

(** simp.rs:201-213: what the loop body does with one hypothesis. *)
Definition note_hyp (hyp : term) (su : ssubst) : ssubst :=
  match extract_equality hyp with
  | Some (l, r) =>
    match term_to_sterm l with
    | Some (SVarT i) => match term_to_sterm r with Some sr => <[i := sr]> su | None => su end
    | _ => su
    end
  | None => su
  end.
(** simp.rs:196-218 [decompose_goal]: the loop moves to a proper subterm. *)
Fixpoint decompose (t : term) (su : ssubst) : ssubst * term :=
  match t with
  | TApp (TApp (TGlobal c) (TApp (TApp (TGlobal c2) o) a)) b =>
      match simp_implication t with
      | Some (hyp, _) => decompose b (note_hyp hyp su)
      | None => (su, t)
      end
  | _ => (su, t)
  end.
Definition decompose_goal (goal : term) : ssubst * term := decompose goal ∅.

(** simp.rs:251. *)
Definition FUEL : nat := 1000.
(** simp.rs:235-262 [check_goal]. *)
Definition simp_check_goal (goal : term) : bool :=
  let '(su, concl) := decompose_goal goal in
  match extract_equality concl with
  | None => false
  | Some (l, r) =>
    match term_to_sterm l with
    | None => false
    | Some sl =>
      match term_to_sterm r with
      | None => false
      | Some sr => sterm_eqb (simplify_sterm sl su FUEL) (simplify_sterm sr su FUEL)
      end
    end
  end.

(** The number of calls of [simplify_sterm] made by one call, itself included: the same recursion
    with the results added up. *)
Fixpoint simplify_calls (t : sterm) (su : ssubst) (fuel : nat) {struct fuel} : N :=
  match fuel with
  | O => 1
  | S fuel =>
      match t with
      | SVarT i => match su !! i with Some r => 1 + simplify_calls r su fuel | None => 1 end
      | SLitT _ | SNameT _ => 1
      | SAppT f a =>
          1 + simplify_calls f su fuel + simplify_calls a su fuel +
          match try_arithmetic (simplify_sterm f su fuel) (simplify_sterm a su fuel) with
          | Some r => simplify_calls r su fuel
          | None => 0
          end
      end
  end%N.
