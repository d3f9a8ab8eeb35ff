(** Constant propagation (crates/logicaffeine_compile/src/optimize/propagate.rs) over the statements of FoldStmtModel. *)
From Coq Require Import ZArith List Bool Lia.
From Verif Require Import FoldModel FoldStmtModel.
Import ListNotations.

Definition no_bools (x : nat) : bool := false.
(** HashMap<Symbol, &Expr>, of literals only. *)
Definition env : Type := nat -> option lit.
Definition no_env : env := fun _ => None.
Definition set_env (m : env) (x : nat) (o : option lit) : env := fun y => if Nat.eqb y x then o else m y.
(** propagate.rs:219-221: characters, dates and the like are not propagated. *)
Definition propagatable (e : expr) : option lit := match e with ELit (LOther _) => None | ELit l => Some l | _ => None end.

Section Propagate.
(** The forms whose operands are left alone (Index, Slice, closures, interpolated strings, :259-262, :337-342), and the
    operands of effect statements that are substituted (:165-196). *)
Context (sealed : nat -> bool) (opens : nat -> nat -> bool).
(** propagate.rs:235-345 substitute_identifiers; keeping the old node when nothing changes is not modelled. *)
Fixpoint subst (m : env) (e : expr) : expr :=
  match e with
  | ELit _ => e
  | EId x => match m x with Some l => ELit l | None => e end
  | EBin op l r => EBin op (subst m l) (subst m r)
  | ENot a => ENot (subst m a)
  | EContains c v => EContains (subst m c) (subst m v)
  | EOther t args => if sealed t then e else EOther t (map (subst m) args)
  end.
(** propagate.rs:223-233. *)
Definition subst_and_fold (m : env) (e : expr) : expr := fold_expr no_bools (subst m e).
(** propagate.rs:348-404 collect_set_targets. *)
Fixpoint targets_of (st : stmt) : list nat :=
  match st with
  | SSet x _ => [x]
  | SIf _ t f => flat_map targets_of t ++ match f with Some b => flat_map targets_of b | None => [] end
  | SWhile _ b | SRepeat _ _ b => flat_map targets_of b
  | _ => []
  end.
Definition set_targets (p : list stmt) : list nat := flat_map targets_of p.
Fixpoint mapi (f : nat -> expr -> expr) (i : nat) (l : list expr) : list expr := match l with [] => [] | e :: r => f i e :: mapi f (S i) r end.
(** propagate.rs:59-191 propagate_stmt with propagate_nested_block; a decreasing clause is not modelled. *)
Fixpoint prop_stmt (mutated : list nat) (m : env) (st : stmt) : stmt * env :=
  let nested := (fix go (m : env) (l : list stmt) : list stmt := match l with [] => [] | st :: r => let '(st', m') := prop_stmt mutated m st in st' :: go m' r end) in
  match st with
  | SLet x ann mut e =>
      let v := subst_and_fold m e in
      (SLet x ann mut v, if negb mut && negb (member x mutated) then match propagatable v with Some l => set_env m x (Some l) | None => m end else m)
  | SSet x e => (SSet x (subst_and_fold m e), set_env m x None)
  | SIf c t f => (SIf (subst_and_fold m c) (nested m t) (match f with Some b => Some (nested m b) | None => None end), m)
  | SWhile c b => (SWhile (subst_and_fold m c) (nested m b), m)
  | SRepeat x e b => (SRepeat x (subst_and_fold m e) (nested m b), m)
  | SReturn e => (SReturn (option_map (subst_and_fold m) e), m)
  | SBreak => (SBreak, m)
  | SShow e => (SShow (subst_and_fold m e), m)
  | SEff t args => (SEff t (mapi (fun i e => if opens t i then subst_and_fold m e else e) 0 args), m)
  end.
Definition prop_list (mutated : list nat) : env -> list stmt -> list stmt :=
  fix go (m : env) (l : list stmt) : list stmt := match l with [] => [] | st :: r => let '(st', m') := prop_stmt mutated m st in st' :: go m' r end.
(** propagate.rs:21-30 propagate_stmts, and :103-114 for the body of a function. *)
Definition propagate_stmts (p : list stmt) : list stmt := prop_list (set_targets p) no_env p.
Definition propagate_func (f : func) : func := (fst f, propagate_stmts (snd f)).
End Propagate.
