(** Dead store and dead branch elimination (crates/logicaffeine_compile/src/optimize/dce.rs) over the statements of
    FoldStmtModel. *)
From Coq Require Import ZArith List Bool Lia.
From Verif Require Import FoldModel FoldStmtModel.
Import ListNotations.

Section Dce.
(** The forms whose reads cannot be determined (Call, CallExpr, :66-76), the statements that clear the tracking (Call and
    Escape, :240-243), and the ones whose operands are not read (Mount, Sync, CreatePipe, ..., :166-172). Closures are
    not modelled. *)
Context (opaque clears unseen : nat -> bool).
(** dce.rs:10-78 collect_expr_reads: the symbols read, and whether that is all of them. *)
Fixpoint expr_reads (e : expr) : list nat :=
  match e with
  | ELit _ => []
  | EId x => [x]
  | EBin _ l r => expr_reads l ++ expr_reads r
  | ENot a => expr_reads a
  | EContains c v => expr_reads c ++ expr_reads v
  | EOther _ args => flat_map expr_reads args
  end.
Fixpoint analyzable (e : expr) : bool :=
  match e with
  | ELit _ | EId _ => true
  | EBin _ l r => analyzable l && analyzable r
  | ENot a => analyzable a
  | EContains c v => analyzable c && analyzable v
  | EOther t args => negb (opaque t) && forallb analyzable args
  end.
(** dce.rs:81-197 collect_stmt_reads. *)
Fixpoint stmt_reads (st : stmt) : list nat :=
  match st with
  | SLet _ _ _ e | SSet _ e | SShow e | SReturn (Some e) => expr_reads e
  | SReturn None | SBreak => []
  | SIf c t f => expr_reads c ++ flat_map stmt_reads t ++ match f with Some b => flat_map stmt_reads b | None => [] end
  | SWhile c b => expr_reads c ++ flat_map stmt_reads b
  | SRepeat _ e b => expr_reads e ++ flat_map stmt_reads b
  | SEff t args => if unseen t then [] else flat_map expr_reads args
  end.
(** dce.rs:200-259 dead_store_elimination: [last] maps a symbol to the index of its latest Set, [dead] holds the indices
    of the stores found dead. *)
Definition find (x : nat) (last : list (nat * nat)) : option nat := option_map snd (List.find (fun q => Nat.eqb (fst q) x) last).
Definition drop (x : nat) (last : list (nat * nat)) : list (nat * nat) := filter (fun q => negb (Nat.eqb (fst q) x)) last.
Definition step (i : nat) (st : stmt) (last : list (nat * nat)) (dead : list nat) : list (nat * nat) * list nat :=
  let last := filter (fun q => negb (member (fst q) (stmt_reads st))) last in
  match st with
  | SSet x e => if analyzable e then ((x, i) :: drop x last, match find x last with Some j => j :: dead | None => dead end) else ([], dead)
  | SIf _ _ _ | SWhile _ _ | SRepeat _ _ _ => ([], dead)
  | SEff t _ => if clears t then ([], dead) else (last, dead)
  | _ => (last, dead)
  end.
Fixpoint scan (i : nat) (p : list stmt) (last : list (nat * nat)) (dead : list nat) : list nat :=
  match p with [] => dead | st :: r => let '(last, dead) := step i st last dead in scan (S i) r last dead end.
(** Which statements stay. *)
Definition keeps (p : list stmt) : list bool := let dead := scan 0 p [] [] in map (fun i => negb (member i dead)) (seq 0 (length p)).
(** dce.rs:348-350: nothing is kept after a Return. *)
Fixpoint trunc (p : list stmt) : list stmt := match p with [] => [] | SReturn e :: _ => [SReturn e] | st :: r => st :: trunc r end.
(** dce.rs:261-346 eliminate_dead_code, one statement. The branch of a literal condition takes the place of the If as it
    is. dead_variable_elimination (:363-365) does nothing. *)
Fixpoint dce_stmt (st : stmt) : list stmt :=
  let all := (fix go (k : list bool) (p : list stmt) {struct p} : list stmt := match p, k with st :: p, b :: k => (if b then dce_stmt st else []) ++ go k p | _, _ => [] end) in
  match st with
  | SIf (ELit (LBool true)) t _ => t
  | SIf (ELit (LBool false)) _ f => match f with Some b => b | None => [] end
  | SIf c t f => [SIf c (trunc (all (keeps t) t)) (match f with Some b => Some (trunc (all (keeps b) b)) | None => None end)]
  | SWhile (ELit (LBool false)) _ => []
  | SWhile c b => [SWhile c (trunc (all (keeps b) b))]
  | SRepeat x e b => [SRepeat x e (trunc (all (keeps b) b))]
  | _ => [st]
  end.
Definition select : list bool -> list stmt -> list stmt :=
  fix go (k : list bool) (p : list stmt) {struct p} : list stmt := match p, k with st :: p, b :: k => (if b then dce_stmt st else []) ++ go k p | _, _ => [] end.
Definition eliminate_dead_code (p : list stmt) : list stmt := trunc (select (keeps p) p).
Definition dce_func (f : func) : func := (fst f, eliminate_dead_code (snd f)).
End Dce.
