(** Constant folding of statements (crates/logicaffeine_compile/src/optimize/fold.rs:10-272) against their execution
    (interpreter.rs, the synchronous path). *)
From Coq Require Import ZArith List Bool Lia.
From Verif Require Import FoldModel.
Import ListNotations.

(** ast/stmt.rs Stmt: a Let carries whether it is annotated Bool and whether it is mutable; [SEff] is any statement that evaluates its operands
    from left to right before an action of its own (a call statement, Push, SetField, WriteFile, Sleep, ...). Inspect,
    Zone, Concurrent, Parallel and the statements the folder leaves alone are not modelled; functions are in a table of
    their own rather than defined on the way. A Repeat binds one name. *)
Inductive stmt := SLet (x : nat) (ann mut : bool) (e : expr) | SSet (x : nat) (e : expr) | SIf (c : expr) (t : list stmt) (f : option (list stmt))
  | SWhile (c : expr) (b : list stmt) | SRepeat (x : nat) (e : expr) (b : list stmt) | SReturn (e : option expr) | SBreak | SShow (e : expr)
  | SEff (tag : nat) (args : list expr).
(** A function: its parameters, each with whether it is of type Bool, and its body. *)
Definition func : Type := list (nat * bool) * list stmt.

(** fold.rs:18-41 collect_writes. *)
Fixpoint writes_of (st : stmt) : list (nat * bool * expr) :=
  match st with
  | SLet x ann _ e => [(x, ann, e)]
  | SSet x e => [(x, false, e)]
  | SIf _ t f => flat_map writes_of t ++ match f with Some b => flat_map writes_of b | None => [] end
  | SWhile _ b | SRepeat _ _ b => flat_map writes_of b
  | _ => []
  end.
Definition collect_writes (p : list stmt) : list (nat * bool * expr) := flat_map writes_of p.
Definition member (x : nat) (l : list nat) : bool := existsb (Nat.eqb x) l.
Definition write_ok (bools : list nat) (x : nat) (w : nat * bool * expr) : bool :=
  let '(y, ann, e) := w in negb (Nat.eqb y x) || ann || expr_is_boolish (fun z => member z bools) e.
(** fold.rs:43-85 collect_bool_syms. [ord] is the order in which the hash set of written symbols is walked. *)
Definition round (ord : list nat -> list nat) (writes : list (nat * bool * expr)) (bools : list nat) : list nat :=
  fold_left (fun bs x => if member x bs then bs else if forallb (write_ok bs x) writes then x :: bs else bs) (ord (map (fun w => fst (fst w)) writes)) bools.
Definition collect_bool_syms (ord : list nat -> list nat) (params : list (nat * bool)) (body : list stmt) : list nat :=
  let typed := map fst (filter snd params) in
  let writes := collect_writes body in
  let b1 := round ord writes typed in
  let b2 := if Nat.eqb (length b1) (length typed) then b1 else round ord writes b1 in
  filter (fun x => forallb (write_ok b2 x) writes || existsb (fun p => Nat.eqb (fst p) x && snd p) params) b2.
Definition in_syms (l : list nat) : nat -> bool := fun x => member x l.

(** fold.rs:115-272 fold_stmt and fold_block. *)
Fixpoint fold_stmt (bools : nat -> bool) (st : stmt) : stmt :=
  match st with
  | SLet x ann mut e => SLet x ann mut (fold_expr bools e)
  | SSet x e => SSet x (fold_expr bools e)
  | SIf c t f => SIf (fold_expr bools c) (map (fold_stmt bools) t) (match f with Some b => Some (map (fold_stmt bools) b) | None => None end)
  | SWhile c b => SWhile (fold_expr bools c) (map (fold_stmt bools) b)
  | SRepeat x e b => SRepeat x (fold_expr bools e) (map (fold_stmt bools) b)
  | SReturn e => SReturn (option_map (fold_expr bools) e)
  | SBreak => SBreak
  | SShow e => SShow (fold_expr bools e)
  | SEff t args => SEff t (map (fold_expr bools) args)
  end.
(** fold.rs:87-98 fold_stmts and :148-163, the bodies of functions. *)
Definition fold_stmts (ord : list nat -> list nat) (p : list stmt) : list stmt := map (fold_stmt (in_syms (collect_bool_syms ord [] p))) p.
Definition fold_func (ord : list nat -> list nat) (f : func) : func := (fst f, map (fold_stmt (in_syms (collect_bool_syms ord (fst f) (snd f)))) (snd f)).

(** interpreter.rs:1560-1690 Environment: root variables, block variables of the main program, the locals of the
    running function, undo logs of the open blocks, and the shelved frames of the callers. A map is a function. *)
Definition vars : Type := nat -> option value.
Definition update (m : vars) (x : nat) (o : option value) : vars := fun y => if Nat.eqb y x then o else m y.
Record state (W : Type) := State { globals : vars; main_block : vars; locals : vars; saves : list (list (nat * option value));
  frames : list (vars * list (list (nat * option value))); world : W }.
Arguments State {W}. Arguments globals {W}. Arguments main_block {W}. Arguments locals {W}. Arguments saves {W}. Arguments frames {W}. Arguments world {W}.
Section State.
Context {W : Type}.
Notation state := (state W).
Definition in_function (s : state) : bool := match frames s with [] => false | _ => true end.
Definition or_else (a b : option value) : option value := match a with Some v => Some v | None => b end.
Definition lookup (s : state) (x : nat) : option value :=
  if in_function s then or_else (locals s x) (globals s x) else or_else (main_block s x) (globals s x).
Definition set_globals (s : state) (m : vars) : state := State m (main_block s) (locals s) (saves s) (frames s) (world s).
Definition set_main (s : state) (m : vars) : state := State (globals s) m (locals s) (saves s) (frames s) (world s).
Definition set_locals (s : state) (m : vars) : state := State (globals s) (main_block s) m (saves s) (frames s) (world s).
Definition set_saves (s : state) (l : list (list (nat * option value))) : state := State (globals s) (main_block s) (locals s) l (frames s) (world s).
Definition set_world (s : state) (w : W) : state := State (globals s) (main_block s) (locals s) (saves s) (frames s) w.
(** define: function locals, or inside a block of the main program its block map, or the root variables. *)
Definition define (s : state) (x : nat) (v : value) : state :=
  let log old s1 := match saves s1 with [] => s1 | l :: r => set_saves s1 (((x, old) :: l) :: r) end in
  if in_function s then log (locals s x) (set_locals s (update (locals s) x (Some v)))
  else match saves s with
       | [] => set_globals s (update (globals s) x (Some v))
       | _ => log (main_block s x) (set_main s (update (main_block s) x (Some v)))
       end.
Definition assign (s : state) (x : nat) (v : value) : option state :=
  let at_root := match globals s x with Some _ => Some (set_globals s (update (globals s) x (Some v))) | None => None end in
  if in_function s then match locals s x with Some _ => Some (set_locals s (update (locals s) x (Some v))) | None => at_root end
  else match main_block s x with Some _ => Some (set_main s (update (main_block s) x (Some v))) | None => at_root end.
Definition push_scope (s : state) : state := set_saves s ([] :: saves s).
Definition undo (l : list (nat * option value)) (m : vars) : vars := fold_left (fun m p => update m (fst p) (snd p)) l m.
(** pop_scope: the undo log is replayed from its latest entry. *)
Definition pop_scope (s : state) : state :=
  match saves s with
  | [] => s
  | l :: r => let s1 := set_saves s r in if in_function s then set_locals s1 (undo l (locals s)) else set_main s1 (undo l (main_block s))
  end.
Definition push_frame (s : state) : state := State (globals s) (main_block s) (fun _ => None) [] ((locals s, saves s) :: frames s) (world s).
Definition pop_frame (s : state) : state :=
  match frames s with
  | [] => State (globals s) (main_block s) (fun _ => None) [] [] (world s)
  | (l, sv) :: r => State (globals s) (main_block s) l sv r (world s)
  end.
Fixpoint define_all (s : state) (ps : list (nat * bool)) (vs : list value) : state :=
  match ps, vs with p :: ps, v :: vs => define_all (define s (fst p) v) ps vs | _, _ => s end.

(** interpreter.rs:4147-4260, 4693-4706 (execute_stmt_sync, execute_block_sync), 5091-5250 (call_function_sync).
    [n] bounds the depth of the execution; running out of it is [Stop]. Calls of tags without a function are external
    and leave the variables alone. A wrong number of arguments is
    found after they are evaluated rather than before. Tail calls are ordinary calls here, and the limit on the call depth
    is not modelled. *)
Inductive flow := Next | Break | Return (v : value).
Context (P : prims) (items : value -> option (list value)) (ext : nat -> list value -> W -> outcome value * W) (show : value -> W -> W).
Definition call (ex : list stmt -> state -> outcome flow * state) (F : nat -> option func) (t : nat) (vs : list value) (s : state) : outcome value * state :=
  match F t with
  | None => let '(r, w) := ext t vs (world s) in (r, set_world s w)
  | Some (ps, body) =>
      if negb (Nat.eqb (length vs) (length ps)) then (Err, s)
      else bind (ex body (define_all (push_frame s) ps vs)) (fun fl s1 => (Ok (match fl with Return v => v | _ => VNothing end), pop_frame s1))
  end.
Definition block (ex : list stmt -> state -> outcome flow * state) (b : list stmt) (s : state) : outcome flow * state :=
  bind (ex b (push_scope s)) (fun fl s1 => (Ok fl, pop_scope s1)).
Fixpoint iterate (ex : list stmt -> state -> outcome flow * state) (x : nat) (b : list stmt) (vs : list value) (s : state) : outcome flow * state :=
  match vs with
  | [] => (Ok Next, s)
  | v :: vs => bind (block ex b (define s x v)) (fun fl s1 => match fl with Next => iterate ex x b vs s1 | Break => (Ok Next, s1) | Return w => (Ok (Return w), s1) end)
  end.
Definition exec_stmt (ex : list stmt -> state -> outcome flow * state) (F : nat -> option func) (st : stmt) (s : state) : outcome flow * state :=
  let ev := eval P lookup (call ex F) in
  match st with
  | SLet x _ _ e => bind (ev e s) (fun v s1 => (Ok Next, define s1 x v))
  | SSet x e => bind (ev e s) (fun v s1 => match assign s1 x v with Some s2 => (Ok Next, s2) | None => (Err, s1) end)
  | SIf c t f => bind (ev c s) (fun v s1 => if truthy P v then block ex t s1 else match f with Some b => block ex b s1 | None => (Ok Next, s1) end)
  | SWhile c b => bind (ev c s) (fun v s1 => if truthy P v
      then bind (block ex b s1) (fun fl s2 => match fl with Next => ex [SWhile c b] s2 | Break => (Ok Next, s2) | Return w => (Ok (Return w), s2) end)
      else (Ok Next, s1))
  | SRepeat x e b => bind (ev e s) (fun v s1 => match items v with
      | None => (Err, s1)
      | Some vs => bind (iterate ex x b vs (push_scope s1)) (fun fl s2 => (Ok fl, pop_scope s2))
      end)
  | SReturn None => (Ok (Return VNothing), s)
  | SReturn (Some e) => bind (ev e s) (fun v s1 => (Ok (Return v), s1))
  | SBreak => (Ok Break, s)
  | SShow e => bind (ev e s) (fun v s1 => (Ok Next, set_world s1 (show v (world s1))))
  | SEff t args => bind (eval_list ev args s) (fun vs s1 => bind (call ex F t vs s1) (fun _ s2 => (Ok Next, s2)))
  end.
Fixpoint exec (F : nat -> option func) (n : nat) (p : list stmt) (s : state) : outcome flow * state :=
  match n with
  | O => (Stop, s)
  | S n =>
      match p with
      | [] => (Ok Next, s)
      | st :: rest => bind (exec_stmt (exec F n) F st s) (fun fl s1 => match fl with Next => exec F n rest s1 | _ => (Ok fl, s1) end)
      end
  end.
End State.
