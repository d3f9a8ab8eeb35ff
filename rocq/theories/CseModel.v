(** Model of two rewriting passes over the syntax of [SymModel]: inlining of
    one-expression helpers and common subexpression elimination.

    /repo/crates/logicaffeine_compile/src/optimize/inline_tiny.rs  lines 30-235
    /repo/crates/logicaffeine_compile/src/optimize/gvn.rs          lines 14-483

    Collections, fields and text are outside the fragment, so the statements
    and keys about them are left out; so are top-level statements outside
    functions. *)

From Coq Require Import ZArith List Bool Lia.
From Verif Require Import SymModel.
Import ListNotations.
Open Scope Z_scope.

(** ** inline_tiny.rs *)

(** 30-37: [body_inlinable]. *)
Fixpoint body_inlinable (e : expr) : bool :=
  match e with
  | ENum _ | EId _ => true
  | EBin _ l r => body_inlinable l && body_inlinable r
  | ENot a => body_inlinable a
  | _ => false
  end.

(** 39-41: [arg_atomic]. *)
Definition arg_atomic (e : expr) : bool :=
  match e with ENum _ | EId _ => true | _ => false end.

Definition look (s : symbol) (l : list (symbol * expr)) : option expr :=
  option_map snd (find (fun b => Nat.eqb (fst b) s) l).

(** 44-61: [subst]. *)
Fixpoint subst (b : list (symbol * expr)) (e : expr) : expr :=
  match e with
  | EId s => match look s b with Some a => a | None => e end
  | EBin o l r => EBin o (subst b l) (subst b r)
  | ENot a => ENot (subst b a)
  | _ => e
  end.

Definition bodies := list (symbol * (list symbol * expr)).

(** 215-227: the catalogue; a later definition of a name replaces an earlier
    one. *)
Definition candidate (f : func) : bodies :=
  if f_native f || f_generic f then []
  else match f_body f with
       | [SReturn (Some e)] =>
           if body_inlinable e then [(f_name f, (f_params f, e))] else []
       | _ => []
       end.
Definition catalogue (p : program) : bodies := rev (flat_map candidate p).

Definition get_body (s : symbol) (b : bodies) : option (list symbol * expr) :=
  option_map snd (find (fun c => Nat.eqb (fst c) s) b).

(** 68-125: [rewrite_expr]; a node whose children are unchanged is rebuilt, not
    shared. *)
Fixpoint inline_expr (bs : bodies) (e : expr) : expr :=
  match e with
  | ECall g args =>
      let new_args := map (inline_expr bs) args in
      match get_body g bs with
      | Some (params, body) =>
          if Nat.eqb (length params) (length new_args) && forallb arg_atomic new_args
          then subst (combine params new_args) body
          else ECall g new_args
      | None => ECall g new_args
      end
  | EBin o l r => EBin o (inline_expr bs l) (inline_expr bs r)
  | ENot a => ENot (inline_expr bs a)
  | _ => e
  end.

(** 127-205: [rewrite_block] and [rewrite_stmt]. *)
Fixpoint inline_stmt (bs : bodies) (s : stmt) : stmt :=
  match s with
  | SLet x e => SLet x (inline_expr bs e)
  | SSet x e => SSet x (inline_expr bs e)
  | SIf c t e =>
      SIf (inline_expr bs c) (map (inline_stmt bs) t) (option_map (map (inline_stmt bs)) e)
  | SWhile c b => SWhile (inline_expr bs c) (map (inline_stmt bs) b)
  | SReturn e => SReturn (option_map (inline_expr bs) e)
  | SOther => SOther
  end.

Definition with_body (f : func) (b : list stmt) : func :=
  Func (f_name f) (f_params f) b (f_native f) (f_generic f) (f_exported f) (f_symmetry f).

(** 208-235: [inline_tiny_fns]. *)
Definition inline_func (bs : bodies) (f : func) : func :=
  with_body f (map (inline_stmt bs) (f_body f)).
Definition inline_tiny (p : program) : program :=
  match catalogue p with
  | [] => p
  | bs => map (inline_func bs) p
  end.

(** ** gvn.rs *)

(** 14-26: [ExprKey], on the fragment. *)
Inductive key :=
| KId (s : symbol)
| KInt (z : Z)
| KBin (o : op) (l r : key)
| KNot (k : key).

Fixpoint key_eqb (a b : key) : bool :=
  match a, b with
  | KId s, KId t => Nat.eqb s t
  | KInt x, KInt y => Z.eqb x y
  | KBin o l r, KBin o' l' r' => op_eqb o o' && key_eqb l l' && key_eqb r r'
  | KNot k, KNot k' => key_eqb k k'
  | _, _ => false
  end.

(** 30-67: [compute_key]. *)
Fixpoint compute_key (e : expr) : option key :=
  match e with
  | EId s => Some (KId s)
  | ENum z => Some (KInt z)
  | EBin o l r =>
      match compute_key l, compute_key r with
      | Some a, Some b => Some (KBin o a b)
      | _, _ => None
      end
  | ENot a => option_map KNot (compute_key a)
  | _ => None
  end.

(** 70-72: [is_non_trivial]. *)
Definition is_non_trivial (e : expr) : bool :=
  match e with EId _ | ENum _ => false | _ => true end.

(** 75-91: [collect_key_symbols]. *)
Fixpoint key_symbols (k : key) : list symbol :=
  match k with
  | KId s => [s]
  | KInt _ => []
  | KBin _ l r => key_symbols l ++ key_symbols r
  | KNot a => key_symbols a
  end.

(** 94-101: [CseState]; both maps are association lists, newest first. *)
Record cse_state := CSE {
  cache : list (key * symbol);
  deps : list (symbol * list key);
  counter : nat }.

Definition kget (k : key) (l : list (key * symbol)) : option symbol :=
  option_map snd (find (fun c => key_eqb (fst c) k) l).
Definition kput (k : key) (s : symbol) (l : list (key * symbol)) : list (key * symbol) :=
  (k, s) :: List.filter (fun c => negb (key_eqb (fst c) k)) l.
Definition dget (s : symbol) (l : list (symbol * list key)) : list key :=
  match find (fun c => Nat.eqb (fst c) s) l with Some c => snd c | None => [] end.
Definition dput (s : symbol) (ks : list key) (l : list (symbol * list key)) :=
  (s, ks) :: List.filter (fun c => negb (Nat.eqb (fst c) s)) l.

(** 113-120: [insert]. *)
Definition cse_insert (st : cse_state) (k : key) (s : symbol) : cse_state :=
  CSE (kput k s (cache st))
    (fold_left (fun d x => dput x (dget x d ++ [k]) d) (nodup Nat.eq_dec (key_symbols k)) (deps st))
    (counter st).

(** 123-129: [invalidate]. *)
Definition invalidate (st : cse_state) (s : symbol) : cse_state :=
  let ks := dget s (deps st) in
  CSE (List.filter (fun c => negb (existsb (key_eqb (fst c)) ks)) (cache st))
    (List.filter (fun c => negb (Nat.eqb (fst c) s)) (deps st))
    (counter st).

(** 138-162: [count_subexpressions], as the list of counted keys. *)
Fixpoint subkeys (e : expr) : list key :=
  (if is_non_trivial e then match compute_key e with Some k => [k] | None => [] end else [])
  ++ match e with
     | EBin _ l r => subkeys l ++ subkeys r
     | ENot a => subkeys a
     | _ => []
     end.
Definition count_key (k : key) (l : list key) : nat := length (List.filter (key_eqb k) l).

(** The name [__cse_n] (245). *)
Definition temp (n : nat) : symbol := (1000 + n)%nat.

(** The mutable arguments of [rewrite_expr]. *)
Record rw := RW { local : list (key * symbol); rstate : cse_state; hoisted : list stmt }.

(** 236-262: the hoisting step. *)
Definition hoist (counts : list key) (k : option key) (new_expr : expr) (w : rw) : expr * rw :=
  match k with
  | Some k' =>
      if is_non_trivial new_expr && (1 <? count_key k' counts)%nat then
        let st := rstate w in
        let tmp := temp (counter st) in
        let st1 := CSE (cache st) (deps st) (S (counter st)) in
        (EId tmp,
         RW (kput k' tmp (local w)) (cse_insert st1 k' tmp) (hoisted w ++ [SLet tmp new_expr]))
      else (new_expr, w)
  | None => (new_expr, w)
  end.

(** 166-265: [rewrite_expr]. *)
Fixpoint rewrite_expr (counts : list key) (e : expr) (w : rw) : expr * rw :=
  let k := compute_key e in
  match (match k with
         | Some k' =>
             match kget k' (local w) with
             | Some s => Some s
             | None => if is_non_trivial e then kget k' (cache (rstate w)) else None
             end
         | None => None
         end) with
  | Some s => (EId s, w)
  | None =>
      match e with
      | EBin o l r =>
          let (l', w1) := rewrite_expr counts l w in
          let (r', w2) := rewrite_expr counts r w1 in
          hoist counts k (EBin o l' r') w2
      | ENot a =>
          let (a', w1) := rewrite_expr counts a w in
          hoist counts k (ENot a') w1
      | _ => hoist counts k e w
      end
  end.

(** 269-282: [cse_expr_cross_stmt]. *)
Definition cross_stmt (st : cse_state) (e : expr) : expr :=
  match compute_key e with
  | Some k =>
      if is_non_trivial e then match kget k (cache st) with Some s => EId s | None => e end
      else e
  | None => e
  end.

(** 311-315 and 319-325: the value is put in the cache under the variable. *)
Definition remember_value (st : cse_state) (e : expr) (x : symbol) : cse_state :=
  match compute_key e with
  | Some k => if is_non_trivial e then cse_insert st k x else st
  | None => st
  end.

(** 295-328: [Let]. *)
Definition cse_let (st : cse_state) (x : symbol) (v : expr) : list stmt * cse_state :=
  let counts := subkeys v in
  if existsb (fun k => (1 <? count_key k counts)%nat) counts then
    let (v', w) := rewrite_expr counts v (RW [] st []) in
    (hoisted w ++ [SLet x v'], remember_value (rstate w) v' x)
  else ([SLet x (cross_stmt st v)], remember_value st v x).

(** 442-473: [invalidate_block_writes]. *)
Fixpoint invalidate_stmt (s : stmt) (st : cse_state) : cse_state :=
  match s with
  | SSet x _ => invalidate st x
  | SIf _ t e =>
      let st1 := fold_left (fun st s => invalidate_stmt s st) t st in
      match e with
      | Some b => fold_left (fun st s => invalidate_stmt s st) b st1
      | None => st1
      end
  | SWhile _ b => fold_left (fun st s => invalidate_stmt s st) b st
  | _ => st
  end.
Definition invalidate_block_writes (b : list stmt) (st : cse_state) : cse_state :=
  fold_left (fun st s => invalidate_stmt s st) b st.

Definition restore (old new : cse_state) : cse_state := CSE (cache old) (deps old) (counter new).

(** 285-439: [cse_block], one statement at a time.  The body of a loop is
    processed with the cache as it stands before the loop (396-398). *)
Fixpoint cse_stmt (s : stmt) (st : cse_state) : list stmt * cse_state :=
  let fix block (b : list stmt) (st : cse_state) : list stmt * cse_state :=
    match b with
    | [] => ([], st)
    | s :: b =>
        let (x, st1) := cse_stmt s st in
        let (y, st2) := block b st1 in
        (x ++ y, st2)
    end in
  match s with
  | SLet x v => cse_let st x v
  | SSet x v => ([s], invalidate st x)
  | SIf c t e =>
      let (t', st1) := block t st in
      match e with
      | Some b =>
          let (b', st2) := block b (restore st st1) in
          ([SIf c t' (Some b')],
           invalidate_block_writes b (invalidate_block_writes t (restore st st2)))
      | None => ([SIf c t' None], invalidate_block_writes t (restore st st1))
      end
  | SWhile c b =>
      let (b', st1) := block b st in
      ([SWhile c b'], invalidate_block_writes b (restore st st1))
  | _ => ([s], st)
  end.

Fixpoint cse_block (b : list stmt) (st : cse_state) : list stmt * cse_state :=
  match b with
  | [] => ([], st)
  | s :: b =>
      let (x, st1) := cse_stmt s st in
      let (y, st2) := cse_block b st1 in
      (x ++ y, st2)
  end.

(** 421-434 and 476-483: [cse_stmts]; every function has a fresh state, the
    counter runs on. *)
Fixpoint cse_funcs (n : nat) (p : program) : program :=
  match p with
  | [] => []
  | f :: p =>
      let (b, st) := cse_block (f_body f) (CSE [] [] n) in
      with_body f b :: cse_funcs (counter st) p
  end.
Definition cse (p : program) : program := cse_funcs 0 p.
