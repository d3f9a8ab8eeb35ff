(** Model of named substitution and of the comparison of terms in the kernel (crates/logicaffeine_kernel/src/type_checker.rs 871-1287, 1446-1467, 1593-1688). *)
From Coq Require Import List Bool.
From stdpp Require Import base decidable list strings pretty.

Section Model.
(** Sorts, literals, globals and constants at levels hold no variables; [leaf_eq] is how types_equal compares them (1600-1606; false for a constant). *)
Variable leaf : Type.
Variable leaf_eq : leaf -> leaf -> bool.
Notation name := string.
(** term.rs 452-543. App and Match are nodes; Pi, Lambda, Fix and Let bind one name in the last part, the others being outside the binder.
    MutualFix is left out. *)
Inductive node := NApp | NMatch.
Inductive binder := BPi | BLambda | BFix | BLet.
Inductive term := TVar (x : name) | TLeaf (l : leaf) | THole | TNode (k : node) (ts : list term) | TBind (k : binder) (ts : list term) (x : name) (body : term).
Global Instance node_dec : EqDecision node. Proof. solve_decision. Defined.
Global Instance binder_dec : EqDecision binder. Proof. solve_decision. Defined.

(** 907-935. *)
Fixpoint occurs_free (t : term) (v : name) : bool :=
  match t with
  | TVar x => bool_decide (x = v)
  | TLeaf _ | THole => false
  | TNode _ ts => (fix go ts := match ts with [] => false | t :: ts => occurs_free t v || go ts end) ts
  | TBind _ ts x body => (fix go ts := match ts with [] => false | t :: ts => occurs_free t v || go ts end) ts || (negb (bool_decide (x = v)) && occurs_free body v)
  end.
(** 938-999; a set is a list. *)
Fixpoint free_vars (bound : list name) (t : term) : list name :=
  match t with
  | TVar x => if decide (x ∈ bound) then [] else [x]
  | TLeaf _ | THole => []
  | TNode _ ts => (fix go ts := match ts with [] => [] | t :: ts => free_vars bound t ++ go ts end) ts
  | TBind _ ts x body => (fix go ts := match ts with [] => [] | t :: ts => free_vars bound t ++ go ts end) ts ++ free_vars (x :: bound) body
  end.
(** 1002-1046. *)
Fixpoint all_names (t : term) : list name :=
  match t with
  | TVar x => [x]
  | TLeaf _ | THole => []
  | TNode _ ts => (fix go ts := match ts with [] => [] | t :: ts => all_names t ++ go ts end) ts
  | TBind _ ts x body => x :: (fix go ts := match ts with [] => [] | t :: ts => all_names t ++ go ts end) ts ++ all_names body
  end.
(** 1049-1057; the loop runs at most once more than there are names to avoid. *)
Definition candidate (base : name) (k : N) : name := base +:+ "'" +:+ (if decide (k = 0%N) then "" else pretty k).
Fixpoint fresh_loop (n : nat) (base : name) (k : N) (avoid : list name) : name :=
  match n with O => candidate base k | S n => if decide (candidate base k ∈ avoid) then fresh_loop n base (k + 1) avoid else candidate base k end.
Definition fresh_name (base : name) (avoid : list name) : name := fresh_loop (S (length avoid)) base 0 avoid.
(** 1061-1071. *)
Definition freshen (x : name) (body : term) (fvs : list name) (v : name) : name := fresh_name x (v :: all_names body ++ fvs).
(** 1088-1287 substitute_avoiding, and rename_var (1075-1080), which calls it; [n] bounds the depth. *)
Fixpoint sub (n : nat) (b : term) (v : name) (r : term) (fvs : list name) : option term :=
  match n with O => None | S n =>
    match b with
    | TVar x => Some (if decide (x = v) then r else b)
    | TLeaf _ | THole => Some b
    | TNode k ts => us ← mapM (fun t => sub n t v r fvs) ts; Some (TNode k us)
    | TBind k ts x body =>
        us ← mapM (fun t => sub n t v r fvs) ts;
        if decide (x = v) then Some (TBind k us x body)
        else if decide (x ∈ fvs) then
          let y := freshen x body fvs v in
          renamed ← sub n body x (TVar y) [y];
          body ← sub n renamed v r fvs; Some (TBind k us y body)
        else body ← sub n body v r fvs; Some (TBind k us x body)
    end
  end.
(** 890-904. *)
Definition substitute (n : nat) (b : term) (v : name) (r : term) : option term := if occurs_free b v then sub n b v r (free_vars [] r) else Some b.
(** 1593-1688. *)
Definition both (o1 o2 : option bool) : option bool := match o1 with Some true => o2 | o => o end.
Fixpoint all_equal (f : term -> term -> option bool) (ts us : list term) : option bool := match ts, us with [], [] => Some true | t :: ts, u :: us => both (f t u) (all_equal f ts us) | _, _ => Some false end.
Fixpoint types_equal (n : nat) (a b : term) : option bool :=
  match n with O => None | S n =>
    match a, b with
    | THole, _ | _, THole => Some true
    | TLeaf l, TLeaf m => Some (leaf_eq l m)
    | TVar x, TVar y => Some (bool_decide (x = y))
    | TNode k ts, TNode j us => if decide (k = j) then if decide (length ts = length us) then all_equal (types_equal n) ts us else Some false else Some false
    | TBind k ts x body, TBind j us y body' =>
        if decide (k = j) then
          match k with
          | BLet => Some false
          | _ => both (all_equal (types_equal n) ts us) (renamed ← substitute n body' y (TVar x); types_equal n body renamed)
          end
        else Some false
    | _, _ => Some false
    end
  end.
(** 1453-1459, eta: a lambda against another term [b] that is not a lambda; the application is taken to be in normal form. *)
Definition eta_equal (n : nat) (a b : term) : option bool :=
  match a, b with TBind BLambda _ _ _, TBind BLambda _ _ _ => None | TBind BLambda _ x body, _ => types_equal n body (TNode NApp [b; TVar x]) | _, _ => None end.
End Model.
