(** Model of [crates/logicaffeine_proof/src/unify.rs]: first-order unification, substitutions and
    one-sided matching. Recursion that is not structural carries a step bound; [None] means that the
    bound was too small, and a call returns when some bound is large enough. *)
From Coq Require Import String List Arith.
From stdpp Require Import gmap strings list pretty.
Local Open Scope string_scope.
Local Open Scope list_scope.

(** lib.rs:133-150 [ProofTerm]. *)
Inductive pterm :=
  | PConst (c : string) | PVar (x : string) | PFun (f : string) (l : list pterm)
  | PGroup (l : list pterm) | PBound (x : string).
(** unify.rs:58 [Substitution]: a hash map; its order is never observed. *)
Notation subst := (gmap string pterm).
(** error.rs: the kinds of error; their payloads are not modelled. *)
Inductive uerr := OccursCheck | SymbolMismatch | ArityMismatch | UnificationFailed | ExprUnificationFailed.
Inductive ures (A : Type) := UOk (a : A) | UErr (e : uerr).
Global Arguments UOk {A} a.
Global Arguments UErr {A} e.

(** Structural equality of terms ([#[derive(PartialEq)]]). *)
Fixpoint pterm_eqb (a b : pterm) : bool :=
  match a, b with
  | PConst x, PConst y | PVar x, PVar y | PBound x, PBound y => String.eqb x y
  | PFun f l, PFun g m =>
      String.eqb f g &&
      (fix go l m := match l, m with [], [] => true | a :: l, b :: m => pterm_eqb a b && go l m | _, _ => false end) l m
  | PGroup l, PGroup m =>
      (fix go l m := match l, m with [], [] => true | a :: l, b :: m => pterm_eqb a b && go l m | _, _ => false end) l m
  | _, _ => false
  end.

(** [iter().map(f).collect()] with a step bound. *)
Fixpoint map_opt {A B} (f : A -> option B) (l : list A) : option (list B) :=
  match l with
  | [] => Some []
  | a :: l => match f a with Some b => match map_opt f l with Some r => Some (b :: r) | None => None end | None => None end
  end.
(** unify.rs:1163-1191 [apply_subst_to_term]: chases chains of bindings without limit. *)
Fixpoint apply (n : nat) (s : subst) (t : pterm) : option pterm :=
  match n with
  | O => None
  | S n =>
      match t with
      | PVar x | PBound x => match s !! x with Some r => apply n s r | None => Some t end
      | PConst _ => Some t
      | PFun f l => match map_opt (apply n s) l with Some l => Some (PFun f l) | None => None end
      | PGroup l => match map_opt (apply n s) l with Some l => Some (PGroup l) | None => None end
      end
  end.
(** unify.rs:1122-1130 [occurs]. *)
Fixpoint occurs (v : string) (t : pterm) : bool :=
  match t with
  | PVar x | PBound x => String.eqb x v
  | PConst _ => false
  | PFun _ l | PGroup l => existsb (occurs v) l
  end.
(** unify.rs:1018-1033: bind unless the variable occurs. *)
Definition bind (v : string) (t : pterm) (s : subst) : ures subst :=
  if occurs v t then UErr OccursCheck else UOk (<[v := t]> s).
(** unify.rs:1092-1094, 1106-1108: the loop over the arguments. *)
Fixpoint unify_args (u : pterm -> pterm -> subst -> option (ures subst)) (l m : list pterm) (s : subst) : option (ures subst) :=
  match l, m with
  | a :: l, b :: m =>
      match u a b s with
      | Some (UOk s) => unify_args u l m s
      | r => r
      end
  | _, _ => Some (UOk s)
  end.
(** unify.rs:995-1118 [unify_terms_with_subst]; the cases are in the code's order. *)
Fixpoint unify (n : nat) (t1 t2 : pterm) (s : subst) : option (ures subst) :=
  match n with
  | O => None
  | S n =>
      match apply n s t1, apply n s t2 with
      | Some t1, Some t2 =>
          match t1, t2 with
          | PConst c, PConst d => Some (if String.eqb c d then UOk s else UErr SymbolMismatch)
          | PVar v, t => Some (match t with
                               | PVar w => if String.eqb v w then UOk s else bind v t s
                               | _ => bind v t s
                               end)
          | t, PVar v => Some (bind v t s)
          | PBound v, t => Some (match t with
                                 | PBound w => if String.eqb v w then UOk s else bind v t s
                                 | _ => bind v t s
                                 end)
          | t, PBound v => Some (bind v t s)
          | PFun f l, PFun g m =>
              if negb (String.eqb f g) then Some (UErr SymbolMismatch)
              else if negb (Nat.eqb (length l) (length m)) then Some (UErr ArityMismatch)
              else unify_args (unify n) l m s
          | PGroup l, PGroup m =>
              if negb (Nat.eqb (length l) (length m)) then Some (UErr ArityMismatch)
              else unify_args (unify n) l m s
          | _, _ => Some (UErr UnificationFailed)
          end
      | _, _ => None
      end
  end.
(** unify.rs:988-992 [unify_terms]. *)
Definition unify_terms (n : nat) (t1 t2 : pterm) : option (ures subst) := unify n t1 t2 ∅.

(** unify.rs:1626-1638 [compose_substitutions]: every value of [s1] under [s2], then the bindings of
    [s2] for the other names. *)
Definition compose (n : nat) (s1 s2 : subst) : option subst :=
  match map_opt (fun kv => match apply n s2 (snd kv) with Some t => Some (fst kv, t) | None => None end) (map_to_list s1) with
  | Some l => Some (list_to_map l ∪ s2)
  | None => None
  end.

(** lib.rs:199-345 [ProofExpr]. Conjunction, disjunction, implication and equivalence are one
    constructor with a tag, and so are the quantifiers. [EOther] stands for any expression that
    contains no redex and whose head is a modal, counterfactual, constructor, typed variable, hole,
    term or unsupported form, told apart by a number: on these [unify_exprs] fails and matching
    compares. Lambdas, applications, matches, fixpoints and event forms are not modelled, so
    [beta_reduce] (unify.rs:138-280) is the identity here. *)
Inductive conn := CAnd | COr | CImplies | CIff.
Inductive quant := QAll | QEx.
Inductive pexpr :=
  | EPred (p : string) (l : list pterm) (world : option string)
  | EIdent (a b : pterm)
  | EAtom (s : string)
  | EBin (c : conn) (a b : pexpr)
  | ENot (a : pexpr)
  | EQuant (q : quant) (x : string) (b : pexpr)
  | ETemp (op : string) (a : pexpr)
  | ETemp2 (op : string) (a b : pexpr)
  | EOther (k : nat).
Definition conn_eqb (a b : conn) : bool :=
  match a, b with CAnd, CAnd | COr, COr | CImplies, CImplies | CIff, CIff => true | _, _ => false end.
Definition quant_eqb (a b : quant) : bool := match a, b with QAll, QAll | QEx, QEx => true | _, _ => false end.
Definition world_eqb (a b : option string) : bool :=
  match a, b with Some x, Some y => String.eqb x y | None, None => true | _, _ => false end.
Fixpoint pexpr_eqb (a b : pexpr) : bool :=
  match a, b with
  | EPred p l w, EPred q m v => String.eqb p q && pterm_eqb (PGroup l) (PGroup m) && world_eqb w v
  | EIdent a b, EIdent c d => pterm_eqb a c && pterm_eqb b d
  | EAtom s, EAtom t => String.eqb s t
  | EBin c a b, EBin d a' b' => conn_eqb c d && pexpr_eqb a a' && pexpr_eqb b b'
  | ENot a, ENot b => pexpr_eqb a b
  | EQuant q x a, EQuant r y b => quant_eqb q r && String.eqb x y && pexpr_eqb a b
  | ETemp o a, ETemp p b => String.eqb o p && pexpr_eqb a b
  | ETemp2 o a b, ETemp2 p c d => String.eqb o p && pexpr_eqb a c && pexpr_eqb b d
  | EOther k, EOther m => Nat.eqb k m
  | _, _ => false
  end.

(** unify.rs:1469-1592 [apply_subst_to_expr]: a binder whose name is mapped to a variable is
    renamed; the substitution goes under every binder, also one that binds a name of its domain. *)
Fixpoint apply_expr (n : nat) (s : subst) (e : pexpr) : option pexpr :=
  match e with
  | EPred p l w => match map_opt (apply n s) l with Some l => Some (EPred p l w) | None => None end
  | EIdent a b => match apply n s a, apply n s b with Some a, Some b => Some (EIdent a b) | _, _ => None end
  | EAtom a => Some (EAtom a)
  | EBin c a b => match apply_expr n s a, apply_expr n s b with Some a, Some b => Some (EBin c a b) | _, _ => None end
  | ENot a => match apply_expr n s a with Some a => Some (ENot a) | None => None end
  | EQuant q x b =>
      let y := match s !! x with Some (PVar y) => y | _ => x end in
      match apply_expr n s b with Some b => Some (EQuant q y b) | None => None end
  | ETemp o a => match apply_expr n s a with Some a => Some (ETemp o a) | None => None end
  | ETemp2 o a b => match apply_expr n s a, apply_expr n s b with Some a, Some b => Some (ETemp2 o a b) | _, _ => None end
  | EOther k => Some (EOther k)
  end.
(** unify.rs:86-89 [fresh_alpha_constant]: the global counter is threaded as [c]. *)
Definition fresh_alpha (c : nat) : pterm := PConst ("#α" +:+ pretty c).
(** unify.rs:1238-1444 [unify_exprs_with_subst]. *)
Fixpoint unify_expr (n : nat) (e1 e2 : pexpr) (s : subst) (c : nat) : option (ures (subst * nat)) :=
  match n with
  | O => None
  | S n =>
      let both a1 a2 b1 b2 :=
        match unify_expr n a1 a2 s c with
        | Some (UOk (s, c)) => unify_expr n b1 b2 s c
        | r => r
        end in
      let terms r := match r with Some (UOk s) => Some (UOk (s, c)) | Some (UErr e) => Some (UErr e) | None => None end in
      match e1, e2 with
      | EAtom a, EAtom b => Some (if String.eqb a b then UOk (s, c) else UErr ExprUnificationFailed)
      | EPred p l w, EPred q m v =>
          if negb (String.eqb p q) then Some (UErr SymbolMismatch)
          else if negb (Nat.eqb (length l) (length m)) then Some (UErr ArityMismatch)
          else if (match w, v with Some w, Some v => negb (String.eqb w v) | _, _ => false end)
          then Some (UErr SymbolMismatch)
          else terms (unify_args (unify n) l m s)
      | EIdent a b, EIdent a' b' => terms (unify_args (unify n) [a; b] [a'; b'] s)
      | EBin o a b, EBin o' a' b' =>
          if conn_eqb o o' then both a a' b b' else Some (UErr ExprUnificationFailed)
      | ENot a, ENot b => unify_expr n a b s c
      | EQuant q x a, EQuant r y b =>
          if quant_eqb q r then
            match apply_expr n {[x := fresh_alpha c]} a, apply_expr n {[y := fresh_alpha c]} b with
            | Some a, Some b => unify_expr n a b s (S c)
            | _, _ => None
            end
          else Some (UErr ExprUnificationFailed)
      | ETemp o a, ETemp p b => if String.eqb o p then unify_expr n a b s c else Some (UErr ExprUnificationFailed)
      | ETemp2 o a b, ETemp2 p a' b' =>
          if String.eqb o p then both a a' b b' else Some (UErr ExprUnificationFailed)
      | _, _ => Some (UErr ExprUnificationFailed)
      end
  end.
(** unify.rs:1231-1235 [unify_exprs]. *)
Definition unify_exprs (n : nat) (e1 e2 : pexpr) (c : nat) : option (ures (subst * nat)) := unify_expr n e1 e2 ∅ c.

(** unify.rs:1935-1943 [term_mentions_any]. *)
Fixpoint mentions_any (t : pterm) (names : list string) : bool :=
  match t with
  | PVar x | PBound x => existsb (String.eqb x) names
  | PConst _ => false
  | PFun _ l | PGroup l => existsb (fun a => mentions_any a names) l
  end.
(** unify.rs:1919-1933 [match_bind]; [None] is [false]. *)
Definition match_bind (s : subst) (bound : list string) (x : string) (v : pterm) : option subst :=
  match s !! x with
  | Some e => if pterm_eqb e v then Some s else None
  | None => if mentions_any v bound then None else Some (<[x := v]> s)
  end.
(** unify.rs:1945-1985 [match_term_into]; a failed match leaves a partly filled substitution in the
    code, which no caller looks at. *)
Fixpoint match_into (bound : list string) (p t : pterm) (s : subst) : option subst :=
  match p with
  | PVar x =>
      if existsb (String.eqb x) bound then match t with PVar y => if String.eqb y x then Some s else None | _ => None end
      else match_bind s bound x t
  | PConst a => match t with PConst b => if String.eqb a b then Some s else None | _ => None end
  | PBound a => match t with PBound b => if String.eqb a b then Some s else None | _ => None end
  | PFun f l =>
      match t with
      | PFun g m =>
          if String.eqb f g && Nat.eqb (length l) (length m) then
            (fix go l m s := match l, m with
                             | a :: l, b :: m => match match_into bound a b s with Some s => go l m s | None => None end
                             | _, _ => Some s
                             end) l m s
          else None
      | _ => None
      end
  | PGroup l =>
      match t with
      | PGroup m =>
          if Nat.eqb (length l) (length m) then
            (fix go l m s := match l, m with
                             | a :: l, b :: m => match match_into bound a b s with Some s => go l m s | None => None end
                             | _, _ => Some s
                             end) l m s
          else None
      | _ => None
      end
  end.
(** unify.rs:1892-1900 [match_term_pattern]. *)
Definition match_term_pattern (p t : pterm) : option subst := match_into [] p t ∅.
(** unify.rs:1987-2035 [match_expr_into]. *)
Fixpoint match_expr_into (bound : list string) (p t : pexpr) (s : subst) : option subst :=
  match p, t with
  | EPred f l w, EPred g m v =>
      if String.eqb f g && Nat.eqb (length l) (length m) && world_eqb w v
      then match_into bound (PGroup l) (PGroup m) s else None
  | EIdent a b, EIdent c d => match match_into bound a c s with Some s => match_into bound b d s | None => None end
  | EAtom a, EAtom b => if String.eqb a b then Some s else None
  | EBin o a b, EBin o' a' b' =>
      if conn_eqb o o' then
        match match_expr_into bound a a' s with Some s => match_expr_into bound b b' s | None => None end
      else if pexpr_eqb p t then Some s else None
  | ENot a, ENot b => match_expr_into bound a b s
  | EQuant q x a, EQuant r y b =>
      if quant_eqb q r then if String.eqb x y then match_expr_into (x :: bound) a b s else None
      else if pexpr_eqb p t then Some s else None
  | _, _ => if pexpr_eqb p t then Some s else None
  end.
(** unify.rs:1907-1915 [match_expr_pattern]. *)
Definition match_expr_pattern (p t : pexpr) : option subst := match_expr_into [] p t ∅.
