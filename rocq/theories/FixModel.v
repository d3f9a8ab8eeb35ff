(** Model of the guard condition on fixpoints in both kernels
    (crates/logicaffeine_kernel/src/termination.rs 22-487, recheck.rs 1009-1261) and of type
    inference for match and fix (type_checker.rs 51-446, 453-525, 584-600, 778-865,
    1309-1360, 1688-1722; reduction.rs 52-386), on the terms of [SubstModel] and the contexts
    of [PosModel]. Mutual fixpoints, matches on indexed families, literals and constants at
    levels are left out. *)
From Coq Require Import List Bool Arith.
From stdpp Require Import base decidable list strings gmap.
From Verif Require Import SubstModel InferModel PosModel.

Notation name := string.
(** term.rs: the closed universes. *)
Inductive univ := UProp | UType (n : nat).
Global Instance univ_dec : EqDecision univ. Proof. solve_decision. Defined.
Definition usucc (u : univ) : univ := match u with UProp => UType 1 | UType n => UType (S n) end.
Definition umax (u v : univ) : univ := match u, v with UProp, w | w, UProp => w | UType a, UType b => UType (max a b) end.
Definition uimax (u v : univ) : univ := match v with UProp => UProp | _ => umax u v end.
Definition uleq (u v : univ) : bool := match u, v with UProp, _ => true | UType a, UType b => a <=? b | UType _, UProp => false end.

Notation leaf := (InferModel.leaf univ).
Notation term := (SubstModel.term leaf).
Notation context := (PosModel.context univ).
Notation V x := (TVar _ x).
Notation G g := (TLeaf _ (LGlobal _ g)).
Notation sort u := (TLeaf _ (LSort _ u)).
Notation app f a := (TNode _ NApp [f; a]).
Notation matches d m cs := (TNode _ NMatch (d :: m :: cs)).
Notation lam x A b := (TBind _ BLambda [A] x b).
Notation pi x A B := (TBind _ BPi [A] x B).
Notation fixp f b := (TBind _ BFix [] f b).

(** context.rs [is_inductive]; termination.rs 168-174 and the same function of type_checker.rs. *)
Definition is_inductive (c : context) (g : name) : bool := match inductives _ c !! g with Some _ => true | None => false end.
Fixpoint inductive_name (c : context) (t : term) : option name :=
  match t with
  | G g => if is_inductive c g then Some g else None
  | app f _ => inductive_name c f
  | _ => None
  end.

(** ** The guard of the first kernel *)
(** termination.rs 22-44, for one fixpoint and the position of its structural argument; sets are lists. *)
Record gctx := Guard { g_fix : name; g_pos : nat; g_struct : name; g_type : name; g_smaller : list name; g_live : bool; g_shadowed : list name }.
Definition mem (x : name) (l : list name) : bool := existsb (String.eqb x) l.
(** 184-201. *)
Definition enter (g : gctx) (x : name) : gctx :=
  Guard (g_fix g) (g_pos g) (g_struct g) (g_type g) (List.filter (fun y => negb (String.eqb x y)) (g_smaller g))
    (if String.eqb x (g_struct g) then false else g_live g)
    (if String.eqb x (g_fix g) then x :: g_shadowed g else g_shadowed g).
(** 443-454: a name bound by a case. *)
Definition mark (g : gctx) (x : name) : gctx :=
  Guard (g_fix g) (g_pos g) (g_struct g) (g_type g) (x :: g_smaller g)
    (if String.eqb x (g_struct g) then false else g_live g)
    (if String.eqb x (g_fix g) then x :: g_shadowed g else g_shadowed g).
(** 378-400 [verify_structural_arg_smaller]. *)
Fixpoint verify (g : gctx) (t : term) : bool :=
  match t with V x => mem x (g_smaller g) | app f _ => verify g f | _ => false end.
Definition is_rec (g : gctx) (x : name) : bool := String.eqb x (g_fix g) && negb (mem x (g_shadowed g)).
(** 204-351 [check_guarded] and 403-461 [check_match_cases_guarded]. The code peels the
    arguments of an application to reach its head; here [st] remembers, for the arguments
    already peeled, whether each is smaller, so a recursive name is refused exactly when it
    is not applied to a smaller argument at its position. [k] is the number of leading
    lambdas of a case that [extract_lambda_params] (472-487) still has to take, whose types
    nobody looks at. *)
Fixpoint check (c : context) (g : gctx) (st : list bool) (k : nat) (t : term) {struct t} : bool :=
  match t with
  | app f a => check c g [] 0 a && check c g (verify g a :: st) 0 f
  | TNode _ NMatch (d :: m :: cases) =>
      check c g [] 0 m &&
      (if match d with V x => g_live g && String.eqb x (g_struct g) | _ => false end then
         (fix go (cs : list term) (ks : list (name * term)) : bool :=
            match cs, ks with
            | t :: cs, (_, ty) :: ks => check c g [] (count_pis _ ty) t && go cs ks
            | _, _ => true
            end) cases (get_constructors _ c (g_type g))
       else check c g [] 0 d && (fix go (cs : list term) : bool := match cs with [] => true | t :: cs => check c g [] 0 t && go cs end) cases)
  | TBind _ BLambda [A] x b =>
      match k with
      | S k => check c (mark g x) [] k b
      | O => check c g [] 0 A && check c (enter g x) [] 0 b
      end
  | TBind _ BPi [A] x b => check c g [] 0 A && check c (enter g x) [] 0 b
  | TBind _ BFix [] x b => check c (enter g x) [] 0 b
  | TBind _ BLet [A; v] x b => check c g [] 0 A && check c g [] 0 v && check c (enter g x) [] 0 b
  | V x => if is_rec g x then match st !! g_pos g with Some b => b | None => false end else true
  | _ => true
  end.
(** 120-163 [extract_structural_param]: the binders of the telescope and the term below it. *)
Fixpoint telescope (t : term) : list (name * term) * term :=
  match t with lam x A b => let '(l, r) := telescope b in ((x, A) :: l, r) | _ => ([], t) end.
Fixpoint index {A} (p : A -> bool) (l : list A) : option nat := match l with [] => None | a :: l => if p a then Some 0 else S <$> index p l end.
Fixpoint skip_lams (k : nat) (t : term) : term := match k, t with S k, lam _ _ b => skip_lams k b | _, _ => t end.
Definition is_some {A} (o : option A) : bool := match o with Some _ => true | None => false end.
Definition struct_pos (c : context) (chain : list (name * term)) (inner : term) : option nat :=
  let scrutinee := match inner with matches (V d) _ _ => index (fun '(x, _) => String.eqb x d) chain | _ => None end in
  let inductive p := match chain !! p with Some (_, A) => is_some (inductive_name c A) | None => false end in
  let first := index (fun '(_, A) => is_some (inductive_name c A)) chain in
  match scrutinee with Some p => if inductive p then Some p else first | None => first end.
Definition structural_param (c : context) (body : term) : option (name * name * nat * term) :=
  let '(chain, inner) := telescope body in
  p ← struct_pos c chain inner;
  '(x, A) ← chain !! p;
  i ← inductive_name c A; Some (x, i, p, skip_lams (S p) body).
(** 49-67 [check_termination]. *)
Definition check_termination (c : context) (f : name) (body : term) : bool :=
  match structural_param c body with
  | None => false
  | Some (x, i, p, inner) => check c (Guard f p x i [] true []) [] 0 inner
  end.

(** ** Reduction *)
(** Derived equality of terms. *)
Definition leaf_dec (a b : leaf) : bool :=
  match a, b with LSort _ u, LSort _ v => bool_decide (u = v) | LGlobal _ g, LGlobal _ h => String.eqb g h | _, _ => false end.
Fixpoint term_eqb (a b : term) : bool :=
  match a, b with
  | TVar _ x, TVar _ y => String.eqb x y
  | TLeaf _ l, TLeaf _ m => leaf_dec l m
  | THole _, THole _ => true
  | TNode _ k ts, TNode _ j us => bool_decide (k = j) && (fix go ts us := match ts, us with [], [] => true | t :: ts, u :: us => term_eqb t u && go ts us | _, _ => false end) ts us
  | TBind _ k ts x b, TBind _ j us y b' =>
      bool_decide (k = j) && String.eqb x y && (fix go ts us := match ts, us with [], [] => true | t :: ts, u :: us => term_eqb t u && go ts us | _, _ => false end) ts us && term_eqb b b'
  | _, _ => false
  end.
(** reduction.rs 392-405 [count_type_params]; 329-386 [extract_constructor], without literals. *)
Fixpoint count_type_params (t : term) : nat := match t with pi _ (sort _) B => S (count_type_params B) | _ => 0 end.
Fixpoint spine (t : term) (acc : list term) : term * list term := match t with app f a => spine f (a :: acc) | _ => (t, acc) end.
Definition extract_constructor (c : context) (t : term) : option (nat * list term) :=
  let '(head, args) := spine t [] in
  match head with
  | G k =>
      '(i, ty) ← constructors _ c !! k;
      idx ← index (fun '(k', _) => String.eqb k k') (get_constructors _ c i);
      Some (idx, drop (default (count_type_params ty) (declared_params _ c !! i)) args)
  | _ => None
  end.
(** reduction.rs 75-316 [reduce_step], without primitives, reflection, native evaluation,
    quotients and mutual fixpoints; [n] bounds the depth, and a substitution that runs out of
    depth leaves the term. *)
Definition subst (n : nat) (b : term) (x : name) (r : term) : term := default b (substitute leaf n b x r).
Fixpoint reduce_step (n : nat) (c : context) (t : term) : term :=
  match n with O => t | S n =>
    match t with
    | app f a =>
        match f with
        | lam x _ b => subst n b x a
        | fixp h b =>
            if is_some (extract_constructor c a) then app (subst n b h (fixp h b)) a else app f (reduce_step n c a)
        | _ => let f' := reduce_step n c f in if term_eqb f' f then app f (reduce_step n c a) else app f' a
        end
    | TNode _ NMatch (d :: m :: cases) =>
        match extract_constructor c d with
        | Some (i, args) => match cases !! i with Some k => reduce_step n c (fold_left (fun f a => app f a) args k) | None => t end
        | None => matches (reduce_step n c d) m cases
        end
    | lam x A b => lam x (reduce_step n c A) (reduce_step n c b)
    | pi x A B => pi x (reduce_step n c A) (reduce_step n c B)
    | fixp h b => fixp h (reduce_step n c b)
    | TBind _ BLet [_; v] x b => subst n b x v
    | G g => match definitions _ c !! g with Some (_, b) => b | None => t end
    | _ => t
    end
  end.
(** 52-72 [normalize]; [n] bounds the rounds and the depth of each. *)
Fixpoint normal_rounds (rounds n : nat) (c : context) (t : term) : term :=
  match rounds with O => t | S rounds => let t' := reduce_step n c t in if term_eqb t' t then t else normal_rounds rounds n c t' end.
Definition normalize (n : nat) (c : context) (t : term) : term := normal_rounds n n c t.

(** ** Inference *)
Definition lookup (L : list (name * term)) (x : name) : option term := InferModel.lookup univ L x.
Definition as_sort (t : term) : option univ := match t with sort u => Some u | _ => None end.
Definition as_pi (t : term) : option (name * term * term) := match t with pi x A B => Some (x, A, B) | _ => None end.
Definition equal (n : nat) (a b : term) : bool := default false (types_equal leaf (leaf_eq univ (fun u v => bool_decide (u = v))) n a b).
(** type_checker.rs 1330-1360 on normal forms; eta, proof irrelevance and structures, by which the
    code equates more, are left out. *)
Fixpoint subtype_normal (n : nat) (a b : term) : bool :=
  match n with O => false | S n =>
    match a, b with
    | sort u, sort v => uleq u v
    | pi x A B, pi y A' B' => subtype_normal n A' A && subtype_normal n B (subst n B' y (V x))
    | _, _ => equal n a b
    end
  end.
(** 1309-1323. *)
Definition is_subtype (n : nat) (c : context) (a b : term) : bool := equal n a b || subtype_normal n (normalize n c a) (normalize n c b).
(** 584-600 [beta_reduce], 857-866 [extract_type_args]. *)
Definition beta (n : nat) (t : term) : term := match t with app (lam x _ b) a => subst n b x a | _ => t end.
Definition type_args (t : term) : list term := snd (spine t []).
(** 778-849 [compute_case_type]; the names given to the value arguments. *)
Definition arg_name (i : nat) : name := "__arg" +:+ pretty.pretty i.
Fixpoint ctor_params (t : term) : list (name * term) := match t with pi x A B => (x, A) :: ctor_params B | _ => [] end.
Definition case_type (n : nat) (motive : term) (k : name) (ty disc_type : term) : term :=
  let targs := type_args disc_type in
  let params := ctor_params ty in
  let tparams := take (length targs) params in
  let values := imap (fun i '(x, A) => (x, arg_name i, A)) (drop (length targs) params) in
  let applied := fold_left (fun f a => app f a) (targs ++ map (fun '(_, y, _) => V y) values) (G k) in
  let close i A :=
    let A := fold_left (fun A '((x, _), a) => subst n A x a) (combine tparams targs) A in
    beta n (fold_left (fun A '(x, y, _) => subst n A x (V y)) (take i values) A) in
  foldr (fun '(i, (_, y, A)) B => pi y (close i A) B) (beta n (app motive applied)) (combine (seq 0 (length values)) values).
Definition is_prop (t : term) : bool := match t with sort UProp => true | _ => false end.
Definition ensure (b : bool) : option unit := if b then Some () else None.

(** 51-378 [infer_type], 388-446 [infer_fix_type_structurally], 453-514 [check_type];
    [None] stands for an error and for the forms left out, and [n] bounds the depth. *)
Fixpoint infer (n : nat) (c : context) (L : list (name * term)) (t : term) : option term :=
  match n with O => None | S n =>
    match t with
    | sort u => Some (sort (usucc u))
    | V x => lookup L x
    | G g => get_global _ c g
    | pi x A B => a ← infer n c L A; u ← as_sort a; b ← infer n c ((x, A) :: L) B; v ← as_sort b; Some (sort (uimax u v))
    | lam x A b => a ← infer n c L A; _ ← as_sort a; B ← infer n c ((x, A) :: L) b; Some (pi x A B)
    | TBind _ BLet [A; v] x b => a ← infer n c L A; _ ← as_sort a; _ ← has_type n c L v A; infer n c L (subst n b x v)
    | app f a =>
        F ← infer n c L f;
        '(x, A, B) ← as_pi (match as_pi F with Some _ => F | None => normalize n c F end);
        _ ← has_type n c L a A; Some (subst n B x a)
    | TNode _ NMatch (d :: m :: cases) =>
        D ← infer n c L d;
        let D := normalize n c D in
        i ← inductive_name c D;
        let args := type_args D in
        _ ← ensure (length args <=? num_params _ c i);
        M ← infer n c L m;
        eff ← match M with
              | pi _ P B => _ ← ensure (equal n P D); b ← infer n c L B; _ ← as_sort b; Some m
              | sort _ => Some (lam "_" D m)
              | _ => None
              end;
        let ks := get_constructors _ c i in
        _ ← ensure (length cases =? length ks);
        _ ← (fix go (cs : list term) (ks : list (name * term)) : option unit :=
               match cs, ks with
               | t :: cs, (k, ty) :: ks => _ ← has_type n c L t (case_type n eff k ty D); go cs ks
               | _, _ => Some ()
               end) cases ks;
        let ret := beta n (app eff d) in
        K ← infer n c L D;
        if is_prop (normalize n c K) then
          R ← infer n c L ret;
          if is_prop (normalize n c R) then Some ret else s ← subsingleton n c i; if (s : bool) then Some ret else None
        else Some ret
    | fixp f body =>
        T ← fix_type n c L body;
        _ ← ensure (check_termination c f body);
        _ ← infer n c ((f, T) :: L) body; Some T
    | _ => None
    end
  end
with fix_type (n : nat) (c : context) (L : list (name * term)) (t : term) : option term :=
  match n with O => None | S n =>
    match t with
    | lam x A b => a ← infer n c L A; _ ← as_sort a; B ← fix_type n c ((x, A) :: L) b; Some (pi x A B)
    | TNode _ NMatch (d :: m :: _) =>
        match (M ← infer n c L m; as_sort (normalize n c M)) with
        | Some _ => Some (normalize n c m)
        | None =>
            let indices := match (D ← infer n c L d; let D := normalize n c D in i ← inductive_name c D; Some (drop (num_params _ c i) (type_args D))) with Some l => l | None => [] end in
            Some (normalize n c (app (fold_left (fun f a => app f a) indices m) d))
        end
    | _ => infer n c L t
    end
  end
with has_type (n : nat) (c : context) (L : list (name * term)) (t expected : term) : option unit :=
  match n with O => None | S n =>
    match t, expected with
    | THole _, sort _ => Some ()
    | THole _, _ => None
    | _, THole _ => _ ← infer n c L t; Some ()
    | lam x (G "_") b, pi y A B => has_type n c ((x, A) :: L) b (if String.eqb x y then B else subst n B y (V x))
    | _, _ => T ← infer n c L t; ensure (is_subtype n c T expected)
    end
  end
(** 1688-1722 [is_subsingleton_prop]. *)
with subsingleton (n : nat) (c : context) (i : name) : option bool :=
  match n with O => None | S n =>
    match get_constructors _ c i with
    | [] => Some true
    | [(_, ty)] =>
        I ← get_global _ c i;
        (fix go (arity : nat) (L : list (name * term)) (t : term) : option bool :=
           match t with
           | pi x A B =>
               match arity with
               | S arity => go arity ((x, A) :: L) B
               | O => a ← infer n c L A; u ← as_sort a; if is_prop (sort u) then go O ((x, A) :: L) B else Some false
               end
           | _ => Some true
           end) (count_pis _ I) [] ty
    | _ => Some false
    end
  end.

(** ** The guard of the second kernel *)
(** recheck.rs 28-60, the terms that the guard distinguishes. *)
Inductive db := DVar (k : nat) | DLeaf (l : leaf) | DApp (f a : db) | DMatch (d m : db) (cs : list db) | DLam (A b : db) | DPi (A b : db) | DFix (b : db) | DLet (A v b : db).
Fixpoint to_db (s : list name) (t : term) : option db :=
  match t with
  | V x => k ← index (String.eqb x) s; Some (DVar k)
  | TLeaf _ l => Some (DLeaf l)
  | app f a => f ← to_db s f; a ← to_db s a; Some (DApp f a)
  | TNode _ NMatch (d :: m :: cs) =>
      d ← to_db s d; m ← to_db s m;
      cs ← (fix go cs := match cs with [] => Some [] | t :: cs => t ← to_db s t; cs ← go cs; Some (t :: cs) end) cs; Some (DMatch d m cs)
  | TBind _ BLambda [A] x b => A ← to_db s A; b ← to_db (x :: s) b; Some (DLam A b)
  | TBind _ BPi [A] x b => A ← to_db s A; b ← to_db (x :: s) b; Some (DPi A b)
  | TBind _ BFix [] x b => b ← to_db (x :: s) b; Some (DFix b)
  | TBind _ BLet [A; v] x b => A ← to_db s A; v ← to_db s v; b ← to_db (x :: s) b; Some (DLet A v b)
  | _ => None
  end.
(** 1009-1011 [level_of]. *)
Definition level_of (depth k : nat) : option nat := if k <? depth then Some (depth - 1 - k) else None.
Fixpoint db_verify (depth : nat) (smaller : list nat) (t : db) : bool :=
  match t with DVar j => match level_of depth j with Some l => bool_decide (l ∈ smaller) | None => false end | DApp f _ => db_verify depth smaller f | _ => false end.
Definition is_level (depth k : nat) (l : nat) : bool := bool_decide (level_of depth k = Some l).
(** 1103-1226 [guard] and 1230-1261 [guard_match_cases], with [st] and [k] as above. *)
Fixpoint db_check (c : context) (fixl pos structl : nat) (i : name) (smaller : list nat) (depth : nat) (st : list bool) (k : nat) (t : db) {struct t} : bool :=
  match t with
  | DApp f a => db_check c fixl pos structl i smaller depth [] 0 a && db_check c fixl pos structl i smaller depth (db_verify depth smaller a :: st) 0 f
  | DMatch d m cases =>
      db_check c fixl pos structl i smaller depth [] 0 m &&
      (if match d with DVar x => is_level depth x structl | _ => false end then
         (fix go (cs : list db) (ks : list (name * term)) : bool :=
            match cs, ks with
            | t :: cs, (_, ty) :: ks => db_check c fixl pos structl i smaller depth [] (count_pis _ ty) t && go cs ks
            | t :: cs, [] => db_check c fixl pos structl i smaller depth [] 0 t && go cs []
            | [], _ => true
            end) cases (get_constructors _ c i)
       else db_check c fixl pos structl i smaller depth [] 0 d && (fix go (cs : list db) : bool := match cs with [] => true | t :: cs => db_check c fixl pos structl i smaller depth [] 0 t && go cs end) cases)
  | DLam A b =>
      match k with
      | S k => db_check c fixl pos structl i (depth :: smaller) (S depth) [] k b
      | O => db_check c fixl pos structl i smaller depth [] 0 A && db_check c fixl pos structl i smaller (S depth) [] 0 b
      end
  | DPi A b => db_check c fixl pos structl i smaller depth [] 0 A && db_check c fixl pos structl i smaller (S depth) [] 0 b
  | DFix b => db_check c fixl pos structl i smaller (S depth) [] 0 b
  | DLet A v b => db_check c fixl pos structl i smaller depth [] 0 A && db_check c fixl pos structl i smaller depth [] 0 v && db_check c fixl pos structl i smaller (S depth) [] 0 b
  | DVar x => if is_level depth x fixl then match st !! pos with Some b => b | None => false end else true
  | DLeaf _ => true
  end.
(** 1025-1068 [locate_struct] and [check_terminates]; the domains are taken to be in weak head normal form. *)
Fixpoint db_inductive (c : context) (t : db) : option name :=
  match t with DLeaf (LGlobal _ g) => if is_inductive c g then Some g else None | DApp f _ => db_inductive c f | _ => None end.
Fixpoint db_telescope (t : db) : list db * db := match t with DLam A b => let '(l, r) := db_telescope b in (A :: l, r) | _ => ([], t) end.
Fixpoint db_skip (k : nat) (t : db) : db := match k, t with S k, DLam _ b => db_skip k b | _, _ => t end.
Definition db_struct_pos (c : context) (base : nat) (chain : list db) (inner : db) : option nat :=
  let scrutinee := match inner with DMatch (DVar k) _ _ =>
      match level_of (base + length chain) k with Some l => if base <=? l then Some (l - base) else None | None => None end | _ => None end in
  let inductive p := match chain !! p with Some A => is_some (db_inductive c A) | None => false end in
  let first := index (fun A => is_some (db_inductive c A)) chain in
  match scrutinee with Some p => if inductive p then Some p else first | None => first end.
Definition db_check_terminates (c : context) (fixl : nat) (body : db) : bool :=
  let '(chain, inner) := db_telescope body in
  match (p ← db_struct_pos c (S fixl) chain inner; A ← chain !! p; i ← db_inductive c A; Some (i, p)) with
  | Some (i, p) => db_check c fixl p (S fixl + p) i [] (S fixl + p + 1) [] 0 (db_skip (S p) body)
  | None => false
  end.
