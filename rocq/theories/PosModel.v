(** Model of the strict positivity check (crates/logicaffeine_kernel/src/positivity.rs 32-234), of the universe check of constructors (type_checker.rs 519-582)
    and of the registration of inductives and constructors (context.rs 245-255, 366-430, 449-464, 500-514, 545-612, repl.rs 89-117). *)
From Coq Require Import List Bool.
From stdpp Require Import base decidable list strings gmap.
From Verif Require Import SubstModel InferModel.

Section Model.
Notation name := string.
Variable univ : Type.
Notation term := (SubstModel.term (leaf univ)).
Notation app f a := (TNode (leaf univ) NApp [f; a]).

(** positivity.rs 208-234 occurs_in, as in the terms of SubstModel: the parts of a node, and the outer parts and the body of a binder. The types of a MutualFix and constants at levels are left out. *)
Fixpoint occurs_in (block : list name) (t : term) : bool :=
  match t with
  | TVar _ _ | THole _ => false
  | TLeaf _ (LGlobal _ g) => bool_decide (g ∈ block)
  | TLeaf _ (LSort _ _) => false
  | TNode _ _ ts => (fix go ts := match ts with [] => false | t :: ts => occurs_in block t || go ts end) ts
  | TBind _ _ ts _ body => (fix go ts := match ts with [] => false | t :: ts => occurs_in block t || go ts end) ts || occurs_in block body
  end.
(** 193-205. *)
Fixpoint unwind (head : term) (args : list term) : term * list term :=
  match head with TNode _ NApp [f; a] => unwind f (args ++ [a]) | _ => (head, args) end.
Fixpoint is_recursive_arg (block : list name) (t : term) : bool :=
  match t with
  | TBind _ BPi ts _ B => forallb (fun A => negb (occurs_in block A)) ts && is_recursive_arg block B
  | _ => let '(head, args) := unwind t [] in
         match head with TLeaf _ (LGlobal _ g) => bool_decide (g ∈ block) && forallb (fun a => negb (occurs_in block a)) args | _ => false end
  end.
(** 55-174; [false] is a violation. A fixpoint has no outer parts. *)
Fixpoint strictly_positive (block : list name) (t : term) : bool :=
  match t with
  | TVar _ _ | TLeaf _ _ | THole _ => true
  | TNode _ _ ts => (fix go ts := match ts with [] => true | t :: ts => strictly_positive block t && go ts end) ts
  | TBind _ (BPi | BLambda) ts _ body => forallb (fun A => is_recursive_arg block A || negb (occurs_in block A)) ts && strictly_positive block body
  | TBind _ BFix ts _ body => (fix go ts := match ts with [] => true | t :: ts => strictly_positive block t && go ts end) ts && strictly_positive block body
  | TBind _ BLet ts _ body => forallb (fun A => negb (occurs_in block A)) ts && strictly_positive block body
  end.

(** ** The context *)
(** context.rs: the types of inductives, their declared numbers of parameters, constructors with their inductives and types, the order of constructors, definitions, and declarations. *)
Record context := Context { inductives : gmap name term; declared_params : gmap name nat; constructors : gmap name (name * term); order : gmap name (list name);
  definitions : gmap name (term * term); declarations : gmap name term }.
(** 253-255. *)
Definition add_inductive (c : context) (i : name) (s : term) : context := Context (<[i := s]> (inductives c)) (declared_params c) (constructors c) (order c) (definitions c) (declarations c).
(** 369-377. *)
Definition add_indexed_inductive (c : context) (i : name) (s : term) (k : nat) : context :=
  Context (<[i := s]> (inductives c)) (<[i := k]> (declared_params c)) (constructors c) (order c) (definitions c) (declarations c).
(** 419-430. *)
Definition add_constructor (c : context) (k i : name) (t : term) : context :=
  Context (inductives c) (declared_params c) (<[k := (i, t)]> (constructors c)) (<[i := default [] (order c !! i) ++ [k]]> (order c)) (definitions c) (declarations c).
(** 449-464. *)
Definition get_global (c : context) (g : name) : option term :=
  match inductives c !! g with Some s => Some s | None =>
  match constructors c !! g with Some (_, t) => Some t | None =>
  match definitions c !! g with Some (t, _) => Some t | None => declarations c !! g end end end.
(** 500-514. *)
Definition get_constructors (c : context) (i : name) : list (name * term) := omap (fun k => match constructors c !! k with Some (_, t) => Some (k, t) | None => None end) (default [] (order c !! i)).
(** 382-407. *)
Fixpoint count_pis (t : term) : nat := match t with TBind _ BPi _ _ B => S (count_pis B) | _ => 0 end.
Definition num_params (c : context) (i : name) : nat := default (match inductives c !! i with Some s => count_pis s | None => 0 end) (declared_params c !! i).
(** type_checker.rs 528-537. *)
Fixpoint result_sort (t : term) : option univ := match t with TBind _ BPi _ _ B => result_sort B | TLeaf _ (LSort _ u) => Some u | _ => None end.
(** 519-525 infer_sort under the local bindings given, [is_subtype_of] and Prop. *)
Variable infer_sort : context -> list (name * term) -> term -> option univ.
Variable sub : univ -> univ -> bool.
Variable is_prop : univ -> bool.
(** 545-582. *)
Fixpoint fields_fit (c : context) (target : univ) (skip : nat) (G : list (name * term)) (t : term) : bool :=
  match t with
  | TBind _ BPi [A] x B =>
      match skip with
      | S skip => fields_fit c target skip ((x, A) :: G) B
      | O => match infer_sort c G A with None => false | Some s => sub s target && fields_fit c target 0 ((x, A) :: G) B end
      end
  | _ => true
  end.
Definition check_universes (c : context) (i : name) (t : term) : bool :=
  match get_global c i with
  | None => true
  | Some s => match result_sort s with None => true | Some u => if is_prop u then true else fields_fit c u (num_params c i) [] t end
  end.
(** 545-560; [None] is an error. *)
Definition add_constructor_checked (c : context) (k i : name) (t : term) : option context :=
  if strictly_positive [i] t && check_universes c i t then Some (add_constructor c k i t) else None.
(** context.rs 570-612. The record of block membership is left out. *)
Record member := Member { m_name : name; m_sort : term; m_params : nat; m_ctors : list (name * term) }.
Definition headers (c : context) (block : list member) : context := fold_left (fun c m => add_indexed_inductive c (m_name m) (m_sort m) (m_params m)) block c.
Definition add_mutual_inductives (c : context) (block : list member) : option context :=
  let names := map m_name block in
  let temp := headers c block in
  if forallb (fun m => forallb (fun kt => strictly_positive names (snd kt)) (m_ctors m)) block &&
     forallb (fun m => forallb (fun kt => check_universes temp (m_name m) (snd kt)) (m_ctors m)) block
  then Some (fold_left (fun c m => fold_left (fun c kt => add_constructor c (fst kt) (m_name m) (snd kt)) (m_ctors m) c) block temp)
  else None.
(** repl.rs 89-117, the Inductive command. The recursor is left out, and so is the prefix of parameters, which the caller is to put in front of the sort and of the types.
    When a constructor is refused the inductive and the constructors before it stay: the context is returned in any case. *)
Fixpoint add_all (c : context) (i : name) (ks : list (name * term)) : context * bool :=
  match ks with
  | [] => (c, true)
  | (k, t) :: ks => match add_constructor_checked c k i t with None => (c, false) | Some c => add_all c i ks end
  end.
Definition inductive_command (c : context) (i : name) (s : term) (ks : list (name * term)) : context * bool := add_all (add_inductive c i s) i ks.
End Model.
