(** Model of [crates/logicaffeine_proof/src/discrimination.rs]: the discrimination tree that indexes
    rewrite rules and lemmas. *)
From Coq Require Import String List Arith Bool.
From stdpp Require Import base strings list.
From Verif Require Import UnifyModel.
Local Open Scope string_scope.
Local Open Scope list_scope.

(** discrimination.rs:32-39 [Key]. *)
Inductive key := KSym (s : string) (arity : nat) | KStar.
Global Instance key_eq_dec : EqDecision key.
Proof. solve_decision. Defined.
(** The children in the order in which their keys were first inserted. The code keeps them in a
    [BTreeMap], in key order; this only changes the order of the candidates, which is not modelled. *)
(** discrimination.rs:41-45 [Node]. *)
Inductive node (A : Type) := Node (children : list (key * node A)) (values : list A).
Global Arguments Node {A} children values.
Definition empty_node {A} : node A := Node [] [].
Definition arity (k : key) : nat := match k with KSym _ n => n | KStar => 0 end.

(** discrimination.rs:190-208 [flatten_term]. *)
Fixpoint flatten_term (t : pterm) : list key :=
  match t with
  | PVar _ => [KStar]
  | PConst s => [KSym ("c:" +:+ s) 0]
  | PBound s => [KSym ("b:" +:+ s) 0]
  | PFun f l => KSym ("f:" +:+ f) (length l) :: flat_map flatten_term l
  | PGroup l => KSym "(,)" (length l) :: flat_map flatten_term l
  end.
(** discrimination.rs:210-252 [flatten_expr]. *)
Definition conn_key (c : conn) : string := match c with CAnd => "∧" | COr => "∨" | CImplies => "→" | CIff => "↔" end.
Fixpoint flatten_expr (e : pexpr) : list key :=
  match e with
  | EPred p l _ => KSym ("p:" +:+ p) (length l) :: flat_map flatten_term l
  | EIdent a b => KSym "=" 2 :: flatten_term a ++ flatten_term b
  | EAtom s => [KSym ("a:" +:+ s) 0]
  | EBin c a b => KSym (conn_key c) 2 :: flatten_expr a ++ flatten_expr b
  | ENot a => KSym "¬" 1 :: flatten_expr a
  | EQuant _ _ _ | ETemp _ _ | ETemp2 _ _ _ | EOther _ => [KStar]
  end.

(** discrimination.rs:102-108 [insert_keys]: [entry(key).or_default()] along the keys. *)
Fixpoint at_key {A} (k : key) (f : node A -> node A) (ch : list (key * node A)) : list (key * node A) :=
  match ch with
  | [] => [(k, f empty_node)]
  | (k', c) :: ch => if decide (k = k') then (k', f c) :: ch else (k', c) :: at_key k f ch
  end.
Fixpoint insert_keys {A} (ks : list key) (v : A) (n : node A) : node A :=
  match n, ks with
  | Node ch vals, [] => Node ch (vals ++ [v])
  | Node ch vals, k :: ks => Node (at_key k (insert_keys ks v) ch) vals
  end.
Fixpoint get {A} (k : key) (ch : list (key * A)) : option A :=
  match ch with [] => None | (k', c) :: ch => if decide (k = k') then Some c else get k ch end.

(** discrimination.rs:125-138 [fill_jumps], with a bound on the depth of recursion; [None] is also an
    index out of range. *)
Fixpoint fill_jumps (n : nat) (keys : list key) (i : nat) (jump : list nat) : option (nat * list nat) :=
  match n with
  | O => None
  | S n =>
      match nth_error keys i with
      | None => None
      | Some k =>
          match (fix loop (m j : nat) (jump : list nat) : option (nat * list nat) :=
                   match m with
                   | O => Some (j, jump)
                   | S m => match fill_jumps n keys j jump with Some (j, jump) => loop m j jump | None => None end
                   end) (arity k) (S i) jump with
          | Some (e, jump) => Some (e, <[i := e]> jump)
          | None => None
          end
      end
  end.
(** discrimination.rs:119-123 [subterm_jumps]. *)
Definition subterm_jumps (n : nat) (keys : list key) : option (list nat) :=
  match fill_jumps n keys 0 (replicate (length keys) 0) with Some (_, jump) => Some jump | None => None end.
(** discrimination.rs:175-188 [skip_pattern_subterm]. *)
Fixpoint skip_subterm {A} (n : node A) (pending : nat) : list (node A) :=
  match n with
  | Node ch _ =>
      match pending with
      | O => [n]
      | S p => flat_map (fun kc => skip_subterm (snd kc) (p + arity (fst kc))) ch
      end
  end.
Definition oapp {A} (a b : option (list A)) : option (list A) :=
  match a, b with Some a, Some b => Some (a ++ b) | _, _ => None end.
(** discrimination.rs:140-172 [retrieve], with a bound on the depth of recursion. *)
Fixpoint retrieve {A} (n : nat) (nd : node A) (keys : list key) (jump : list nat) (i : nat) : option (list A) :=
  match n with
  | O => None
  | S n =>
      match nd with
      | Node ch vals =>
          if Nat.eqb i (length keys) then Some vals
          else match nth_error keys i with
               | None => None
               | Some (KSym s a) =>
                   oapp (match get (KSym s a) ch with Some c => retrieve n c keys jump (S i) | None => Some [] end)
                     (match get KStar ch with
                      | Some c => match nth_error jump i with Some j => retrieve n c keys jump j | None => None end
                      | None => Some []
                      end)
               | Some KStar =>
                   fold_right (fun landing r => oapp (retrieve n landing keys jump (S i)) r) (Some []) (skip_subterm nd 1)
               end
      end
  end.
(** discrimination.rs:110-115 [candidates_keys]. *)
Definition candidates_keys {A} (n : nat) (nd : node A) (keys : list key) : option (list A) :=
  match subterm_jumps n keys with Some jump => retrieve n nd keys jump 0 | None => None end.

(** discrimination.rs:73-100: the public functions. *)
Inductive pattern := PTerm (t : pterm) | PExpr (e : pexpr).
Definition flatten (p : pattern) : list key := match p with PTerm t => flatten_term t | PExpr e => flatten_expr e end.
Definition insert_pattern {A} (p : pattern) (v : A) (nd : node A) : node A := insert_keys (flatten p) v nd.
Definition candidates {A} (n : nat) (nd : node A) (q : pattern) : option (list A) := candidates_keys n nd (flatten q).
(** A tree built by inserting the patterns of a list, in order. *)
Definition build {A} (l : list (pattern * A)) : node A := fold_left (fun nd pv => insert_pattern (fst pv) (snd pv) nd) l empty_node.
