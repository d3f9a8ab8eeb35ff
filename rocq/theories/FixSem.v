(** What a fixpoint body does when it runs: a big-step, call-by-value reading of the terms, in which
    the occurrences of the recursive name that belong to one activation are marked and every call
    made through them is recorded. This is a specification, not code of the repository: it follows
    reduction.rs 123-224 (beta, unfolding of a fixpoint, selection of a case by the index of the
    constructor, dropping of parameters) with environments in place of substitution. *)
From Coq Require Import List Bool Arith.
From stdpp Require Import base decidable list strings gmap.
From Verif Require Import SubstModel InferModel PosModel FixModel.

(** Constructors (and other globals) with their arguments, functions, inner fixpoints, types, and the
    marked recursive name with the arguments it has so far. *)
Inductive value :=
| VData (k : name) (vs : list value)
| VClo (env : list (name * value)) (x : name) (b : term)
| VFix (env : list (name * value)) (h : name) (b : term)
| VRec (vs : list value)
| VJunk.
Notation env := (list (name * value)).
Fixpoint get (e : env) (x : name) : option value := match e with [] => None | (y, v) :: e => if String.eqb x y then Some v else get e x end.
(** The parameters of a constructor, which its cases do not take, and all its arguments. *)
Definition params (c : context) (k : name) : nat := match constructors _ c !! k with Some (i, ty) => default (count_type_params ty) (declared_params _ c !! i) | None => 0 end.
Definition arity (c : context) (k : name) : nat := match constructors _ c !! k with Some (_, ty) => count_pis _ ty | None => 0 end.
Definition choose (c : context) (k : name) (cases : list term) : option term :=
  '(i, _) ← constructors _ c !! k; j ← index (fun '(k', _) => String.eqb k k') (get_constructors _ c i); cases !! j.
(** No mark anywhere. *)
Inductive unmarked : value -> Prop :=
| u_data k vs : Forall unmarked vs -> unmarked (VData k vs)
| u_clo e x b : Forall (fun p => unmarked (snd p)) e -> unmarked (VClo e x b)
| u_fix e h b : Forall (fun p => unmarked (snd p)) e -> unmarked (VFix e h b)
| u_junk : unmarked VJunk.

Section Sem.
Context (c : context) (pos : nat) (glob : leaf -> value) (result : list value -> value -> Prop).
(** [ev e t v q]: [t] has value [v], and [q] are the arguments at position [pos] of the calls made
    through the marked name. Such a call may have any value that [result] allows. *)
Inductive ev : env -> term -> value -> list value -> Prop :=
| ev_var e x v : get e x = Some v -> ev e (TVar _ x) v []
| ev_leaf e l : ev e (TLeaf _ l) (glob l) []
| ev_hole e : ev e (THole _) VJunk []
| ev_pi e x A B : ev e (TBind _ BPi [A] x B) VJunk []
| ev_lam e x A b : ev e (TBind _ BLambda [A] x b) (VClo e x b) []
| ev_fix e h b : ev e (TBind _ BFix [] h b) (VFix e h b) []
| ev_let e x A t b w v q q' : ev e t w q -> ev ((x, w) :: e) b v q' -> ev e (TBind _ BLet [A; t] x b) v (q ++ q')
| ev_app e t u f a v q q' q'' : ev e t f q -> ev e u a q' -> ap f a v q'' -> ev e (TNode _ NApp [t; u]) v (q ++ q' ++ q'')
| ev_match e d m cases k vs t f v q q' q'' :
    ev e d (VData k vs) q -> choose c k cases = Some t -> ev e t f q' -> aps f (drop (params c k) vs) v q'' ->
    ev e (TNode _ NMatch (d :: m :: cases)) v (q ++ q' ++ q'')
with ap : value -> value -> value -> list value -> Prop :=
| ap_data k vs a : length vs < arity c k -> ap (VData k vs) a (VData k (vs ++ [a])) []
| ap_clo e x b a v q : ev ((x, a) :: e) b v q -> ap (VClo e x b) a v q
| ap_fix e h b f a v q q' : ev ((h, VFix e h b) :: e) b f q -> ap f a v q' -> ap (VFix e h b) a v (q ++ q')
| ap_more vs a : length vs < pos -> ap (VRec vs) a (VRec (vs ++ [a])) []
| ap_call vs a v : length vs = pos -> result (vs ++ [a]) v -> ap (VRec vs) a v [a]
with aps : value -> list value -> value -> list value -> Prop :=
| aps_nil v : aps v [] v []
| aps_cons f a l g v q q' : ap f a g q -> aps g l v q' -> aps f (a :: l) v (q ++ q').
Scheme ev_mind := Induction for ev Sort Prop
  with ap_mind := Induction for ap Sort Prop
  with aps_mind := Induction for aps Sort Prop.
Combined Scheme sem_ind from ev_mind, ap_mind, aps_mind.

(** What can be got out of [v]: its fields, and what these return when they are applied. *)
Inductive part (v : value) : value -> Prop :=
| part_field k vs w : v = VData k vs -> In w vs -> part v w
| part_result w a r q : part v w -> ap w a r q -> part v r.
End Sem.

(** First-order data: every constructor has all its arguments. *)
Inductive data (c : context) : value -> Prop :=
| d_data k vs : length vs = arity c k -> Forall (data c) vs -> data c (VData k vs).
Fixpoint size (v : value) : nat := match v with VData _ vs => S ((fix go vs := match vs with [] => 0 | w :: vs => size w + go vs end) vs) | _ => 1 end.
(** The environment in which the body runs, for the first parameters and the values given for them. *)
Fixpoint bind (l : list (name * term)) (vs : list value) (e : env) : env :=
  match l, vs with (x, _) :: l, v :: vs => bind l vs ((x, v) :: e) | _, _ => e end.
