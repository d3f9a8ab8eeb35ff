(** Model of [crates/logicaffeine_kernel/src/cc.rs]: congruence closure. [usize] ids are [nat]
    (bounded by the vector lengths); outer [None]s are panics or, in [propagate], running out of
    the step bound (shown impossible). *)
From Coq Require Import ZArith String List Arith Lia.
From stdpp Require Import strings list.
From Verif Require Import UnionFindModel SynModel.
Local Open Scope nat_scope.
Local Open Scope string_scope.
Local Open Scope list_scope.

(** cc.rs:46-61 [ENode]. *)
Inductive enode := NLit (n : Z) | NVar (i : Z) | NName (s : string) | NApp (f a : nat).
Global Instance enode_eq_dec : EqDecision enode.
Proof. solve_decision. Defined.

(** cc.rs:67-79 [EGraph]. The hash map is an association list, newest entry first. [pending] is
    empty between calls, and is an argument of [propagate]. *)
Record egraph := EG { eg_nodes : list enode; eg_uf : uf; eg_map : list (enode * nat); eg_uses : list (list nat) }.
(** cc.rs:82-90 [new]. *)
Definition eg_new : egraph := EG [] uf_new [] [].
Fixpoint map_get (m : list (enode * nat)) (n : enode) : option nat :=
  match m with
  | [] => None
  | (k, i) :: m => if bool_decide (k = n) then Some i else map_get m n
  end.
(** [self.use_list[i].push(u)]. *)
Definition push_use (us : list (list nat)) (i u : nat) : option (list (list nat)) :=
  match us !! i with
  | Some l => Some (<[i := l ++ [u]]> us)
  | None => None
  end.
(** cc.rs:93-112 [add]. *)
Definition eg_add (g : egraph) (n : enode) : option (egraph * nat) :=
  match map_get (eg_map g) n with
  | Some id => Some (g, id)
  | None =>
      let id := length (eg_nodes g) in
      let us := eg_uses g ++ [[]] in
      let ous := match n with
                 | NApp f a => match push_use us f id with Some us => push_use us a id | None => None end
                 | _ => Some us
                 end in
      match ous with
      | Some us => Some (EG (eg_nodes g ++ [n]) (fst (uf_make_set (eg_uf g))) ((n, id) :: eg_map g) us, id)
      | None => None
      end
  end.
(** cc.rs:161-168 [congruent]. *)
Definition congruent (ns : list enode) (u : uf) (a b : nat) : option (uf * bool) :=
  match ns !! a, ns !! b with
  | Some (NApp f1 a1), Some (NApp f2 a2) =>
      match uf_find u f1 with
      | None => None
      | Some (u, r1) =>
          match uf_find u f2 with
          | None => None
          | Some (u, r2) =>
              if Nat.eqb r1 r2 then
                match uf_find u a1 with
                | None => None
                | Some (u, s1) =>
                    match uf_find u a2 with
                    | None => None
                    | Some (u, s2) => Some (u, Nat.eqb s1 s2)
                    end
                end
              else Some (u, false)
          end
      end
  | Some _, Some _ => Some (u, false)
  | _, _ => None
  end.
(** cc.rs:139-145: the pushes of the two nested loops, in order. *)
Fixpoint congruent_pairs (ns : list enode) (u : uf) (ps : list (nat * nat)) : option (uf * list (nat * nat)) :=
  match ps with
  | [] => Some (u, [])
  | (a, b) :: ps =>
      match congruent ns u a b with
      | None => None
      | Some (u, c) =>
          match congruent_pairs ns u ps with
          | None => None
          | Some (u, qs) => Some (u, if c then (a, b) :: qs else qs)
          end
      end
  end.
Definition all_pairs (la lb : list nat) : list (nat * nat) := flat_map (fun a => map (fun b => (a, b)) lb) la.
(** cc.rs:122-127: pop until a pair with different roots. *)
Fixpoint next_pair (u : uf) (pending : list (nat * nat)) : option (uf * option (nat * nat * list (nat * nat))) :=
  match pending with
  | [] => Some (u, None)
  | (a, b) :: pending =>
      match uf_find u a with
      | None => None
      | Some (u, ra) =>
          match uf_find u b with
          | None => None
          | Some (u, rb) => if Nat.eqb ra rb then next_pair u pending else Some (u, Some (ra, rb, pending))
          end
      end
  end.
(** cc.rs:129-156: one merge of two different classes. The pending stack has its top first. *)
Definition merge_roots (g : egraph) (ra rb : nat) (pending : list (nat * nat)) : option (egraph * list (nat * nat)) :=
  match eg_uses g !! ra, eg_uses g !! rb with
  | Some uses_a, Some uses_b =>
      match uf_union (eg_uf g) ra rb with
      | None => None
      | Some (u, _) =>
          match uf_find u ra with
          | None => None
          | Some (u, new_root) =>
              match congruent_pairs (eg_nodes g) u (all_pairs uses_a uses_b) with
              | None => None
              | Some (u, pushed) =>
                  let us := if Nat.eqb new_root ra then <[ra := uses_a ++ uses_b]> (eg_uses g)
                            else <[rb := uses_b ++ uses_a]> (eg_uses g) in
                  Some (EG (eg_nodes g) u (eg_map g) us, rev pushed ++ pending)
              end
          end
      end
  | _, _ => None
  end.
(** cc.rs:121-158 [propagate]; [n] bounds the number of merges of different classes. *)
Fixpoint propagate (n : nat) (g : egraph) (pending : list (nat * nat)) : option egraph :=
  match next_pair (eg_uf g) pending with
  | None => None
  | Some (u, None) => Some (EG (eg_nodes g) u (eg_map g) (eg_uses g))
  | Some (u, Some (ra, rb, pending)) =>
      match n with
      | O => None
      | S n =>
          match merge_roots (EG (eg_nodes g) u (eg_map g) (eg_uses g)) ra rb pending with
          | None => None
          | Some (g, pending) => propagate n g pending
          end
      end
  end.
(** cc.rs:115-118 [merge]. *)
Definition eg_merge (g : egraph) (a b : nat) : option egraph := propagate (length (eg_nodes g)) g [(a, b)].
(** cc.rs:171-173 [equivalent]. *)
Definition eg_equivalent (g : egraph) (a b : nat) : option (egraph * bool) :=
  match uf_find (eg_uf g) a with
  | None => None
  | Some (u, ra) =>
      match uf_find u b with
      | None => None
      | Some (u, rb) => Some (EG (eg_nodes g) u (eg_map g) (eg_uses g), Nat.eqb ra rb)
      end
  end.
(** Programs over the structure. *)
Inductive eg_op := GAdd (n : enode) | GMerge (a b : nat).
Definition eg_step (g : egraph) (o : eg_op) : option egraph :=
  match o with
  | GAdd n => match eg_add g n with Some (g, _) => Some g | None => None end
  | GMerge a b => eg_merge g a b
  end.
Fixpoint eg_run (g : egraph) (os : list eg_op) : option egraph :=
  match os with
  | [] => Some g
  | o :: os => match eg_step g o with Some g => eg_run g os | None => None end
  end.

(** cc.rs:189-213 [reify]; the inner [None] is the function's own [None]. *)
Fixpoint cc_reify (g : egraph) (t : term) : option (egraph * option nat) :=
  match extract_slit t with
  | Some n => match eg_add g (NLit n) with Some (g, i) => Some (g, Some i) | None => None end
  | None =>
      match extract_svar t with
      | Some n => match eg_add g (NVar n) with Some (g, i) => Some (g, Some i) | None => None end
      | None =>
          match extract_sname t with
          | Some s => match eg_add g (NName s) with Some (g, i) => Some (g, Some i) | None => None end
          | None =>
              match t with
              | TApp (TApp (TGlobal c) f) a =>
                  if c =? "SApp" then
                    match cc_reify g f with
                    | Some (g, Some fi) =>
                        match cc_reify g a with
                        | Some (g, Some ai) =>
                            match eg_add g (NApp fi ai) with Some (g, i) => Some (g, Some i) | None => None end
                        | r => r
                        end
                    | r => r
                    end
                  else Some (g, None)
              | _ => Some (g, None)
              end
          end
      end
  end.
(** cc.rs:365-372 [extract_implication], 375-382 [extract_equality]. *)
Definition cc_implication (t : term) : option (term * term) :=
  match extract_binary_app t with
  | Some (op, a, b) => if op =? "implies" then Some (a, b) else None
  | None => None
  end.
Definition cc_equality (t : term) : option (term * term) :=
  match extract_binary_app t with
  | Some (op, a, b) => if (op =? "Eq") || (op =? "eq") then Some (a, b) else None
  | None => None
  end.
(** cc.rs:232-245 [decompose_goal]: the loop recurses on a proper subterm. *)
Fixpoint decompose_goal (t : term) : list (term * term) * term :=
  match t with
  | TApp (TApp (TGlobal c) (TApp (TApp (TGlobal c2) o) a)) b =>
      match cc_implication t with
      | Some _ =>
          let '(hs, r) := decompose_goal b in
          (match cc_equality a with Some h => h :: hs | None => hs end, r)
      | None => ([], t)
      end
  | _ => ([], t)
  end.
(** cc.rs:285-297: the loop over the hypotheses; [None] in the second component is [return false]. *)
Fixpoint assume (g : egraph) (hs : list (term * term)) : option (option egraph) :=
  match hs with
  | [] => Some (Some g)
  | (l, r) :: hs =>
      match cc_reify g l with
      | None => None
      | Some (_, None) => Some None
      | Some (g, Some li) =>
          match cc_reify g r with
          | None => None
          | Some (_, None) => Some None
          | Some (g, Some ri) =>
              match eg_merge g li ri with
              | None => None
              | Some g => assume g hs
              end
          end
      end
  end.
(** cc.rs:262-301 [check_goal]. *)
Definition check_goal (goal : term) : option bool :=
  let '(hs, concl) := decompose_goal goal in
  match cc_equality concl with
  | None => Some false
  | Some (l, r) =>
      match cc_reify eg_new l with
      | None => None
      | Some (_, None) => Some false
      | Some (g, Some li) =>
          match cc_reify g r with
          | None => None
          | Some (_, None) => Some false
          | Some (g, Some ri) =>
              match assume g hs with
              | None => None
              | Some None => Some false
              | Some (Some g) =>
                  match eg_equivalent g li ri with
                  | None => None
                  | Some (_, b) => Some b
                  end
              end
          end
      end
  end.
