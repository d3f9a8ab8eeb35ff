(** Cofactor decision diagrams: [/repo/crates/logicaffeine_proof/src/cofactor.rs] lines 45-172, 300-313, 411-482 and 653-764.

    Simplified: [u32] variables are [nat]; the memo of the construction is an association list; an index out of range makes the
    checkers answer [false] where the code panics; loops whose length is not bounded by the code take fuel. *)
From Coq Require Import List Arith Bool.
Import ListNotations.

Definition lit : Type := nat * bool.
Notation cnf := (list (list lit)).
(** The order of pairs and of vectors used by [sort] and [==]. *)
Definition cmp_lit (a b : lit) : comparison :=
  match Nat.compare (fst a) (fst b) with
  | Eq => match snd a, snd b with false, true => Lt | true, false => Gt | _, _ => Eq end
  | c => c
  end.
Fixpoint cmp_list {A} (cmp : A -> A -> comparison) (a b : list A) : comparison :=
  match a, b with
  | [], [] => Eq
  | [], _ => Lt
  | _, [] => Gt
  | x :: a, y :: b => match cmp x y with Eq => cmp_list cmp a b | c => c end
  end.
(** [sort] followed by [dedup]. *)
Fixpoint ins {A} (cmp : A -> A -> comparison) (x : A) (l : list A) : list A :=
  match l with [] => [x] | y :: l' => match cmp x y with Lt => x :: l | Eq => l | Gt => y :: ins cmp x l' end end.
Definition sort_dedup {A} (cmp : A -> A -> comparison) (l : list A) : list A := fold_right (ins cmp) [] l.
Definition same (a b : cnf) : bool := match cmp_list (cmp_list cmp_lit) a b with Eq => true | _ => false end.

(** [canon_raw] (64-77), [cofactor] (81-89), [is_leaf] (92-94). *)
Definition canon_raw (F : cnf) : cnf := sort_dedup (cmp_list cmp_lit) (map (sort_dedup cmp_lit) F).
Definition cofactor (F : cnf) (x : nat) (b : bool) : cnf :=
  canon_raw (map (filter (fun l : lit => negb (fst l =? x))) (filter (fun c => negb (existsb (fun l : lit => (fst l =? x) && Bool.eqb (snd l) b) c)) F)).
Definition is_leaf (F : cnf) : bool := existsb (fun c => match c with [] => true | _ => false end) F.

(** [Node] (102-107), [distinct_cofactor_dag] (113-150); [k] is the number of levels below [depth]. *)
Inductive node := Leaf (F : cnf) | Internal (F : cnf) (var lo hi : nat).
Definition clauses_of (x : node) : cnf := match x with Leaf F => F | Internal F _ _ _ => F end.
Notation memo := (list ((nat * cnf) * option nat)).
Fixpoint lookup (d : nat) (F : cnf) (m : memo) : option (option nat) :=
  match m with [] => None | ((d', F'), r) :: m => if (d =? d') && same F F' then Some r else lookup d F m end.
Fixpoint go (k depth : nat) (F : cnf) (nodes : list node) (m : memo) : option nat * list node * memo :=
  match lookup depth F m with
  | Some hit => (hit, nodes, m)
  | None =>
      let '(res, nodes, m) :=
        if is_leaf F then (Some (length nodes), nodes ++ [Leaf F], m)
        else match k with
             | 0 => (None, nodes, m)
             | S k =>
                 let '(lo, nodes, m) := go k (S depth) (cofactor F depth false) nodes m in
                 let '(hi, nodes, m) := go k (S depth) (cofactor F depth true) nodes m in
                 match lo, hi with
                 | Some lo, Some hi => (Some (length nodes), nodes ++ [Internal F depth lo hi], m)
                 | _, _ => (None, nodes, m)
                 end
             end in
      (res, nodes, ((depth, F), res) :: m)
  end.
Definition distinct_cofactor_dag (n : nat) (F : cnf) : option (nat * list node) :=
  let '(res, nodes, _) := go n 0 F [] [] in match res with Some root => Some (root, nodes) | None => None end.
(** [check_distinct_dag] (155-172). *)
Definition child_is (nodes : list node) (id : nat) (F : cnf) : bool := match nth_error nodes id with Some x => same (clauses_of x) F | None => false end.
Definition check_distinct_dag (root : nat) (nodes : list node) (expected : cnf) : bool :=
  child_is nodes root expected &&
  forallb (fun x => match x with
                    | Leaf F => is_leaf F
                    | Internal F v lo hi => child_is nodes lo (cofactor F v false) && child_is nodes hi (cofactor F v true)
                    end) nodes.

(** [apply_twist] (301-313): the later entries of the table win. *)
Notation twist := (list (nat * (nat * bool))).
Fixpoint assoc (v : nat) (t : twist) : option (nat * bool) :=
  match t with [] => None | (a, r) :: t => match assoc v t with Some r' => Some r' | None => if v =? a then Some r else None end end.
Fixpoint twist_clause (t : twist) (c : list lit) : option (list lit) :=
  match c with
  | [] => Some []
  | (v, p) :: c => match assoc v t, twist_clause t c with Some (v2, f), Some c' => Some ((v2, xorb p f) :: c') | _, _ => None end
  end.
Fixpoint twist_clauses (t : twist) (F : cnf) : option cnf :=
  match F with [] => Some [] | c :: F => match twist_clause t c, twist_clauses t F with Some c', Some F' => Some (c' :: F') | _, _ => None end end.
Definition apply_twist (F : cnf) (t : twist) : option cnf := match twist_clauses t F with Some G => Some (canon_raw G) | None => None end.
(** [QNode] (656-659), [check_quotient_dag] (750-764). *)
Inductive qnode := QLeaf (F : cnf) | QInternal (F : cnf) (var lo hi : nat) (tlo thi : twist).
Definition qclauses (x : qnode) : cnf := match x with QLeaf F => F | QInternal F _ _ _ _ _ => F end.
Definition qchild_ok (nodes : list qnode) (id : nat) (t : twist) (F : cnf) : bool :=
  match apply_twist F t with Some G => match nth_error nodes id with Some x => same G (qclauses x) | None => false end | None => false end.
Definition check_quotient_dag (nodes : list qnode) : bool :=
  forallb (fun x => match x with
                    | QLeaf F => is_leaf F
                    | QInternal F v lo hi tlo thi => qchild_ok nodes lo tlo (cofactor F v false) && qchild_ok nodes hi thi (cofactor F v true)
                    end) nodes.

(** [unit_propagate] (414-428): every round drops the unit clause, so the number of clauses is fuel enough. *)
Fixpoint propagate (fuel : nat) (F : cnf) : cnf :=
  match fuel with
  | 0 => F
  | S fuel =>
      match find (fun c => length c =? 1) F with
      | Some ((v, p) :: _) => let G := cofactor F v p in if is_leaf G then G else propagate fuel G
      | _ => F
      end
  end.
Definition unit_propagate (F : cnf) : cnf := propagate (length F) F.
(** [pure_eliminate] (432-453). *)
Definition occurs (F : cnf) (v : nat) (p : bool) : bool := existsb (existsb (fun l : lit => (fst l =? v) && Bool.eqb (snd l) p)) F.
Definition pure (F : cnf) (v : nat) : bool := xorb (occurs F v true) (occurs F v false).
Definition pure_eliminate (F : cnf) : cnf :=
  if existsb (existsb (fun l : lit => pure F (fst l))) F then canon_raw (filter (fun c => negb (existsb (fun l : lit => pure F (fst l)) c)) F) else F.
(** [subsume] (457-468). *)
Definition mem (l : lit) (c : list lit) : bool := existsb (fun k : lit => (fst l =? fst k) && Bool.eqb (snd l) (snd k)) c.
Definition subsume (F : cnf) : cnf := canon_raw (filter (fun c => negb (existsb (fun d => (length d <? length c) && forallb (fun l => mem l c) d) F)) F).
(** [reduce] (473-482). *)
Fixpoint reduce (fuel : nat) (F : cnf) : option cnf :=
  match fuel with
  | 0 => None
  | S fuel => let G := subsume (pure_eliminate (unit_propagate F)) in if is_leaf G || same G F then Some G else reduce fuel G
  end.
