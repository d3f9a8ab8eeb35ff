(** Model of the pseudo-Boolean constraints of [crates/logicaffeine_proof/src/pseudo_boolean.rs].
    Coefficients are integers without overflow; the ordered map is a finite map listed in some
    order, which no result depends on. *)
From Coq Require Import List Arith ZArith Bool String.
From stdpp Require Import gmap list.
From Verif Require Import RupModel UnifyModel GaussModel.
Local Open Scope Z_scope.
Local Open Scope list_scope.

(** pseudo_boolean.rs:23-27 [PbConstraint]. *)
Record pb := Pb { terms : gmap nat (Z * bool); degree : Z }.

(** pseudo_boolean.rs:31-36 [at_least]: a later literal replaces an earlier one of its variable. *)
Definition collect (l : list (nat * (Z * bool))) : gmap nat (Z * bool) := fold_left (fun m e => <[fst e := snd e]> m) l ∅.
Definition at_least (lits : list (nat * bool)) (k : Z) : pb := Pb (collect (map (fun l => (fst l, (1, snd l))) lits)) k.
(** pseudo_boolean.rs:38-41 [clause]. *)
Definition pb_clause (lits : list (nat * bool)) : pb := at_least lits 1.
(** pseudo_boolean.rs:43-48 [at_most]. *)
Definition at_most (lits : list (nat * bool)) (k : Z) : pb :=
  at_least (map (fun l => (fst l, negb (snd l))) lits) (Z.of_nat (length lits) - k).
(** pseudo_boolean.rs:151-155 [new_weighted]. *)
Definition new_weighted (l : list (nat * Z * bool)) (k : Z) : pb := Pb (collect (map (fun e => (fst (fst e), (snd (fst e), snd e))) l)) k.

(** pseudo_boolean.rs:61-98 [add]. A variable of the second constraint occurs once in it, so the
    sign looked up in [self.terms] is the one in the working map. *)
Definition add_term (c : pb) (e : nat * (Z * bool)) : pb :=
  let '(v, (c2, s2)) := e in
  match terms c !! v with
  | None => Pb (<[v := (c2, s2)]> (terms c)) (degree c)
  | Some (c1, s1) =>
      if Bool.eqb s1 s2 then Pb (<[v := (c1 + c2, s1)]> (terms c)) (degree c)
      else
        let d := degree c - Z.min c1 c2 in
        match Z.compare c1 c2 with
        | Eq => Pb (delete v (terms c)) d
        | Gt => Pb (<[v := (c1 - c2, s1)]> (terms c)) d
        | Lt => Pb (<[v := (c2 - c1, s2)]> (terms c)) d
        end
  end.
Definition add (a b : pb) : pb := fold_left add_term (map_to_list (terms b)) (Pb (terms a) (degree a + degree b)).
(** pseudo_boolean.rs:99-107 [multiply]; [None] is the failed assertion. *)
Definition multiply (a : pb) (c : Z) : option pb :=
  if 0 <? c then Some (Pb ((fun t => (fst t * c, snd t)) <$> terms a) (degree a * c)) else None.
(** pseudo_boolean.rs:109-120 [divide_round]; for a positive divisor [div_euclid] is [Z.div]. *)
Definition ceil (d x : Z) : Z := x / d + (if x mod d =? 0 then 0 else 1).
Definition divide_round (a : pb) (d : Z) : option pb :=
  if 0 <? d then Some (Pb ((fun t => (ceil d (fst t), snd t)) <$> terms a) (ceil d (degree a))) else None.
(** pseudo_boolean.rs:122-131 [saturate]. *)
Definition saturate (a : pb) : pb := Pb ((fun t => (Z.min (fst t) (degree a), snd t)) <$> terms a) (degree a).
(** pseudo_boolean.rs:133-138 [is_contradiction]. *)
Definition sumz (l : list Z) : Z := fold_right Z.add 0 l.
Definition is_contradiction (a : pb) : bool := sumz (map (fun e => fst (snd e)) (map_to_list (terms a))) <? degree a.
(** pseudo_boolean.rs:140-149 [is_satisfied]. *)
Definition contribution (f : nat -> bool) (e : nat * (Z * bool)) : Z := if Bool.eqb (f (fst e)) (snd (snd e)) then fst (snd e) else 0.
Definition pb_lhs (f : nat -> bool) (a : pb) : Z := sumz (map (contribution f) (map_to_list (terms a))).
Definition is_satisfied (a : pb) (f : nat -> bool) : bool := degree a <=? pb_lhs f a.

(** pseudo_boolean.rs:166-175 [is_pb_symmetry]. *)
Definition is_pb_symmetry (cs : list pb) (perm : list nat) : bool :=
  forallb (fun c => forallb (fun e => bool_decide (terms c !! snd e = terms c !! fst e)) (zip (seq 0 (length perm)) perm)) cs.
(** pseudo_boolean.rs:177-206 [coeff_symmetry_generators]. The classes are kept in order of first
    occurrence instead of the order of the profiles. *)
Definition profile (cs : list pb) (v : nat) : list (option (Z * bool)) := map (fun c => terms c !! v) cs.
Fixpoint add_class (p : list (option (Z * bool))) (v : nat) (g : list (list (option (Z * bool)) * list nat)) : list (list (option (Z * bool)) * list nat) :=
  match g with
  | [] => [(p, [v])]
  | (q, vs) :: g => if bool_decide (p = q) then (q, vs ++ [v]) :: g else (q, vs) :: add_class p v g
  end.
Definition classes (n : nat) (cs : list pb) : list (list (option (Z * bool)) * list nat) :=
  fold_left (fun g v => if forallb (fun t => match t with None => true | Some _ => false end) (profile cs v) then g else add_class (profile cs v) v g) (seq 0 n) [].
Definition swapped (n a b : nat) : list nat := map (fun v => if Nat.eqb v a then b else if Nat.eqb v b then a else v) (seq 0 n).
Fixpoint windows (l : list nat) : list (nat * nat) :=
  match l with
  | a :: (b :: _) as l' => (a, b) :: windows l'
  | _ => []
  end.
Definition coeff_symmetry_generators (n : nat) (cs : list pb) : list (list nat) :=
  flat_map (fun g => map (fun w => swapped n (fst w) (snd w)) (windows (snd g))) (classes n cs).

(** pseudo_boolean.rs:208-238 [php_refutation]; [None] is the underflow of [n - 1] for no pigeons. *)
Definition absorb (acc : option pb) (c : pb) : option pb := Some (match acc with None => c | Some a => add a c end).
Definition pigeon_row (holes i : nat) : pb := pb_clause (map (fun h => ((i * holes + h)%nat, true)) (seq 0 holes)).
Definition hole_group (n holes h : nat) : pb := at_most (map (fun i => ((i * holes + h)%nat, true)) (seq 0 n)) 1.
Definition php_refutation (n : nat) : option pb :=
  match n with
  | O => None
  | S holes => fold_left absorb (map (pigeon_row holes) (seq 0 n) ++ map (hole_group n holes) (seq 0 holes)) None
  end.

(** ** Refuting a formula *)
(** pseudo_boolean.rs:325-340 [flatten_and]: the stack visits the conjuncts from left to right. *)
Fixpoint flatten_and (e : pexpr) : list pexpr :=
  match e with
  | EBin CAnd l r => flatten_and l ++ flatten_and r
  | other => [other]
  end.
(** pseudo_boolean.rs:342-355 [positive_disjunction]. *)
Fixpoint positive_disjunction (e : pexpr) : option (list string) :=
  match e with
  | EBin COr l r => a ← positive_disjunction l; b ← positive_disjunction r; Some (a ++ b)
  | EAtom s => Some [s]
  | _ => None
  end.
(** pseudo_boolean.rs:357-375 [exclusion_pair]. *)
Definition exclusion_pair (e : pexpr) : option (string * string) :=
  match e with
  | ENot (EBin CAnd (EAtom a) (EAtom b)) => Some (a, b)
  | EBin COr (ENot (EAtom a)) (ENot (EAtom b)) => Some (a, b)
  | _ => None
  end.
(** pseudo_boolean.rs:302-323 [extract_clausal]. *)
Fixpoint intern_all (idx : index) (names : list string) : list nat * index :=
  match names with
  | [] => ([], idx)
  | s :: names => let '(v, idx) := intern idx s in let '(vs, idx) := intern_all idx names in (v :: vs, idx)
  end.
Fixpoint extract (idx : index) (l : list pexpr) : option (list (list nat) * list (nat * nat) * nat) :=
  match l with
  | [] => Some ([], [], size idx)
  | c :: l =>
      match positive_disjunction c with
      | Some atoms =>
          let '(row, idx) := intern_all idx atoms in
          '(rows, excl, n) ← extract idx l; Some (row :: rows, excl, n)
      | None =>
          match exclusion_pair c with
          | Some (a, b) =>
              let '(va, idx) := intern idx a in let '(vb, idx) := intern idx b in
              '(rows, excl, n) ← extract idx l; Some (rows, (va, vb) :: excl, n)
          | None => None
          end
      end
  end.
Definition extract_clausal (e : pexpr) : option (list (list nat) * list (nat * nat) * nat) := extract ∅ (flatten_and e).

(** pseudo_boolean.rs:377-398 [UnionFind] with path compression; the recursion is bounded by a
    step count. *)
Fixpoint uf_find (fuel : nat) (p : list nat) (x : nat) : nat * list nat :=
  match fuel with
  | O => (x, p)
  | S fuel =>
      let q := nth x p x in
      if Nat.eqb q x then (x, p) else let '(r, p) := uf_find fuel p q in (r, <[x := r]> p)
  end.
Definition uf_union (n : nat) (p : list nat) (e : nat * nat) : list nat :=
  let '(ra, p) := uf_find n p (fst e) in
  let '(rb, p) := uf_find n p (snd e) in
  if Nat.eqb ra rb then p else <[ra := rb]> p.
(** pseudo_boolean.rs:265-268: the components, in order of their first member. *)
Fixpoint add_member (r v : nat) (g : list (nat * list nat)) : list (nat * list nat) :=
  match g with
  | [] => [(r, [v])]
  | (q, vs) :: g => if Nat.eqb r q then (q, vs ++ [v]) :: g else (q, vs) :: add_member r v g
  end.
Definition components (n : nat) (excl : list (nat * nat)) : list (list nat) :=
  let p := fold_left (uf_union n) excl (seq 0 n) in
  let st := fold_left (fun st v => let '(p, g) := st in let '(r, p) := uf_find n p v in (p, add_member r v g)) (seq 0 n) (p, []) in
  map snd (snd st).
(** pseudo_boolean.rs:281-284, is every pair excluded. *)
Definition excluded (excl : list (nat * nat)) (a b : nat) : bool :=
  existsb (fun e => bool_decide ((Nat.min (fst e) (snd e), Nat.max (fst e) (snd e)) = (Nat.min a b, Nat.max a b))) excl.
Fixpoint is_clique (excl : list (nat * nat)) (members : list nat) : bool :=
  match members with
  | [] => true
  | a :: members => forallb (excluded excl a) members && is_clique excl members
  end.
(** pseudo_boolean.rs:250-292: the summed constraint, [None] where the code gives up. *)
Definition clausal_sum (e : pexpr) : option pb :=
  match extract_clausal e with
  | None => None
  | Some (rows, excl, n) =>
      if (length rows =? 0)%nat then None
      else
        let groups := List.filter (fun g => negb (length g <? 2)%nat) (components n excl) in
        if forallb (is_clique excl) groups then
          fold_left absorb (map (fun row => at_least (map (fun v => (v, true)) row) 1) rows ++ map (fun g => at_most (map (fun v => (v, true)) g) 1) groups) None
        else None
  end.
(** pseudo_boolean.rs:250-297 [refute_clausal]. *)
Definition refute_clausal (e : pexpr) : bool :=
  match clausal_sum e with
  | None => false
  | Some c => is_contradiction c || is_contradiction (saturate c)
  end.

(** ** The live cardinality theory *)
(** pseudo_boolean.rs:434-449 [CardinalityTheory::new]: literals and bound of each constraint;
    [None] is the failed assertion on coefficients. *)
Definition unit_literals (a : pb) : option (list (nat * bool) * Z) :=
  if forallb (fun e => fst (snd e) =? 1) (map_to_list (terms a)) then Some (map (fun e => (fst e, snd (snd e))) (map_to_list (terms a)), degree a) else None.
(** pseudo_boolean.rs:455-458: the trail as a partial assignment; [None] is an index panic. *)
Fixpoint trail_assign (a : assign) (trail : list lit) : option assign :=
  match trail with
  | [] => Some a
  | l :: trail => if (lvar l <? length a)%nat then trail_assign (<[lvar l := Some (lpos l)]> a) trail else None
  end.
Definition to_lit (l : nat * bool) : lit := Lit (fst l) (snd l).
(** pseudo_boolean.rs:460-501, one constraint; [None] is an index panic. *)
Definition lit_state (a : assign) (l : nat * bool) : option (option bool) :=
  match a !! fst l with None => None | Some None => Some None | Some (Some b) => Some (Some (Bool.eqb b (snd l))) end.
Definition with_state (a : assign) (st : option bool) (lits : list (nat * bool)) : list (nat * bool) :=
  List.filter (fun l => bool_decide (lit_state a l = Some st)) lits.
Definition card_propagate (a : assign) (c : list (nat * bool) * Z) : option (list clause) :=
  let '(lits, k) := c in
  let n := Z.of_nat (length lits) in
  if k <=? 0 then Some []
  else if n <? k then Some [[]]
  else if forallb (fun l => match lit_state a l with None => false | Some _ => true end) lits then
    let false_lits := with_state a (Some false) lits in
    let unassigned := with_state a None lits in
    if k <=? Z.of_nat (length (with_state a (Some true) lits)) then Some []
    else
      let max_false := n - k in
      let fc := Z.of_nat (length false_lits) in
      if max_false <? fc then Some [map to_lit (take (Z.to_nat (max_false + 1)) false_lits)]
      else if fc =? max_false then Some (map (fun l => map to_lit false_lits ++ [to_lit l]) unassigned)
      else Some []
  else None.
Fixpoint theory_propagate_all (a : assign) (cs : list (list (nat * bool) * Z)) : option (list clause) :=
  match cs with
  | [] => Some []
  | c :: cs => x ← card_propagate a c; y ← theory_propagate_all a cs; Some (x ++ y)
  end.
(** pseudo_boolean.rs:453-503 [propagate]. *)
Definition theory_propagate (num_vars : nat) (cs : list (list (nat * bool) * Z)) (trail : list lit) : option (list clause) :=
  a ← trail_assign (replicate num_vars None) trail; theory_propagate_all a cs.

Local Open Scope string_scope.
(** Satisfiable: z and w may be true. *)
Definition ex_unsound : pexpr :=
  let at_ := EAtom in let or3 a b c d := EBin COr (at_ a) (EBin COr (at_ b) (EBin COr (at_ c) (at_ d))) in
  let ex a b := ENot (EBin CAnd (at_ a) (at_ b)) in
  EBin CAnd (or3 "a" "b" "c" "z") (EBin CAnd (or3 "a'" "b'" "c'" "w") (EBin CAnd (ex "a" "a'") (EBin CAnd (ex "b" "b'") (ex "c" "c'")))).
