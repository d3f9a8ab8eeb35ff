(** Model of the ordering-principle specialist [crates/logicaffeine_proof/src/ordering.rs].
    Hash sets are lists or finite maps; no result depends on their order. A missing variable in a
    certificate ([u32::MAX]) is [None], and the variables of clauses are taken to be below it. *)
From Coq Require Import List Arith Bool String.
From stdpp Require Import gmap list.
From Verif Require Import RupModel UnifyModel CnfModel.
Local Open Scope list_scope.

(** ordering.rs:32-37 [OrderingCert]. *)
Record ord_cert := OrdCert { oc_n : nat; oc_edge : list (option nat) }.
(** ordering.rs:59, 218 [key2]. *)
Definition key2 (x y : nat) : nat * nat := if x <? y then (x, y) else (y, x).
(** ordering.rs:69-92, 223-248, the lookups built from the clauses. *)
Definition pair_keys (sign : bool) (cs : list clause) : list (nat * nat) :=
  omap (fun c => match c with [a; b] => if Bool.eqb (lpos a) sign && Bool.eqb (lpos b) sign then Some (key2 (lvar a) (lvar b)) else None | _ => None end) cs.
Definition trans_of (c : clause) : option (nat * nat * nat) :=
  if length c =? 3 then
    match map lvar (List.filter (fun l => negb (lpos l)) c), map lvar (List.filter lpos c) with
    | [a; b], [p] => Some (a, b, p)
    | _, _ => None
    end
  else None.
Definition positives (cs : list clause) : list (list nat) := map (fun c => map lvar c) (List.filter (forallb lpos) cs).
(** [sort_unstable] on numbers. *)
Fixpoint insert_nat (x : nat) (l : list nat) : list nat := match l with [] => [x] | y :: l => if x <=? y then x :: y :: l else y :: insert_nat x l end.
Definition sort_nat (l : list nat) : list nat := fold_right insert_nat [] l.

(** The ordered pairs and triples visited by the loops. *)
Definition opairs (n : nat) : list (nat * nat) := List.filter (fun p => negb (fst p =? snd p)) (list_prod (seq 0 n) (seq 0 n)).
Definition triples (n : nat) : list (nat * nat * nat) :=
  List.filter (fun t => negb (fst (fst t) =? snd (fst t)) && negb (snd t =? fst (fst t)) && negb (snd t =? snd (fst t))) (list_prod (list_prod (seq 0 n) (seq 0 n)) (seq 0 n)).
(** ordering.rs:40-42 [get]: [None] for an index panic or a missing variable. *)
Definition edge_at (n : nat) (edge : list (option nat)) (i j : nat) : option nat := mjoin (edge !! (i * n + j)).
(** ordering.rs:277-279, the sorted outgoing edges of an element. *)
Definition outgoing (n : nat) (edge : list (option nat)) (i : nat) : list nat := omap (fun j => if j =? i then None else edge_at n edge i j) (seq 0 n).
(** ordering.rs:199-285 [check_ordering_cert]. *)
Definition check_ordering_cert (cert : ord_cert) (cs : list clause) : bool :=
  let n := oc_n cert in
  let edge := oc_edge cert in
  if (n <? 2) || negb (length edge =? n * n) then false
  else
    match mapM (fun p => edge_at n edge (fst p) (snd p)) (opairs n) with
    | None => false
    | Some vars =>
        bool_decide (NoDup vars) &&
        forallb (fun p =>
          match edge_at n edge (fst p) (snd p), edge_at n edge (snd p) (fst p) with
          | Some a, Some b => bool_decide (key2 a b ∈ pair_keys true cs) && bool_decide (key2 a b ∈ pair_keys false cs)
          | _, _ => false
          end) (List.filter (fun p => fst p <? snd p) (opairs n)) &&
        forallb (fun t =>
          let '(i, j, k) := t in
          match edge_at n edge i j, edge_at n edge j k, edge_at n edge i k with
          | Some a, Some b, Some c => bool_decide ((a, b, c) ∈ omap trans_of cs) || bool_decide ((b, a, c) ∈ omap trans_of cs)
          | _, _, _ => false
          end) (triples n) &&
        forallb (fun i => bool_decide (sort_nat (outgoing n edge i) ∈ map sort_nat (positives cs))) (seq 0 n)
    end.

(** ordering.rs:100-105: the other variable of each comparison; [None] for a variable in two. *)
Fixpoint partners (m : gmap nat nat) (l : list (nat * nat)) : option (gmap nat nat) :=
  match l with
  | [] => Some m
  | (a, b) :: l =>
      match m !! a with
      | Some _ => None
      | None => let m := <[a := b]> m in match m !! b with Some _ => None | None => partners (<[b := a]> m) l end
      end
  end.
(** ordering.rs:113-132: the groups, each with its number. *)
Definition add_group (partner : gmap nat nat) (st : list (list nat) * gmap nat nat) (pc : list nat) : list (list nat) * gmap nat nat :=
  let '(groups, group_of) := st in
  if (length pc =? 0) || negb (forallb (fun v => bool_decide (is_Some (partner !! v))) pc) then st
  else if negb (bool_decide (NoDup pc)) then st
  else if existsb (fun v => match partner !! v with Some w => bool_decide (w ∈ pc) | None => false end) pc then st
  else if existsb (fun v => bool_decide (is_Some (group_of !! v))) pc then st
  else (groups ++ [pc], fold_left (fun m v => <[v := length groups]> m) pc group_of).
(** ordering.rs:144-150: the variable of each directed edge. *)
Fixpoint edges (group_of : gmap nat nat) (m : gmap (nat * nat) nat) (l : list (nat * nat)) : option (gmap (nat * nat) nat) :=
  match l with
  | [] => Some m
  | (a, b) :: l =>
      match group_of !! a, group_of !! b with
      | Some i, Some j => if (i =? j) then None else match m !! (i, j) with Some _ => None | None => edges group_of (<[(i, j) := a]> m) l end
      | _, _ => None
      end
  end.
(** ordering.rs:55-193 [ordering_certificate]. *)
Definition ordering_certificate (num_vars : nat) (cs : list clause) : option ord_cert :=
  if num_vars <? 2 then None else
  let comparisons := List.filter (fun k => bool_decide (k ∈ pair_keys false cs)) (remove_dups (pair_keys true cs)) in
  if length comparisons <? 2 then None else
  partner ← partners ∅ comparisons;
  let '(groups, group_of) := fold_left (add_group partner) (positives cs) ([], ∅) in
  let n := length groups in
  if (n <? 2) || negb (size group_of =? size partner) || negb (size partner =? n * (n - 1)) || existsb (fun g => negb (length g =? n - 1)) groups then None else
  edge_map ← edges group_of ∅ (map_to_list partner);
  if negb (size edge_map =? n * (n - 1)) then None else
  if negb (forallb (fun p => bool_decide (is_Some (edge_map !! p))) (opairs n)) then None else
  let edge := map (fun p => if fst p =? snd p then None else edge_map !! p) (list_prod (seq 0 n) (seq 0 n)) in
  if negb (forallb (fun p => forallb (fun v => bool_decide (v ∈ snd p)) (outgoing n edge (fst p)) && forallb (fun v => bool_decide (v ∈ outgoing n edge (fst p))) (snd p)) (zip (seq 0 n) groups)) then None else
  let trans := flat_map (fun t => let '(a, b, c) := t in [(a, b, c); (b, a, c)]) (omap trans_of cs) in
  if forallb (fun t => let '(i, j, k) := t in
        match edge_at n edge i j, edge_at n edge j k, edge_at n edge i k with
        | Some a, Some b, Some c => bool_decide ((a, b, c) ∈ trans)
        | _, _, _ => false
        end) (triples n)
  then Some (OrdCert n edge) else None.
(** ordering.rs:289-291 [refute_ordering]. *)
Definition refute_ordering (num_vars : nat) (cs : list clause) : bool := match ordering_certificate num_vars cs with Some _ => true | None => false end.
(** ordering.rs:295-301 [refutes_ordering_principle]. *)
Definition refutes_ordering_principle (e : pexpr) : bool :=
  match assert_expr CnfModel.empty e with None => false | Some c => refute_ordering (CnfModel.num_vars c) (CnfModel.clauses c) end.

(** The principle on three elements; variable [2 i + (j if j < i else j - 1)] says i < j. *)
Definition gt3 : list clause :=
  let x i j := 2 * i + (if j <? i then j else j - 1) in
  map (fun p => [Lit (x (fst p) (snd p)) true; Lit (x (snd p) (fst p)) true]) [(0, 1); (0, 2); (1, 2)] ++
  map (fun p => [Lit (x (fst p) (snd p)) false; Lit (x (snd p) (fst p)) false]) [(0, 1); (0, 2); (1, 2)] ++
  map (fun t => [Lit (x (fst (fst t)) (snd (fst t))) false; Lit (x (snd (fst t)) (snd t)) false; Lit (x (fst (fst t)) (snd t)) true]) (triples 3) ++
  map (fun i => map (fun j => Lit (x i j) true) (List.filter (fun j => negb (j =? i)) (seq 0 3))) (seq 0 3).
Definition gt3_cert : ord_cert := OrdCert 3 [None; Some 0; Some 1; Some 2; None; Some 3; Some 4; Some 5; None].
(** The same clauses as a formula, the positive occurrences at one world and the negative ones at
    another: true where everything holds at the first and nothing at the second. *)
Local Open Scope string_scope.
Fixpoint name_of (n : nat) : string := match n with O => "x" | S n => String.append (name_of n) "'" end.
Definition world_formula (pos neg : option string) (cs : list clause) : pexpr :=
  let lit_ (l : lit) := if lpos l then EPred (name_of (lvar l)) [] pos else ENot (EPred (name_of (lvar l)) [] neg) in
  let cl c := match map lit_ c with [] => EAtom "false" | e :: es => fold_left (EBin COr) es e end in
  match map cl cs with [] => EAtom "true" | e :: es => fold_left (EBin CAnd) es e end.
