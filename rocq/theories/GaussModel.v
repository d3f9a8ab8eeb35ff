(** Gaussian elimination over GF(2): crates/logicaffeine_proof/src/xorsat.rs and gf2.rs.
    A row of 64-bit words is the natural number with the same binary digits. *)
From Coq Require Import String List Arith NArith Bool.
From stdpp Require Import list gmap strings sorting.
From Verif Require Import UnifyModel.
Local Open Scope list_scope.

(** ** The elimination loop, shared by xorsat.rs:101-120, gf2.rs:32-42 and gf2.rs:111-123. [bit r c] is
    the coefficient of column [c], [rxor] adds two rows. The rank is the number of pivots so far. *)
Section Elim.
  Context {R : Type} (bit : R -> nat -> bool) (rxor : R -> R -> R).
  (** [(rank..rows.len()).find(|&i| get(&rows[i].lhs, c))]. *)
  Definition find_pivot (rows : list R) (rank c : nat) : option nat :=
    List.find (fun i => match rows !! i with Some r => bit r c | None => false end) (seq rank (length rows - rank)).
  Definition swap (rows : list R) (i j : nat) : list R :=
    match rows !! i, rows !! j with Some a, Some b => <[i := b]> (<[j := a]> rows) | _, _ => rows end.
  Definition clear_col (rows : list R) (rank c : nat) : list R :=
    match rows !! rank with
    | Some pivot => imap (fun i row => if negb (Nat.eqb i rank) && bit row c then rxor row pivot else row) rows
    | None => rows
    end.
  Definition elim_col (st : list R * list nat) (c : nat) : list R * list nat :=
    let '(rows, pivots) := st in
    let rank := length pivots in
    match find_pivot rows rank c with
    | None => (rows, pivots)
    | Some p => (clear_col (swap rows rank p) rank c, pivots ++ [c])
    end.
  Definition eliminate (n : nat) (rows : list R) : list R * list nat := fold_left elim_col (seq 0 n) (rows, []).
End Elim.
(** The row whose pivot is column [c] (xorsat.rs:101, 117 [pivot_for_col]; gf2.rs:110, 121
    [pivot_col_of_row], read backwards). *)
Definition row_of (pivots : list nat) (c : nat) : option nat := fst <$> list_find (eq c) pivots.

(** ** xorsat.rs *)
(** xorsat.rs:16-21 *)
Record xor_eq : Type := XorEq { xvars : list nat; xrhs : bool }.
(** xorsat.rs:32-38 *)
Inductive xor_outcome : Type := XSat (assignment : list bool) | XUnsat (subset : list nat).
(** xorsat.rs:46-48 [flip]. *)
Definition flip (bits : N) (i : nat) : N := N.lxor bits (2 ^ N.of_nat i).
(** xorsat.rs:62-73 [set_indices] over [words] words. *)
Definition set_indices (words : nat) (bits : N) : list nat := List.filter (fun i => N.testbit_nat bits i) (seq 0 (64 * words)).
(** xorsat.rs:75-80 *)
Record xrow : Type := XRow { x_lhs : N; x_rhs : bool; x_prov : N }.
Definition xrow_bit (r : xrow) (c : nat) : bool := N.testbit_nat (x_lhs r) c.
Definition xrow_xor (a b : xrow) : xrow := XRow (N.lxor (x_lhs a) (x_lhs b)) (xorb (x_rhs a) (x_rhs b)) (N.lxor (x_prov a) (x_prov b)).
(** xorsat.rs:91-93, 155-158: the flips of one equation. *)
Definition flips (n : nat) (bits : N) (vars : list nat) : N := fold_left (fun b v => if Nat.ltb v n then flip b v else b) vars bits.
(** xorsat.rs:84-85: [div_ceil(64).max(1)]. *)
Definition words_for (n : nat) : nat := Nat.max 1 ((n + 63) / 64).
(** xorsat.rs:83-139 [solve]. *)
Definition xor_rows (n : nat) (eqs : list xor_eq) : list xrow := imap (fun i e => XRow (flips n 0 (xvars e)) (xrhs e) (flip 0 i)) eqs.
Definition xor_solve (eqs : list xor_eq) (n : nat) : xor_outcome :=
  let '(rows, pivots) := eliminate xrow_bit xrow_xor n (xor_rows n eqs) in
  match List.find (fun r => N.eqb (x_lhs r) 0 && x_rhs r) rows with
  | Some r => XUnsat (set_indices (words_for (length eqs)) (x_prov r))
  | None => XSat (map (fun c => match row_of pivots c with Some r => match rows !! r with Some row => x_rhs row | None => false end | None => false end) (seq 0 n))
  end.
(** xorsat.rs:142-151 [satisfies]. *)
Definition xor_satisfies (eqs : list xor_eq) (assignment : list bool) : bool :=
  forallb (fun e => Bool.eqb (Nat.odd (length (List.filter (fun v => match assignment !! v with Some b => b | None => false end) (xvars e)))) (xrhs e)) eqs.
(** xorsat.rs:155-176 [is_refutation]. *)
Fixpoint refutation_sum (eqs : list xor_eq) (n : nat) (st : N * bool) (idxs : list nat) : option (N * bool) :=
  match idxs with
  | [] => Some st
  | i :: idxs => match eqs !! i with
                 | None => None
                 | Some e => refutation_sum eqs n (flips n st.1 (xvars e), xorb st.2 (xrhs e)) idxs
                 end
  end.
Definition is_refutation (eqs : list xor_eq) (n : nat) (idxs : list nat) : bool :=
  match idxs with
  | [] => false
  | _ => match refutation_sum eqs n (0%N, false) idxs with Some (lhs, rhs) => N.eqb lhs 0 && rhs | None => false end
  end.

(** xorsat.rs:274-303 [collect_literals]; the index is an association of names with numbers. *)
Notation index := (gmap string nat).
Definition intern (idx : index) (name : string) : nat * index :=
  match idx !! name with Some v => (v, idx) | None => (size idx, <[name := size idx]> idx) end.
Fixpoint collect_literals (e : pexpr) (idx : index) : option (list (nat * bool) * index) :=
  match e with
  | EAtom name => let '(v, idx) := intern idx name in Some ([(v, true)], idx)
  | ENot (EAtom name) => let '(v, idx) := intern idx name in Some ([(v, false)], idx)
  | EBin COr l r => '(a, idx) ← collect_literals l idx; '(b, idx) ← collect_literals r idx; Some (a ++ b, idx)
  | _ => None
  end.
(** xorsat.rs:254-272 [collect_clauses]. *)
Fixpoint collect_clauses (e : pexpr) (idx : index) : option (list (list (nat * bool)) * index) :=
  match e with
  | EBin CAnd l r => '(a, idx) ← collect_clauses l idx; '(b, idx) ← collect_clauses r idx; Some (a ++ b, idx)
  | other => '(lits, idx) ← collect_literals other idx; Some ([lits], idx)
  end.
(** xorsat.rs:201-210: group the clauses by variable set. The hash map is a list in order of first
    insertion; the order in which the code visits it is unspecified. *)
Definition var_set (c : list (nat * bool)) : list nat := merge_sort le (remove_dups (map fst c)).
Fixpoint add_group (k : list nat) (c : list (nat * bool)) (gs : list (list nat * list (list (nat * bool)))) : list (list nat * list (list (nat * bool))) :=
  match gs with
  | [] => [(k, [c])]
  | (k', cs) :: gs => if bool_decide (k = k') then (k', cs ++ [c]) :: gs else (k', cs) :: add_group k c gs
  end.
Definition group_clauses (cs : list (list (nat * bool))) : list (list nat * list (list (nat * bool))) :=
  fold_left (fun gs c => if Nat.eqb (length (var_set c)) (length c) then add_group (var_set c) c gs else gs) cs [].
(** xorsat.rs:222-229: the assignment a clause forbids, one bit per variable of the group. *)
Definition forbidden (vars : list nat) (c : list (nat * bool)) : N :=
  fold_left (fun a l => if (l : nat * bool).2 then a else N.lor a (2 ^ N.of_nat (default 0 (row_of vars l.1)))) c 0%N.
(** [u32::count_ones]. *)
Definition ones (n : N) : nat := length (List.filter (fun i => N.testbit_nat n i) (seq 0 32)).
(** xorsat.rs:217-243: the checks over the clauses of a group. *)
Fixpoint gadget_parity (vars : list nat) (seen : list N) (parity : option bool) (cs : list (list (nat * bool))) : option (option bool) :=
  match cs with
  | [] => Some parity
  | c :: cs =>
      let a := forbidden vars c in
      if bool_decide (a ∈ seen) then None
      else let p := Nat.odd (ones a) in
           match parity with
           | None => gadget_parity vars (a :: seen) (Some p) cs
           | Some q => if Bool.eqb q p then gadget_parity vars (a :: seen) parity cs else None
           end
  end.
(** xorsat.rs:213-247: the equation of a group, if it is a gadget. *)
Definition gadget (g : list nat * list (list (nat * bool))) : option xor_eq :=
  let k := length g.1 in
  if Nat.eqb k 0 || Nat.ltb 31 k || negb (Nat.eqb (length g.2) (2 ^ (k - 1))) then None
  else parity ← gadget_parity g.1 [] None g.2; Some (XorEq g.1 (negb (default false parity))).
(** xorsat.rs:193-252 [refute_via_parity]. *)
Definition refute_via_parity (e : pexpr) : bool :=
  match collect_clauses e ∅ with
  | None => false
  | Some (cs, idx) =>
      match omap gadget (group_clauses cs) with
      | [] => false
      | eqs => match xor_solve eqs (size idx) with XUnsat _ => true | XSat _ => false end
      end
  end.

(** ** gf2.rs *)
(** gf2.rs:28-43 [is_invertible_gf2]. *)
Definition is_invertible (n : nat) (rows : list N) : bool :=
  Nat.eqb (length (eliminate N.testbit_nat N.lxor n rows).2) n.
(** gf2.rs:70-75 *)
Record space : Type := Space { sp_vars : nat; particular : list bool; kernel_basis : list (list bool) }.
(** gf2.rs:79-81 [count]. *)
Definition sp_count (s : space) : N := 2 ^ N.of_nat (length (kernel_basis s)).
(** gf2.rs:85-100 [enumerate]. *)
Definition enumerate (s : space) : list (list bool) :=
  let k := length (kernel_basis s) in
  map (fun mask => fold_left (fun x b => if N.testbit_nat (N.of_nat mask) b then zip_with xorb x (default [] (kernel_basis s !! b)) else x) (seq 0 k) (particular s))
      (seq 0 (2 ^ k)).
(** gf2.rs:107-109: the augmented rows. *)
Definition augment (n : nat) (rows : list N) (rhs : list bool) : list N :=
  zip_with (fun c b => N.lor (N.land c (N.ones (N.of_nat n))) (N.shiftl (N.b2n b) (N.of_nat n))) rows rhs.
(** gf2.rs:106-154 [solve_gf2]. The outer option is a panic: for [n] = 64 the shift of a right-hand side
    by [n] overflows, for more already the mask does. *)
Definition solve_gf2 (n : nat) (rows : list N) (rhs : list bool) : option (option space) :=
  if Nat.ltb 64 n then None
  else if Nat.eqb n 64 && negb (Nat.eqb (Nat.min (length rows) (length rhs)) 0) then None
  else Some (
    let '(aug, pivots) := eliminate N.testbit_nat N.lxor n (augment n rows rhs) in
    if existsb (fun r => N.eqb (N.land r (N.ones (N.of_nat n))) 0 && N.testbit_nat r n) aug then None
    else
      let at_row c f := match row_of pivots c with Some r => match aug !! r with Some row => N.testbit_nat row f | None => false end | None => false end in
      Some (Space n (map (fun c => at_row c n) (seq 0 n))
                    (map (fun f => map (fun c => Nat.eqb c f || at_row c f) (seq 0 n)) (List.filter (fun f => negb (bool_decide (f ∈ pivots))) (seq 0 n))))).
