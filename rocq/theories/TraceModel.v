(** Commutation posets and shared-memory schedules:
    [/repo/crates/logicaffeine_proof/src/proof_rewrite.rs] lines 37-187 and 246-264, and
    [/repo/crates/logicaffeine_proof/src/trace_determinism.rs] lines 27-73.

    Simplified: the bit masks are natural numbers without a width (the code uses [u64], for at most 20 steps); the
    Boolean matrix is a function on index pairs; [i64] cells are integers and the [fn] pointer of an operation is any
    function. Reading or writing a cell outside the state panics in the code; here it reads 0 and writes nothing, so the
    theorems speak about operations that stay inside the state. *)
From Coq Require Import List Arith NArith ZArith Bool.
Import ListNotations.

(** [ProofPoset] (proof_rewrite.rs:41-44). *)
Record poset := Poset { size : nat; prec : nat -> nat -> bool }.
Definition set2 (m : nat -> nat -> bool) (a b : nat) : nat -> nat -> bool :=
  fun i j => if (i =? a) && (j =? b) then true else m i j.
(** The closure loops (53-63). *)
Definition close_row (n k i : nat) (m : nat -> nat -> bool) : nat -> nat -> bool :=
  if m i k then fold_left (fun (m : nat -> nat -> bool) j => if m k j then set2 m i j else m) (seq 0 n) m else m.
Definition close_stage (n : nat) (m : nat -> nat -> bool) (k : nat) : nat -> nat -> bool :=
  fold_left (fun (m : nat -> nat -> bool) i => close_row n k i m) (seq 0 n) m.
(** [ProofPoset::new] (48-65). *)
Definition poset_new (n : nat) (edges : list (nat * nat)) : poset :=
  let m := fold_left (fun m e => set2 m (fst e) (snd e)) edges (fun _ _ => false) in
  Poset n (fold_left (close_stage n) (seq 0 n) m).
(** [precedes] (67-69), [independent] (72-74). *)
Definition precedes (p : poset) (i j : nat) : bool := prec p i j.
Definition independent (p : poset) (i j : nat) : bool := negb (i =? j) && negb (prec p i j) && negb (prec p j i).

Definition has (mask : N) (j : nat) : bool := N.testbit mask (N.of_nat j).
Definition add (mask : N) (j : nat) : N := N.setbit mask (N.of_nat j).
(** All predecessors of [j] are in the mask (79 and 91). *)
Definition preds_in (p : poset) (mask : N) (j : nat) : bool := forallb (fun i => negb (prec p i j) || has mask i) (seq 0 (size p)).
(** [is_ideal] (77-81), [ideals] (84-86), [enabled] (89-93). *)
Definition is_ideal (p : poset) (mask : N) : bool := forallb (fun j => negb (has mask j) || preds_in p mask j) (seq 0 (size p)).
Definition masks (n : nat) : list N := map N.of_nat (seq 0 (2 ^ n)).
Definition ideals (p : poset) : list N := List.filter (is_ideal p) (masks (size p)).
Definition enabled (p : poset) (ideal : N) : list nat :=
  List.filter (fun j => negb (has ideal j) && preds_in p ideal j) (seq 0 (size p)).
(** [is_pairwise_independent] (95-97). *)
Definition is_pairwise_independent (p : poset) (s : list nat) : bool :=
  forallb (fun a => forallb (fun b => independent p (nth a s 0) (nth b s 0)) (seq (a + 1) (length s - (a + 1)))) (seq 0 (length s)).
(** The subset selected by a mask (104 and 130). *)
Definition subset (items : list nat) (mask : N) : list nat :=
  map (fun b => nth b items 0) (List.filter (has mask) (seq 0 (length items))).
(** [signed_independent_subsets] (100-110). *)
Definition signed_independent_subsets (p : poset) (items : list nat) : Z :=
  fold_left (fun total mask =>
    let s := subset items mask in
    if is_pairwise_independent p s then (total + if Nat.even (length s) then 1 else -1)%Z else total)
    (masks (length items)) 0%Z.
(** [euler_characteristic] (115-117). *)
Definition euler_characteristic (p : poset) : Z :=
  fold_left (fun t ideal => (t + signed_independent_subsets p (enabled p ideal))%Z) (ideals p) 0%Z.
(** [satisfies_cube_condition] (123-139). *)
Definition satisfies_cube_condition (p : poset) : bool :=
  forallb (fun ideal =>
    let en := enabled p ideal in
    forallb (fun mask =>
      let s := subset en mask in
      if negb (is_pairwise_independent p s) then true
      else is_ideal p (fold_left add s ideal)) (masks (length en))) (ideals p).
(** [le_rec] (165-175): [k] counts the steps still to place, [self.n - cur.len()]. *)
Fixpoint le_rec (p : poset) (k : nat) (mask : N) (cur : list nat) : list (list nat) :=
  match k with
  | O => [cur]
  | S k => flat_map (fun j => le_rec p k (add mask j) (cur ++ [j])) (enabled p mask)
  end.
(** [linear_extensions] (159-163). *)
Definition linear_extensions (p : poset) : list (list nat) := le_rec p (size p) 0 [].
(** [iter().min()]. *)
Definition list_min (l : list nat) : option nat :=
  match l with [] => None | a :: l => Some (fold_left Nat.min l a) end.
(** [canonical_extension] (180-189); [None] is the panic of [expect]. *)
Fixpoint canonical_rec (p : poset) (k : nat) (mask : N) (order : list nat) : option (list nat) :=
  match k with
  | O => Some order
  | S k => match list_min (enabled p mask) with
           | Some next => canonical_rec p k (add mask next) (order ++ [next])
           | None => None
           end
  end.
Definition canonical_extension (p : poset) : option (list nat) := canonical_rec p (size p) 0 [].

(** [permutations] (247-264): swap, recurse, swap back. *)
Fixpoint set_nth {A} (l : list A) (i : nat) (x : A) : list A :=
  match l, i with [], _ => [] | _ :: l, O => x :: l | a :: l, S i => a :: set_nth l i x end.
Definition swap (l : list nat) (i j : nat) : list nat := set_nth (set_nth l i (nth j l 0)) j (nth i l 0).
Fixpoint perm_rec (k : nat) (arr : list nat) (i : nat) : list (list nat) :=
  match k with
  | O => [arr]
  | S k => flat_map (fun j => perm_rec k (swap arr i j) (i + 1)) (seq i (length arr - i))
  end.
Definition permutations (k : nat) : list (list nat) := perm_rec k (seq 0 k) 0.

(** [Op] (trace_determinism.rs:31-35) and [apply] (39-42). *)
Record op := Op { reads : list nat; write : nat; fn : list Z -> Z }.
Definition apply (o : op) (state : list Z) : list Z :=
  set_nth state (write o) (fn o (map (fun r => nth r state 0%Z) (reads o))).
(** [bernstein_independent] (48-50). *)
Definition contains (l : list nat) (x : nat) : bool := existsb (Nat.eqb x) l.
Definition bernstein_independent (a b : op) : bool :=
  negb (write a =? write b) && negb (contains (reads b) (write a)) && negb (contains (reads a) (write b)).
(** [run] (53-59). *)
Definition idle : op := Op [] 0 (fun _ => 0%Z).
Definition run (ops : list op) (schedule : list nat) (init : list Z) : list Z :=
  fold_left (fun st i => apply (nth i ops idle) st) schedule init.
(** [trace_poset] (64-74). *)
Definition conflicts (ops : list op) : list (nat * nat) :=
  flat_map (fun i => flat_map (fun j => if bernstein_independent (nth i ops idle) (nth j ops idle) then [] else [(i, j)])
                      (seq (i + 1) (length ops - (i + 1)))) (seq 0 (length ops)).
Definition trace_poset (ops : list op) : poset := poset_new (length ops) (conflicts ops).
