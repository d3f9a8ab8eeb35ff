(** Resolution width: [/repo/crates/logicaffeine_proof/src/res_width.rs] lines 25-157.

    Simplified: [u64] masks are [N]; a [BTreeSet] is a list in insertion order (the code iterates in sorted order); the
    worklist loop takes fuel, and [None] means that the fuel ran out.  [mask_clause] asserts that variables are below 63; the
    theorems take that as a hypothesis. *)
From Coq Require Import List Arith NArith Bool.
Import ListNotations.

(** [Lit]: variable and sign. *)
Definition lit : Type := nat * bool.
(** [MaskClause] (29). *)
Definition mask : Type := N * N.
(** [WidthConvention] (33-40). *)
Inductive convention := Strict | WideAxioms.

(** [mask_clause] (43-54). *)
Definition mask_clause (c : list lit) : mask :=
  fold_left (fun m l => if snd l : bool then (N.lor (fst m) (N.shiftl 1 (N.of_nat (fst l))), snd m)
                        else (fst m, N.lor (snd m) (N.shiftl 1 (N.of_nat (fst l))))) c (0%N, 0%N).
(** [u64::count_ones]. *)
Definition count_ones (x : N) : nat := length (filter (fun i => N.testbit_nat x i) (seq 0 64)).
(** [mask_width] (57-59). *)
Definition mask_width (c : mask) : nat := count_ones (fst c) + count_ones (snd c).
(** [resolve_masks] (65-71). *)
Definition resolve_masks (a b : mask) : option mask :=
  let clash := N.lor (N.land (fst a) (snd b)) (N.land (snd a) (fst b)) in
  if negb (count_ones clash =? 1) then None
  else Some (N.ldiff (N.lor (fst a) (fst b)) clash, N.ldiff (N.lor (snd a) (snd b)) clash).

Definition mask_eqb (a b : mask) : bool := N.eqb (fst a) (fst b) && N.eqb (snd a) (snd b).
(** [BTreeSet::contains], [insert]. *)
Definition contains (m : mask) (s : list mask) : bool := existsb (mask_eqb m) s.
Definition insert (m : mask) (s : list mask) : list mask := if contains m s then s else s ++ [m].

(** [seed] (75-82). *)
Definition wide (cv : convention) : bool := match cv with WideAxioms => true | Strict => false end.
Definition seed (clauses : list (list lit)) (w : nat) (cv : convention) : list mask :=
  fold_left (fun s m => insert m s)
    (filter (fun m => wide cv || (mask_width m <=? w))
       (filter (fun m => N.eqb (N.land (fst m) (snd m)) 0) (map mask_clause clauses))) [].

(** [resolution_width_closure] (89-108): one pass over the snapshot (98-104) and the loop (96-106).  The head of the list is
    the end of the worklist. *)
Definition visit (w : nat) (a : mask) (st : list mask * list mask) (b : mask) : list mask * list mask :=
  match resolve_masks a b with
  | Some r => if (mask_width r <=? w) && negb (contains r (fst st)) then (insert r (fst st), r :: snd st) else st
  | None => st
  end.
Definition pass (w : nat) (a : mask) (snapshot : list mask) (st : list mask * list mask) : list mask * list mask :=
  fold_left (visit w a) snapshot st.
Fixpoint close (fuel : nat) (w : nat) (set worklist : list mask) : option (list mask) :=
  match fuel with
  | O => None
  | S f =>
      match worklist with
      | [] => Some set
      | a :: rest => let '(set', wl') := pass w a set (set, rest) in close f w set' wl'
      end
  end.
Definition resolution_width_closure (fuel : nat) (clauses : list (list lit)) (w : nat) (cv : convention) : option (list mask) :=
  let set := seed clauses w cv in close fuel w set (rev set).

(** [width_refutes] (111-113). *)
Definition width_refutes (fuel : nat) (clauses : list (list lit)) (w : nat) (cv : convention) : option bool :=
  match resolution_width_closure fuel clauses w cv with Some s => Some (contains (0%N, 0%N) s) | None => None end.
(** [min_res_width_clauses] (117-123): the outer option is the fuel. *)
Fixpoint find_width (fuel : nat) (clauses : list (list lit)) (cv : convention) (ws : list nat) : option (option nat) :=
  match ws with
  | [] => Some None
  | w :: ws' =>
      match width_refutes fuel clauses w cv with
      | Some true => Some (Some w)
      | Some false => find_width fuel clauses cv ws'
      | None => None
      end
  end.
Definition min_res_width_clauses (fuel : nat) (num_vars : nat) (clauses : list (list lit)) (cv : convention) : option (option nat) :=
  find_width fuel clauses cv (seq 0 (S num_vars)).

(** [check_res_width_lower_bound] (131-157). *)
Fixpoint pairs_ok (w : nat) (closed all : list mask) : bool :=
  match all with
  | [] => true
  | a :: rest =>
      forallb (fun b => match resolve_masks a b with
                        | Some r => negb ((mask_width r <=? w) && negb (contains r closed))
                        | None => true
                        end) (a :: rest)
      && pairs_ok w closed rest
  end.
Definition check_res_width_lower_bound (clauses : list (list lit)) (w : nat) (cv : convention) (closed : list mask) : bool :=
  if contains (0%N, 0%N) closed then false
  else if existsb (fun m => negb (N.eqb (N.land (fst m) (snd m)) 0)) closed then false
  else if negb (forallb (fun m => contains m closed) (seed clauses w cv)) then false
  else pairs_ok w closed closed.
