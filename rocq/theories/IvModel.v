(** Model of interval scheduling and register allocation (crates/logicaffeine_proof/src/interval_sched.rs, register_alloc.rs). *)
From Coq Require Import ZArith List Bool.
From stdpp Require Import base list gmap.
Open Scope Z_scope.

(** interval_sched.rs 15-20. The code only compares times, so [Z] stands for i64. *)
Record interval := Iv { start : Z; stop : Z }.
(** 43-46. *)
Definition overlaps (a b : interval) : bool := (start a <? stop b) && (start b <? stop a).

(** Vec::sort_by is stable: an element is put before the first one it is at most. *)
Fixpoint insert_by {A} (le : A -> A -> bool) (x : A) (l : list A) : list A :=
  match l with [] => [x] | y :: l' => if le x y then x :: y :: l' else y :: insert_by le x l' end.
Fixpoint sort_by {A} (le : A -> A -> bool) (l : list A) : list A := match l with [] => [] | x :: l => insert_by le x (sort_by le l) end.

(** 54-60: (time, delta, index). *)
Notation event := (Z * Z * nat)%type.
Fixpoint events_from (i : nat) (tasks : list interval) : list event :=
  match tasks with
  | [] => []
  | t :: ts => (if start t <? stop t then [(start t, 1, i); (stop t, -1, i)] else []) ++ events_from (S i) ts
  end.
(** 61: first by time, then by delta. *)
Definition ev_le (a b : event) : bool := (a.1.1 <? b.1.1) || ((a.1.1 =? b.1.1) && (a.1.2 <=? b.1.2)).
Definition events (tasks : list interval) : list event := sort_by ev_le (events_from 0 tasks).
(** 62-73: [Some] of the tasks at the first overflow, if there is one. *)
Fixpoint sweep (machines : nat) (active : list nat) (es : list event) : option (list nat) :=
  match es with
  | [] => None
  | (_, d, i) :: es =>
      if d =? 1 then let active := active ++ [i] in if (machines <? length active)%nat then Some active else sweep machines active es
      else sweep machines (List.filter (fun x => negb (x =? i)%nat) active) es
  end.

(** 99-112. *)
Definition get (tasks : list interval) (i : nat) : interval := nth i tasks (Iv 0 0).
Definition i64_min : Z := - 2 ^ 63.
Fixpoint find_free (free : list Z) (s : Z) : option nat :=
  match free with [] => None | f :: free => if f <=? s then Some O else option_map S (find_free free s) end.
Fixpoint set_nth {A} (i : nat) (x : A) (l : list A) : list A :=
  match l, i with [], _ => [] | _ :: l, O => x :: l | y :: l, S i => y :: set_nth i x l end.
Definition place (tasks : list interval) (st : list Z * list nat) (i : nat) : list Z * list nat :=
  let '(free, assignment) := st in
  let m := match find_free free (start (get tasks i)) with Some m => m | None => O end in
  (set_nth m (stop (get tasks i)) free, set_nth i m assignment).
Definition order (tasks : list interval) : list nat := sort_by (fun i j => start (get tasks i) <=? start (get tasks j)) (seq 0 (length tasks)).
Definition greedy_assign (tasks : list interval) (machines : nat) : list nat :=
  (fold_left (place tasks) (order tasks) (repeat i64_min (Nat.max machines 1), repeat O (length tasks))).2.

(** 32-39, 51-75. *)
Inductive outcome := Feasible (assignment : list nat) | Infeasible (clique : list nat).
Definition schedule_or_overflow (tasks : list interval) (machines : nat) : outcome :=
  match sweep machines [] (events tasks) with Some w => Infeasible w | None => Feasible (greedy_assign tasks machines) end.

(** 79-95; the events carry an index here, which the sort does not look at. *)
Fixpoint peak_loop (cur peak : Z) (es : list event) : Z :=
  match es with [] => peak | (_, d, _) :: es => peak_loop (cur + d) (Z.max peak (cur + d)) es end.
Definition peak_concurrency (tasks : list interval) : Z := peak_loop 0 0 (events tasks).

(** 115-127. *)
Definition is_valid_schedule (tasks : list interval) (machines : nat) (a : list nat) : bool :=
  if negb (length a =? length tasks)%nat || existsb (fun m => (machines <=? m)%nat) a then false
  else forallb (fun i => forallb (fun j => negb ((nth i a O =? nth j a O)%nat && overlaps (get tasks i) (get tasks j))) (seq (S i) (length tasks - S i))) (seq 0 (length tasks)).
(** 131-142. *)
Fixpoint clique_from (tasks : list interval) (w : list nat) : bool :=
  match w with
  | [] => true
  | i :: w => ((i <? length tasks)%nat && forallb (fun j => (j <? length tasks)%nat && overlaps (get tasks i) (get tasks j)) w) && clique_from tasks w
  end.
Definition is_overflow_witness (tasks : list interval) (machines : nat) (w : list nat) : bool :=
  if (length w <=? machines)%nat then false else clique_from tasks w.

(** register_alloc.rs 16-24. *)
Record range := Lr { var : nat; live : interval }.
(** 34-48. *)
Inductive allocation := Allocated (reg_of : list (nat * nat)) | Spill (pressure : Z) (must_spill : list nat).
(** 51-54. *)
Definition register_pressure (rs : list range) : Z := peak_concurrency (map live rs).
(** 58-69. *)
Definition allocate (rs : list range) (registers : nat) : allocation :=
  match schedule_or_overflow (map live rs) registers with
  | Feasible reg => Allocated (zip (map var rs) reg)
  | Infeasible w => Spill (peak_concurrency (map live rs)) (map (fun i => var (nth i rs (Lr O (Iv 0 0)))) w)
  end.
(** Collecting pairs into a HashMap: a later pair replaces an earlier one with the same key. *)
Definition collect {A} (l : list (nat * A)) : gmap nat A := fold_left (fun m p => <[p.1 := p.2]> m) l ∅.
(** 77-97. *)
Definition is_valid_allocation (rs : list range) (registers : nat) (reg_of : list (nat * nat)) : bool :=
  if negb (length reg_of =? length rs)%nat then false
  else let reg := collect reg_of in
    if negb (size reg =? length rs)%nat || existsb (fun p => (registers <=? p.2)%nat) (map_to_list reg) then false
    else forallb (fun i => forallb (fun j =>
           negb (overlaps (live (nth i rs (Lr O (Iv 0 0)))) (live (nth j rs (Lr O (Iv 0 0)))) &&
                 bool_decide (reg !! var (nth i rs (Lr O (Iv 0 0))) = reg !! var (nth j rs (Lr O (Iv 0 0)))))) (seq (S i) (length rs - S i))) (seq 0 (length rs)).
(** 101-116. *)
Fixpoint spill_from (by_var : gmap nat interval) (w : list nat) : bool :=
  match w with
  | [] => true
  | v :: w => match by_var !! v with Some rv => forallb (fun u => match by_var !! u with Some ru => overlaps rv ru | None => false end) w | None => false end && spill_from by_var w
  end.
Definition is_spill_certificate (rs : list range) (registers : nat) (must_spill : list nat) : bool :=
  if (length must_spill <=? registers)%nat then false else spill_from (collect (map (fun r => (var r, live r)) rs)) must_spill.
