(** Model of crates/logicaffeine_data/src/crdt: clocks, contexts, counters, registers.

    Simplifications, for all types of this file.
    - [u64] counters are unbounded [N]; overflow of a counter is not modelled.
    - [HashMap]/[HashSet] are [gmap]/[gset]; a [for] loop over a hash map is a
      [fold_left] over the list of its entries. Rust's iteration order is
      unspecified; the proofs show the result does not depend on the order.
    - [generate_replica_id] (random ids) is not modelled; ids are parameters. *)
From stdpp Require Import gmap.

(** ** Vector clocks: causal/vclock.rs *)

(** vclock.rs:15-17, [VClock]. *)
Notation vclock := (gmap N N).

(** vclock.rs:33-35, [VClock::get]. *)
Definition vc_get (v : vclock) (r : N) : N := default 0%N (v !! r).

(** vclock.rs:26-30, [VClock::increment] (the returned counter is [vc_get] of the result). *)
Definition vc_increment (v : vclock) (r : N) : vclock := <[r := (vc_get v r + 1)%N]> v.

(** vclock.rs:40-47, [VClock::dominates]: the loop over [other.entries]. *)
Fixpoint vc_dominates_loop (self : vclock) (l : list (N * N)) : bool :=
  match l with
  | [] => true
  | (replica, count) :: l' =>
    if (vc_get self replica <? count)%N then false else vc_dominates_loop self l'
  end.
Definition vc_dominates (self other : vclock) : bool :=
  vc_dominates_loop self (map_to_list other).

(** vclock.rs:50-52, [VClock::concurrent]. *)
Definition vc_concurrent (self other : vclock) : bool :=
  negb (vc_dominates self other) && negb (vc_dominates other self).

(** The loop body shared by [VClock::merge_vclock] (vclock.rs:55-60),
    [GCounter::merge] (gcounter.rs:71-76), [PNCounter::merge] (pncounter.rs:88-96):
    [entry(replica).or_insert(0)], then [max]. *)
Definition max_step (m : gmap N N) (e : N * N) : gmap N N :=
  <[e.1 := N.max (default 0%N (m !! e.1)) e.2]> m.
Definition max_merge (self other : gmap N N) : gmap N N :=
  fold_left max_step (map_to_list other) self.

Definition vc_merge (self other : vclock) : vclock := max_merge self other.

(** ** Dot contexts: causal/context.rs *)

(** causal/dot.rs, [Dot] = (replica, counter). *)
Notation dot := (N * N)%type.

(** context.rs:17-22. *)
Record dotctx := { dc_clock : vclock; dc_cloud : gset dot }.

Definition dc_empty : dotctx := {| dc_clock := ∅; dc_cloud := ∅ |}.

(** context.rs:31-34, [DotContext::next]: new context and the issued dot. *)
Definition dc_next (c : dotctx) (r : N) : dotctx * dot :=
  let clk := vc_increment (dc_clock c) r in
  ({| dc_clock := clk; dc_cloud := dc_cloud c |}, (r, vc_get clk r)).

(** context.rs:37-39, [DotContext::has_seen]. *)
Definition dc_has_seen (c : dotctx) (d : dot) : bool :=
  (d.2 <=? vc_get (dc_clock c) d.1)%N || bool_decide (d ∈ dc_cloud c).

(** context.rs:59-69, [compact_replica]. The [loop] removes one cloud element per
    round, so [size cloud] rounds plus one suffice: [fuel] is never exhausted. *)
Fixpoint dc_compact_replica_loop (fuel : nat) (c : dotctx) (r : N) : dotctx :=
  match fuel with
  | 0 => c
  | S fuel' =>
    let next_dot := (r, (vc_get (dc_clock c) r + 1)%N) in
    if decide (next_dot ∈ dc_cloud c) then
      dc_compact_replica_loop fuel'
        {| dc_clock := vc_increment (dc_clock c) r; dc_cloud := dc_cloud c ∖ {[next_dot]} |} r
    else c
  end.
Definition dc_compact_replica (c : dotctx) (r : N) : dotctx :=
  dc_compact_replica_loop (S (size (dc_cloud c))) c r.

(** context.rs:45-56, [DotContext::add]. *)
Definition dc_add (c : dotctx) (d : dot) : dotctx :=
  if (d.2 =? vc_get (dc_clock c) d.1 + 1)%N then
    dc_compact_replica {| dc_clock := vc_increment (dc_clock c) d.1; dc_cloud := dc_cloud c |} d.1
  else if (vc_get (dc_clock c) d.1 <? d.2)%N then
    {| dc_clock := dc_clock c; dc_cloud := {[d]} ∪ dc_cloud c |}
  else c.

(** context.rs:72-77, [compact]. *)
Definition dc_compact (c : dotctx) : dotctx :=
  fold_left dc_compact_replica ((elements (dc_cloud c)).*1) c.

(** context.rs:80-88, [DotContext::merge]. *)
Definition dc_merge_cloud_step (c : dotctx) (d : dot) : dotctx :=
  if dc_has_seen c d then c
  else {| dc_clock := dc_clock c; dc_cloud := {[d]} ∪ dc_cloud c |}.
Definition dc_merge (self other : dotctx) : dotctx :=
  let c1 := {| dc_clock := vc_merge (dc_clock self) (dc_clock other); dc_cloud := dc_cloud self |} in
  dc_compact (fold_left dc_merge_cloud_step (elements (dc_cloud other)) c1).

(** ** Grow-only counter: gcounter.rs *)

(** gcounter.rs:20-25. *)
Record gcounter := { gc_counts : gmap N N; gc_id : N }.

(** gcounter.rs:37-42, [with_replica_id]. *)
Definition gc_new (id : N) : gcounter := {| gc_counts := ∅; gc_id := id |}.

(** gcounter.rs:45-47. *)
Definition gc_increment (amount : N) (c : gcounter) : gcounter :=
  {| gc_counts := <[gc_id c := (default 0 (gc_counts c !! gc_id c) + amount)%N]> (gc_counts c);
     gc_id := gc_id c |}.

(** gcounter.rs:50-52: [counts.values().sum()]. *)
Definition map_sum (m : gmap N N) : N := foldr N.add 0%N (map_to_list m).*2.
Definition gc_value (c : gcounter) : N := map_sum (gc_counts c).

(** gcounter.rs:71-76. *)
Definition gc_merge (self other : gcounter) : gcounter :=
  {| gc_counts := max_merge (gc_counts self) (gc_counts other); gc_id := gc_id self |}.

(** ** Up/down counter: pncounter.rs *)

(** pncounter.rs:26-36. *)
Record pncounter := { pn_inc : gmap N N; pn_dec : gmap N N; pn_id : N; pn_version : vclock }.

(** pncounter.rs:50-57. *)
Definition pn_new (id : N) : pncounter :=
  {| pn_inc := ∅; pn_dec := ∅; pn_id := id; pn_version := ∅ |}.

(** pncounter.rs:60-63. *)
Definition pn_increment (amount : N) (c : pncounter) : pncounter :=
  {| pn_inc := <[pn_id c := (default 0 (pn_inc c !! pn_id c) + amount)%N]> (pn_inc c);
     pn_dec := pn_dec c; pn_id := pn_id c; pn_version := vc_increment (pn_version c) (pn_id c) |}.

(** pncounter.rs:66-69. *)
Definition pn_decrement (amount : N) (c : pncounter) : pncounter :=
  {| pn_inc := pn_inc c;
     pn_dec := <[pn_id c := (default 0 (pn_dec c !! pn_id c) + amount)%N]> (pn_dec c);
     pn_id := pn_id c; pn_version := vc_increment (pn_version c) (pn_id c) |}.

(** pncounter.rs:72-76, without the 64-bit reinterpretation of the sums. *)
Definition pn_value (c : pncounter) : Z := (Z.of_N (map_sum (pn_inc c)) - Z.of_N (map_sum (pn_dec c)))%Z.

(** pncounter.rs:88-98. *)
Definition pn_merge (self other : pncounter) : pncounter :=
  {| pn_inc := max_merge (pn_inc self) (pn_inc other);
     pn_dec := max_merge (pn_dec self) (pn_dec other);
     pn_id := pn_id self; pn_version := vc_merge (pn_version self) (pn_version other) |}.

(** pncounter.rs:15-19, 104-117, 119-130: deltas. *)
Record pndelta := { pd_inc : gmap N N; pd_dec : gmap N N; pd_version : vclock }.
Definition pn_delta_since (c : pncounter) (since : vclock) : option pndelta :=
  if vc_dominates since (pn_version c) then None
  else Some {| pd_inc := pn_inc c; pd_dec := pn_dec c; pd_version := pn_version c |}.
Definition pn_apply_delta (self : pncounter) (d : pndelta) : pncounter :=
  {| pn_inc := max_merge (pn_inc self) (pd_inc d);
     pn_dec := max_merge (pn_dec self) (pd_dec d);
     pn_id := pn_id self; pn_version := vc_merge (pn_version self) (pd_version d) |}.

(** ** Last-writer-wins register: lww.rs *)

(** lww.rs:25-29. *)
Record lww (T : Type) := { lww_value : T; lww_ts : N }.
Arguments lww_value {T} _.
Arguments lww_ts {T} _.

(** lww.rs:42-44. *)
Definition lww_new {T} (v : T) (ts : N) : lww T := {| lww_value := v; lww_ts := ts |}.
(** lww.rs:50-53. *)
Definition lww_set {T} (v : T) (ts : N) (_ : lww T) : lww T := {| lww_value := v; lww_ts := ts |}.
(** lww.rs:71-76. *)
Definition lww_merge {T} (self other : lww T) : lww T :=
  if (lww_ts self <=? lww_ts other)%N
  then {| lww_value := lww_value other; lww_ts := lww_ts other |} else self.

(** ** Multi-value register: mvregister.rs *)

(** mvregister.rs:24-29. *)
Record mvreg (T : Type) := { mv_values : list (T * vclock); mv_id : N }.
Arguments mv_values {T} _.
Arguments mv_id {T} _.

Section MVRegister.
  Context {T : Type} `{EqDecision T}.

  (** mvregister.rs:33-38. *)
  Definition mv_new (id : N) : mvreg T := {| mv_values := []; mv_id := id |}.

  (** mvregister.rs:53-63, [set] (and [resolve], 76-78). *)
  Definition mv_set (v : T) (m : mvreg T) : mvreg T :=
    let combined := fold_left (fun acc e => vc_merge acc e.2) (mv_values m) (∅ : vclock) in
    {| mv_values := [(v, vc_increment combined (mv_id m))]; mv_id := mv_id m |}.

  (** mvregister.rs:99-101. *)
  Definition mv_is_dominated (all : list (T * vclock)) (clock : vclock) : bool :=
    existsb (fun e => vc_dominates e.2 clock && negb (bool_decide (e.2 = clock))) all.

  (** mvregister.rs:98-113, the filtering loop. *)
  Definition mv_filter_step (all : list (T * vclock)) (result : list (T * vclock)) (e : T * vclock)
    : list (T * vclock) :=
    if mv_is_dominated all e.2 then result
    else if existsb (fun f => bool_decide (f.1 = e.1) && bool_decide (f.2 = e.2)) result then result
    else result ++ [e].

  (** mvregister.rs:90-116, [merge]; 136-158, [apply_delta], has the same body. *)
  Definition mv_merge (self other : mvreg T) : mvreg T :=
    let all := mv_values self ++ mv_values other in
    {| mv_values := fold_left (mv_filter_step all) all []; mv_id := mv_id self |}.

  (** mvregister.rs:69-71. *)
  Definition mv_read (m : mvreg T) : list T := (mv_values m).*1.

  (** mvregister.rs:160-167. *)
  Definition mv_version (m : mvreg T) : vclock :=
    fold_left (fun acc e => vc_merge acc e.2) (mv_values m) (∅ : vclock).
End MVRegister.

(** ** Delta buffer: delta_buffer.rs *)

(** delta_buffer.rs:15-22. *)
Record dbuf (D : Type) := { db_deltas : list (vclock * D); db_max : nat; db_oldest : vclock }.
Arguments db_deltas {D} _.
Arguments db_max {D} _.
Arguments db_oldest {D} _.

(** delta_buffer.rs:26-32. *)
Definition db_new {D} (max_size : nat) : dbuf D :=
  {| db_deltas := []; db_max := max_size; db_oldest := ∅ |}.

(** delta_buffer.rs:35-42, [push]. *)
Definition db_push {D} (b : dbuf D) (version : vclock) (delta : D) : dbuf D :=
  let b' :=
    if db_max b <=? length (db_deltas b) then
      match db_deltas b with
      | [] => b
      | (old_version, _) :: rest =>
        {| db_deltas := rest; db_max := db_max b; db_oldest := old_version |}
      end
    else b in
  {| db_deltas := db_deltas b' ++ [(version, delta)]; db_max := db_max b'; db_oldest := db_oldest b' |}.

(** delta_buffer.rs:48-64, [deltas_since]. *)
Definition db_since {D} (b : dbuf D) (version : vclock) : option (list D) :=
  if negb (bool_decide (db_oldest b = ∅)) && vc_dominates (db_oldest b) version then None
  else Some ((filter (fun e => negb (vc_dominates version e.1)) (db_deltas b)).*2).
