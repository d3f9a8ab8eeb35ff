(** Model of crates/logicaffeine_data/src/crdt/sequence/rga.rs and yata.rs.
    Timestamps, clocks and replica ids are unbounded [N]; positions are [nat]. *)
From stdpp Require Import gmap.
From Verif Require Import CrdtModel StableSort.

(** rga.rs:24-29 and 37-45; yata.rs:23-28 and 36-43: (timestamp, replica), ordered
    by timestamp and then replica. *)
Notation rid := (N * N)%type.
Definition rid_leb (a b : rid) : bool := ((a.1 <? b.1) || ((a.1 =? b.1) && (a.2 <=? b.2)))%N.

(** rga.rs:55-61. *)
Record node (T : Type) := { n_id : rid; n_val : T; n_del : bool; n_parent : option rid }.
Arguments n_id {T} _.
Arguments n_val {T} _.
Arguments n_del {T} _.
Arguments n_parent {T} _.

(** rga.rs:68-75. *)
Record rga (T : Type) := { rg_nodes : list (node T); rg_ts : N; rg_id : N }.
Arguments rg_nodes {T} _.
Arguments rg_ts {T} _.
Arguments rg_id {T} _.

Section RGA.
  Context {T : Type}.
  Implicit Types l : list (node T).

  (** rga.rs:79-85. *)
  Definition rg_new (id : N) : rga T := {| rg_nodes := []; rg_ts := 0; rg_id := id |}.

  (** rga.rs:182-190: [children_map], one entry at a time: the nodes with this
      parent, highest id first. *)
  Definition children l (p : option rid) : list (node T) :=
    sort_by (fun a b => rid_leb (n_id b) (n_id a)) (filter (fun n => n_parent n = p) l).

  (** rga.rs:193-214. The stack is a list with its top first, so pushing the children
      in reverse order puts them in front in order. Each round appends one node to
      the result; with distinct ids no node is met twice, so one round per node is
      enough ([fuel]). *)
  Fixpoint rg_loop (fuel : nat) l (stack result : list (node T)) : list (node T) :=
    match fuel with
    | 0 => result
    | S fuel' =>
      match stack with
      | [] => result
      | n :: rest => rg_loop fuel' l (children l (Some (n_id n)) ++ rest) (result ++ [n])
      end
    end.
  Definition rg_sorted l : list (node T) := rg_loop (length l) l (children l None) [].

  (** rga.rs:173-177, 153-155, 163-165, 148-150. *)
  Definition rg_visible (s : rga T) : list (node T) := filter (fun n => n_del n = false) (rg_sorted (rg_nodes s)).
  Definition rg_to_vec (s : rga T) : list T := n_val <$> rg_visible s.
  Definition rg_len (s : rga T) : nat := length (rg_visible s).
  Definition rg_get (s : rga T) (i : nat) : option T := n_val <$> (rg_visible s !! i).
  (** rga.rs:218-224 and 227-229. *)
  Definition rg_last_visible_id (s : rga T) : option rid := n_id <$> last (rg_visible s).
  Definition rg_visible_id_at (s : rga T) (i : nat) : option rid := n_id <$> (rg_visible s !! i).

  (** The common part of rga.rs:94-103, 110-117 and 127-135. *)
  Definition rg_push (v : T) (parent : option rid) (s : rga T) : rga T :=
    {| rg_nodes := rg_nodes s ++
         [{| n_id := ((rg_ts s + 1)%N, rg_id s); n_val := v; n_del := false; n_parent := parent |}];
       rg_ts := (rg_ts s + 1)%N; rg_id := rg_id s |}.
  (** rga.rs:93-104. *)
  Definition rg_append (v : T) (s : rga T) : rga T := rg_push v (rg_last_visible_id s) s.
  (** rga.rs:125-136. *)
  Definition rg_insert_after (i : nat) (v : T) (s : rga T) : rga T := rg_push v (rg_visible_id_at s i) s.
  (** rga.rs:107-122. *)
  Definition rg_insert_before (i : nat) (v : T) (s : rga T) : rga T :=
    match i with 0 => rg_push v None s | S j => rg_insert_after j v s end.

  (** Set [deleted] on the first node with this id (rga.rs:141-143 and 244-248). *)
  Definition set_deleted (n : node T) : node T :=
    {| n_id := n_id n; n_val := n_val n; n_del := true; n_parent := n_parent n |}.
  Fixpoint mark_deleted (id : rid) l : list (node T) :=
    match l with
    | [] => []
    | n :: l' => if decide (n_id n = id) then set_deleted n :: l' else n :: mark_deleted id l'
    end.
  (** rga.rs:139-145. *)
  Definition rg_remove (i : nat) (s : rga T) : rga T :=
    match rg_visible_id_at s i with
    | Some id => {| rg_nodes := mark_deleted id (rg_nodes s); rg_ts := rg_ts s; rg_id := rg_id s |}
    | None => s
    end.

  (** rga.rs:238-250, one iteration; the same as 279-288. *)
  Definition rg_merge_step l (m : node T) : list (node T) :=
    if existsb (fun n => bool_decide (n_id n = n_id m)) l then
      (if n_del m then mark_deleted (n_id m) l else l)
    else l ++ [m].
  (** rga.rs:233-251. *)
  Definition rg_merge (self other : rga T) : rga T :=
    {| rg_nodes := fold_left rg_merge_step (rg_nodes other) (rg_nodes self);
       rg_ts := N.max (rg_ts self) (rg_ts other); rg_id := rg_id self |}.

  (** rga.rs:291-304: raise the entry of each node's replica to its timestamp
      (the loop of single increments is one assignment). *)
  Definition rg_version_step (clock : vclock) (n : node T) : vclock :=
    if (vc_get clock (n_id n).2 <? (n_id n).1)%N then <[(n_id n).2 := (n_id n).1]> clock else clock.
  Definition rg_version (s : rga T) : vclock := fold_left rg_version_step (rg_nodes s) ∅.

  (** rga.rs:257-274 and 276-289; a delta is a list of nodes and a timestamp. *)
  Definition rg_delta_since (s : rga T) (since : vclock) : option (list (node T) * N) :=
    if vc_dominates since (rg_version s) then None
    else Some (filter (fun n => (vc_get since (n_id n).2 < (n_id n).1)%N) (rg_nodes s), rg_ts s).
  Definition rg_apply_delta (s : rga T) (d : list (node T) * N) : rga T :=
    {| rg_nodes := fold_left rg_merge_step d.1 (rg_nodes s); rg_ts := N.max (rg_ts s) d.2; rg_id := rg_id s |}.
End RGA.

(** ** YATA: yata.rs *)

(** yata.rs:53-61 and 68-72. *)
Record yitem (T : Type) :=
  { y_id : rid; y_val : T; y_del : bool; y_left : option rid; y_right : option rid }.
Arguments y_id {T} _.
Arguments y_val {T} _.
Arguments y_del {T} _.
Arguments y_left {T} _.
Arguments y_right {T} _.
Record yata (T : Type) := { ya_items : list (yitem T); ya_clock : N; ya_id : N }.
Arguments ya_items {T} _.
Arguments ya_clock {T} _.
Arguments ya_id {T} _.

Section YATA.
  Context {T : Type}.
  Implicit Types l : list (yitem T).

  (** yata.rs:76-82. *)
  Definition ya_new (id : N) : yata T := {| ya_items := []; ya_clock := 0; ya_id := id |}.

  (** yata.rs:184-191 and 197-204: items with this left origin, in ascending order. *)
  Definition followers l (p : option rid) : list (yitem T) :=
    sort_by (fun a b => rid_leb (y_id a) (y_id b)) (filter (fun n => y_left n = p) l).
  (** yata.rs:193-207; [to_process] is kept with its end, where [pop] takes, as in
      the code: the last element of the list. *)
  Fixpoint ya_loop (fuel : nat) l (to_process result : list (yitem T)) : list (yitem T) :=
    match fuel with
    | 0 => result
    | S fuel' =>
      match last to_process with
      | None => result
      | Some item =>
        ya_loop fuel' l (removelast to_process ++ followers l (Some (y_id item))) (result ++ [item])
      end
    end.
  (** yata.rs:180-210. *)
  Definition ya_sorted l : list (yitem T) := ya_loop (length l) l (followers l None) [].

  (** yata.rs:175-177, 165-167, 155-157, 150-152, 212-222. *)
  Definition ya_visible (s : yata T) : list (yitem T) := filter (fun n => y_del n = false) (ya_sorted (ya_items s)).
  Definition ya_to_vec (s : yata T) : list T := y_val <$> ya_visible s.
  Definition ya_len (s : yata T) : nat := length (ya_visible s).
  Definition ya_get (s : yata T) (i : nat) : option T := y_val <$> (ya_visible s !! i).
  Definition ya_last_visible_id (s : yata T) : option rid := y_id <$> last (ya_visible s).
  Definition ya_visible_id_at (s : yata T) (i : nat) : option rid := y_id <$> (ya_visible s !! i).

  Definition ya_push (v : T) (left right : option rid) (s : yata T) : yata T :=
    {| ya_items := ya_items s ++
         [{| y_id := ((ya_clock s + 1)%N, ya_id s); y_val := v; y_del := false; y_left := left; y_right := right |}];
       ya_clock := (ya_clock s + 1)%N; ya_id := ya_id s |}.
  (** yata.rs:90-102, 105-119, 122-138. *)
  Definition ya_append (v : T) (s : yata T) : yata T := ya_push v (ya_last_visible_id s) None s.
  Definition ya_insert_after (i : nat) (v : T) (s : yata T) : yata T :=
    ya_push v (ya_visible_id_at s i) (ya_visible_id_at s (i + 1)) s.
  Definition ya_insert_before (i : nat) (v : T) (s : yata T) : yata T :=
    match i with 0 => ya_push v None (ya_visible_id_at s 0) s | S j => ya_insert_after j v s end.

  Definition ya_set_deleted (n : yitem T) : yitem T :=
    {| y_id := y_id n; y_val := y_val n; y_del := true; y_left := y_left n; y_right := y_right n |}.
  Fixpoint ya_mark_deleted (id : rid) l : list (yitem T) :=
    match l with
    | [] => []
    | n :: l' => if decide (y_id n = id) then ya_set_deleted n :: l' else n :: ya_mark_deleted id l'
    end.
  (** yata.rs:141-147. *)
  Definition ya_remove (i : nat) (s : yata T) : yata T :=
    match ya_visible_id_at s i with
    | Some id => {| ya_items := ya_mark_deleted id (ya_items s); ya_clock := ya_clock s; ya_id := ya_id s |}
    | None => s
    end.

  (** yata.rs:226-239. *)
  Definition ya_merge_step l (m : yitem T) : list (yitem T) :=
    if existsb (fun n => bool_decide (y_id n = y_id m)) l then
      (if y_del m then ya_mark_deleted (y_id m) l else l)
    else l ++ [m].
  Definition ya_merge (self other : yata T) : yata T :=
    {| ya_items := fold_left ya_merge_step (ya_items other) (ya_items self);
       ya_clock := N.max (ya_clock self) (ya_clock other); ya_id := ya_id self |}.

  (** yata.rs:272-283, 245-255, 257-270. *)
  Definition ya_version_step (clock : vclock) (n : yitem T) : vclock :=
    if (vc_get clock (y_id n).2 <? (y_id n).1)%N then <[(y_id n).2 := (y_id n).1]> clock else clock.
  Definition ya_version (s : yata T) : vclock := fold_left ya_version_step (ya_items s) ∅.
  Definition ya_delta_since (s : yata T) (since : vclock) : option (list (yitem T) * N) :=
    if vc_dominates since (ya_version s) then None else Some (ya_items s, ya_clock s).
  Definition ya_apply_delta (s : yata T) (d : list (yitem T) * N) : yata T :=
    {| ya_items := fold_left ya_merge_step d.1 (ya_items s); ya_clock := N.max (ya_clock s) d.2; ya_id := ya_id s |}.
End YATA.
