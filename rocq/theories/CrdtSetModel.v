(** Model of crates/logicaffeine_data/src/crdt/orset.rs and ormap.rs.
    Hash maps and sets are [gmap] and [gset]; loops over keys are folds; replica ids
    and counters are unbounded [N]. *)
From stdpp Require Import gmap.
From Verif Require Import CrdtModel.

(** ** Bias: orset.rs:40-105 *)

(** A bias is [resolve local_has_dots remote_has_dots local_removed remote_removed]. *)
Definition bias := bool -> bool -> bool -> bool -> bool.
(** orset.rs:70-79, [AddWins]. *)
Definition add_wins : bias := fun local_has remote_has _ _ => local_has || remote_has.
(** orset.rs:90-105, [RemoveWins]. *)
Definition remove_wins : bias := fun local_has remote_has local_removed remote_removed =>
  if local_removed || remote_removed then false else local_has || remote_has.

Section ORSet.
  Context {T : Type} `{Countable T}.

  (** orset.rs:114-124. *)
  Record orset := { os_entries : gmap T (gset dot); os_ctx : dotctx; os_id : N }.

  (** [entries.get(&value).cloned().unwrap_or_default()], orset.rs:211-220. *)
  Definition dots_of (m : gmap T (gset dot)) (v : T) : gset dot := default ∅ (m !! v).

  (** orset.rs:128-135. *)
  Definition os_new (id : N) : orset := {| os_entries := ∅; os_ctx := dc_empty; os_id := id |}.

  (** orset.rs:143-146, [add]. *)
  Definition os_add (v : T) (s : orset) : orset :=
    let '(c, d) := dc_next (os_ctx s) (os_id s) in
    {| os_entries := <[v := {[d]} ∪ dots_of (os_entries s) v]> (os_entries s); os_ctx := c; os_id := os_id s |}.

  (** orset.rs:156-158, [remove]. *)
  Definition os_remove (v : T) (s : orset) : orset :=
    {| os_entries := delete v (os_entries s); os_ctx := os_ctx s; os_id := os_id s |}.

  (** orset.rs:161-165, [contains]. *)
  Definition os_contains (s : orset) (v : T) : bool :=
    match os_entries s !! v with None => false | Some dots => negb (bool_decide (dots = ∅)) end.

  (** orset.rs:168-173, [len]. *)
  Definition os_len (s : orset) : nat :=
    length (filter (fun dots : gset dot => dots <> ∅) (map_to_list (os_entries s)).*2).

  (** [dots.iter().any(|d| ctx.has_seen(d))], orset.rs:226-229. *)
  Definition any_seen (c : dotctx) (dots : gset dot) : bool :=
    existsb (dc_has_seen c) (elements dots).

  (** orset.rs:232-246: my dots the other side has not seen or still has, and vice versa. *)
  Definition combined_dots (cself cother : dotctx) (mine theirs : gset dot) : gset dot :=
    filter (fun d => dc_has_seen cother d = false \/ d ∈ theirs) mine ∪
    filter (fun d => dc_has_seen cself d = false \/ d ∈ mine) theirs.

  (** orset.rs:210-260, the body of the loop over all keys. *)
  Definition os_merge_dots (B : bias) (cself cother : dotctx) (mine theirs : gset dot) : gset dot :=
    let my_removed := bool_decide (mine = ∅) && any_seen cself theirs in
    let other_removed := bool_decide (theirs = ∅) && any_seen cother mine in
    if B (negb (bool_decide (mine = ∅))) (negb (bool_decide (theirs = ∅))) my_removed other_removed
    then combined_dots cself cother mine theirs else ∅.
  Definition os_merge_key (B : bias) (self other : orset) (m : gmap T (gset dot)) (v : T) : gmap T (gset dot) :=
    <[v := os_merge_dots B (os_ctx self) (os_ctx other) (dots_of m v) (dots_of (os_entries other) v)]> m.

  (** orset.rs:201-267, [merge]. *)
  Definition os_merge (B : bias) (self other : orset) : orset :=
    let all_keys := elements ((dom (os_entries self) ∪ dom (os_entries other)) : gset T) in
    let m := fold_left (os_merge_key B self other) all_keys (os_entries self) in
    {| os_entries := filter (fun kv => (kv.2 : gset dot) <> ∅) m;
       os_ctx := dc_merge (os_ctx self) (os_ctx other); os_id := os_id self |}.

  (** orset.rs:313-315, [version] (context.rs:96-98 returns the clock). *)
  Definition os_version (s : orset) : vclock := dc_clock (os_ctx s).

  (** orset.rs:275-300, [delta_since]. *)
  Definition fresh_dots (since : vclock) (dots : gset dot) : gset dot :=
    filter (fun d => (vc_get since d.1 < d.2)%N) dots.
  Definition os_delta_step (since : vclock) (acc : gmap T (gset dot) * dotctx) (e : T * gset dot)
    : gmap T (gset dot) * dotctx :=
    let fresh := fresh_dots since e.2 in
    if bool_decide (fresh = ∅) then acc
    else (<[e.1 := fresh]> acc.1, fold_left dc_add (elements fresh) acc.2).
  Definition os_delta_since (s : orset) (since : vclock) : option (gmap T (gset dot) * dotctx) :=
    if vc_dominates since (os_version s) then None
    else Some (fold_left (os_delta_step since) (map_to_list (os_entries s)) (∅, dc_empty)).

  (** orset.rs:302-311, [apply_delta]. *)
  Definition os_apply_delta (B : bias) (s : orset) (d : gmap T (gset dot) * dotctx) : orset :=
    os_merge B s {| os_entries := d.1; os_ctx := d.2; os_id := 0%N |}.
End ORSet.
Arguments orset T {_ _}.

(** ** Observed-remove map: ormap.rs *)

Section ORMap.
  Context {K : Type} `{Countable K}.
  (** The value type: [vdef r] is [V::default()] as created by replica [r] (defaults
      of replicated values carry a random replica id, modelled as a function of the
      replica), [vmerge] its [Merge::merge]. *)
  Context {V : Type} (vdef : N -> V) (vmerge : V -> V -> V).

  (** ormap.rs:30-39. *)
  Record ormap := { om_keys : gmap K (gset dot); om_values : gmap K V; om_ctx : dotctx; om_id : N }.

  (** ormap.rs:43-50. *)
  Definition om_new (id : N) : ormap :=
    {| om_keys := ∅; om_values := ∅; om_ctx := dc_empty; om_id := id |}.

  (** ormap.rs:88-92, [contains_key]. *)
  Definition om_contains (m : ormap) (k : K) : bool :=
    match om_keys m !! k with None => false | Some dots => negb (bool_decide (dots = ∅)) end.

  (** ormap.rs:58-64, [get]. *)
  Definition om_get (m : ormap) (k : K) : option V :=
    if om_contains m k then om_values m !! k else None.

  (** ormap.rs:68-75, [get_or_insert], followed by the caller changing the value
      through the returned reference by [f]. *)
  Definition om_update (k : K) (f : V -> V) (m : ormap) : ormap :=
    let '(c, d) := dc_next (om_ctx m) (om_id m) in
    {| om_keys := <[k := {[d]} ∪ dots_of (om_keys m) k]> (om_keys m);
       om_values := <[k := f (default (vdef (om_id m)) (om_values m !! k))]> (om_values m);
       om_ctx := c; om_id := om_id m |}.

  (** ormap.rs:79-85, [get_mut], followed by the caller changing the value by [f]. *)
  Definition om_get_mut (k : K) (f : V -> V) (m : ormap) : ormap :=
    if om_contains m k then
      {| om_keys := om_keys m; om_values := alter f k (om_values m); om_ctx := om_ctx m; om_id := om_id m |}
    else m.

  (** ormap.rs:95-97, [remove]. *)
  Definition om_remove (k : K) (m : ormap) : ormap :=
    {| om_keys := delete k (om_keys m); om_values := om_values m; om_ctx := om_ctx m; om_id := om_id m |}.

  (** ormap.rs:133-136 (and 199-202): merging the values. *)
  Definition om_value_step (id : N) (acc : gmap K V) (e : K * V) : gmap K V :=
    <[e.1 := vmerge (default (vdef id) (acc !! e.1)) e.2]> acc.
  (** ormap.rs:139-148 (and 205-212): dots of the other side that we have not seen. *)
  Definition om_add_step (c : dotctx) (acc : gmap K (gset dot)) (e : K * gset dot) : gmap K (gset dot) :=
    <[e.1 := dots_of acc e.1 ∪ filter (fun d => dc_has_seen c d = false) e.2]> acc.
  (** ormap.rs:152-167: drop our dots that the other side has seen and no longer has. *)
  Definition om_retain (cother : dotctx) (other_keys : gmap K (gset dot)) (k : K) (dots : gset dot) : gset dot :=
    match other_keys !! k with
    | None => filter (fun d => dc_has_seen cother d = false) dots
    | Some other_dots => filter (fun d => dc_has_seen cother d = false \/ d ∈ other_dots) dots
    end.

  (** ormap.rs:130-174, [merge]. *)
  Definition om_merge (self other : ormap) : ormap :=
    let values := fold_left (om_value_step (om_id self)) (map_to_list (om_values other)) (om_values self) in
    let keys1 := fold_left (om_add_step (om_ctx self)) (map_to_list (om_keys other)) (om_keys self) in
    let keys2 := map_imap (fun k dots => Some (om_retain (om_ctx other) (om_keys other) k dots)) keys1 in
    {| om_keys := filter (fun kv => (kv.2 : gset dot) <> ∅) keys2; om_values := values;
       om_ctx := dc_merge (om_ctx self) (om_ctx other); om_id := om_id self |}.

  (** ormap.rs:184-195, [delta_since] and 197-219, [apply_delta]. *)
  Definition om_delta_since (m : ormap) (since : vclock)
    : option (gmap K (gset dot) * gmap K V * dotctx) :=
    if vc_dominates since (dc_clock (om_ctx m)) then None
    else Some (om_keys m, om_values m, om_ctx m).
  Definition om_apply_delta (self : ormap) (d : gmap K (gset dot) * gmap K V * dotctx) : ormap :=
    let '(dkeys, dvalues, dctx) := d in
    {| om_keys := filter (fun kv => (kv.2 : gset dot) <> ∅)
         (fold_left (om_add_step (om_ctx self)) (map_to_list dkeys) (om_keys self));
       om_values := fold_left (om_value_step (om_id self)) (map_to_list dvalues) (om_values self);
       om_ctx := dc_merge (om_ctx self) dctx; om_id := om_id self |}.
End ORMap.
Arguments ormap K {_ _} V.
