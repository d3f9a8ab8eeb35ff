(** C07, C08, C09: replicated sets and maps; the set and map part of C12.

    [state_at], [hist_of] and [known_by] are as in CrdtCounterProps.v. *)
From stdpp Require Import gmap.
From Verif Require Import CrdtModel CrdtSetModel Replication ReplicationCount ReplicationEffects
  CrdtClockProofs CrdtCounterProofs ReplicationOrder CrdtSetProofs CrdtMapProofs.

Ltac decided := apply (bool_decide_unpack _); vm_compute; exact I.

(** ** C07: add-wins set *)

(** In every run, an element is a member at a replica exactly when the replica knows
    an add of it which no removal the replica knows had observed. *)
Theorem C07_orset_membership :
  forall (T : Type) `{Countable T} (evs : list (event (setop T))) (r : N) (v : T),
  os_contains (state_at os_new os_apply (os_merge add_wins) evs r) v = true <->
  exists i x, i ∈ known_by evs r /\ hist_of evs !! i = Some x /\ op_op x = SAdd v /\
    forall j y, j ∈ known_by evs r -> hist_of evs !! j = Some y -> op_op y = SRemove v -> i ∉ op_past y.
Proof. intros. apply os_contains_known. Qed.

(** An add survives any concurrent removal; an add that is always observed does not. *)
Theorem C07_orset_concurrent_add_survives :
  forall (T : Type) `{Countable T} (evs : list (event (setop T))) (r : N) (v : T) (i : nat) (x : opinfo (setop T)),
  i ∈ known_by evs r -> hist_of evs !! i = Some x -> op_op x = SAdd v ->
  (forall j y, hist_of evs !! j = Some y -> op_op y = SRemove v -> i ∉ op_past y) ->
  os_contains (state_at os_new os_apply (os_merge add_wins) evs r) v = true.
Proof. intros T ? ? evs r v i x Hi Hx Ha Hr. apply os_contains_known. exists i, x. eauto 10. Qed.

Theorem C07_orset_observed_add_removed :
  forall (T : Type) `{Countable T} (evs : list (event (setop T))) (r : N) (v : T) (j : nat) (y : opinfo (setop T)),
  j ∈ known_by evs r -> hist_of evs !! j = Some y -> op_op y = SRemove v ->
  (forall i x, i ∈ known_by evs r -> hist_of evs !! i = Some x -> op_op x = SAdd v -> i ∈ op_past y) ->
  os_contains (state_at os_new os_apply (os_merge add_wins) evs r) v = false.
Proof.
  intros T ? ? evs r v j y Hj Hy Hr A. apply not_true_iff_false. intros E.
  apply os_contains_known in E as (i & x & Hi & Hx & Ha & B). apply (B j y Hj Hy Hr). eauto.
Qed.

(** Replicas with the same knowledge are in the same state. *)
Theorem C07_orset_converges :
  forall (T : Type) `{Countable T} (evs : list (event (setop T))) (r r' : N),
  known_by evs r = known_by evs r' ->
  let s := state_at os_new os_apply (os_merge add_wins) evs r in
  let s' := state_at os_new os_apply (os_merge add_wins) evs r' in
  os_entries s = os_entries s' /\ os_ctx s = os_ctx s' /\
  (forall v, os_contains s v = os_contains s' v) /\ os_len s = os_len s'.
Proof.
  intros T ? ? evs r r' E s s'. pose proof (os_run evs r) as I. pose proof (os_run evs r') as J. rewrite <- E in J.
  pose proof (ginv_exec evs) as [W C _ _].
  destruct (oinv_det s_add s_rem _ _ _ _ _ _ I J) as [A B].
  unfold os_contains, os_len. fold s in A, B. fold s' in A, B. rewrite A. auto.
Qed.

Theorem C07_orset_merge_laws :
  forall (T : Type) `{Countable T} (evs : list (event (setop T))) (p q r : N),
  let st := state_at os_new os_apply (os_merge add_wins) evs in
  let same (a b : orset T) := os_entries a = os_entries b /\ os_ctx a = os_ctx b in
  let m := os_merge add_wins in
  same (m (st p) (st q)) (m (st q) (st p)) /\
  same (m (st p) (m (st q) (st r))) (m (m (st p) (st q)) (st r)) /\
  same (m (st p) (st p)) (st p) /\
  same (m (m (st p) (st q)) (st q)) (m (st p) (st q)).
Proof.
  intros T ? ? evs p q r st same m. pose proof (ginv_exec evs) as [W C _ _].
  assert (I : forall a, os_inv (hist_of evs) (known_by evs a) (st a)) by (intros; apply os_run).
  assert (CC : forall a, closed (hist_of evs) (known_by evs a)) by exact C.
  assert (M : forall K L s t, closed (hist_of evs) K -> closed (hist_of evs) L ->
    os_inv (hist_of evs) K s -> os_inv (hist_of evs) L t -> os_inv (hist_of evs) (K ∪ L) (m s t))
    by (intros; now apply os_inv_merge).
  assert (D : forall K s t, os_inv (hist_of evs) K s -> os_inv (hist_of evs) K t -> same s t)
    by (intros K s t A B; exact (oinv_det s_add s_rem _ _ _ _ _ _ A B)).
  split; [|split; [|split]].
  - apply (D (known_by evs p ∪ known_by evs q)); [auto|].
    rewrite (union_comm_L (known_by evs p)). auto.
  - apply (D (known_by evs p ∪ (known_by evs q ∪ known_by evs r))).
    + auto using closed_union.
    + rewrite (union_assoc_L (known_by evs p)). auto using closed_union.
  - apply (D (known_by evs p)); [|auto].
    rewrite <- (union_idemp_L (known_by evs p)) at 1. auto.
  - apply (D (known_by evs p ∪ known_by evs q)); [|auto].
    rewrite <- (union_idemp_L (known_by evs q)), (union_assoc_L (known_by evs p)). auto using closed_union.
Qed.

(** [len] counts the members. *)
Theorem C07_orset_len :
  forall (T : Type) `{Countable T} (s : orset T),
  exists l, NoDup l /\ length l = os_len s /\ forall v, v ∈ l <-> os_contains s v = true.
Proof. intros. apply os_len_contains. Qed.

(** Replica 1 adds 7 and replica 2 sees it; 2 removes it while 1 adds it again;
    after exchanging states both have it. Then 1 removes it and 2 hears: gone. *)
Example C07_example_run : list (event (setop N)) :=
  [EOp 1 (SAdd 7); ESend 1; ERecv 2 0; EOp 2 (SRemove 7); EOp 1 (SAdd 7); EOp 2 (SAdd 8);
   ESend 1; ESend 2; ERecv 1 2; ERecv 2 1]%N.
Example C07_example :
  let st evs := state_at os_new os_apply (os_merge add_wins) evs in
  known_by C07_example_run 1%N = known_by C07_example_run 2%N /\
  os_contains (st C07_example_run 1%N) 7%N = true /\ os_contains (st C07_example_run 2%N) 7%N = true /\
  os_len (st C07_example_run 2%N) = 2 /\
  os_contains (st (C07_example_run ++ [EOp 1 (SRemove 7); ESend 1; ERecv 2 3]%N) 2%N) 7%N = false.
Proof. repeat split; decided. Qed.

(** ** C08: remove-wins set *)

(** Merging the same knowledge along different routes gives different sets. Replicas
    0 and 2 both know all three operations, but 7 is a member only at 2. *)
Theorem C08_remove_wins_converges_refuted :
  exists evs : list (event (setop N)),
    known_by evs 0%N = known_by evs 2%N /\
    os_contains (state_at os_new os_apply (os_merge remove_wins) evs 0%N) 7%N = false /\
    os_contains (state_at os_new os_apply (os_merge remove_wins) evs 2%N) 7%N = true.
Proof.
  exists [EOp 0 (SAdd 7); ESend 0; ERecv 2 0; EOp 1 (SAdd 7); ESend 1; ERecv 0 1;
          EOp 1 (SRemove 7); ESend 1; ERecv 2 2; ERecv 0 2]%N.
  repeat split; decided.
Qed.

(** Nor is merging associative on reachable states. *)
Theorem C08_remove_wins_associative_refuted :
  exists evs : list (event (setop N)),
    let st := state_at os_new os_apply (os_merge remove_wins) evs in
    let m := os_merge remove_wins in
    os_contains (m (st 1%N) (m (st 2%N) (st 3%N))) 7%N <>
    os_contains (m (m (st 1%N) (st 2%N)) (st 3%N)) 7%N.
Proof.
  exists [EOp 1 (SAdd 7); EOp 2 (SAdd 7); ESend 2; ERecv 3 0; EOp 3 (SRemove 7)]%N.
  cbv zeta. vm_compute. discriminate.
Qed.

(** What does hold: merging two states is commutative and idempotent, ... *)
Theorem C08_remove_wins_comm_idemp_partial :
  forall (T : Type) `{Countable T} (s t : orset T) (v : T),
  let m := os_merge remove_wins in
  os_contains (m s t) v = os_contains (m t s) v /\
  os_contains (m s s) v = os_contains s v.
Proof.
  intros T ? ? s t v m.
  assert (Sw : forall c1 c2 (D1 D2 : gset dot), os_merge_dots remove_wins c1 c2 D1 D2 = os_merge_dots remove_wins c2 c1 D2 D1).
  { intros c1 c2 D1 D2. unfold os_merge_dots, remove_wins, combined_dots.
    rewrite (union_comm_L (filter _ D1)), (orb_comm (_ && any_seen c1 D2)), (orb_comm (negb (bool_decide (D1 = ∅)))).
    reflexivity. }
  assert (Eq : forall a b : orset T, dots_of (os_entries a) v = dots_of (os_entries b) v -> os_contains a v = os_contains b v).
  { intros a b E. apply Bool.eq_true_iff_eq. now rewrite !contains_dots, E. }
  split; apply Eq; unfold m; rewrite !os_merge_dots_of by (intros [] []; reflexivity); [apply Sw|].
  set (D := dots_of (os_entries s) v). set (c := os_ctx s). unfold os_merge_dots, remove_wins.
  destruct (decide (D = ∅)) as [->|Hne].
  - reflexivity.
  - rewrite (bool_decide_false _ Hne). simpl. apply set_eq. intros d. rewrite elem_of_combined. tauto.
Qed.

(** ... and a member of exactly one of the two sides is dropped as soon as the
    other side has seen any of its adds, and kept if it has seen none. *)
Theorem C08_remove_wins_removal_beats_add_partial :
  forall (T : Type) `{Countable T} (s t : orset T) (v : T),
  os_contains s v = false -> os_contains t v = true ->
  let m := os_merge remove_wins in
  os_contains (m s t) v = true <->
  forall d, d ∈ dots_of (os_entries t) v -> dc_has_seen (os_ctx s) d = false.
Proof.
  intros T ? ? s t v Hs Ht m.
  assert (Es : dots_of (os_entries s) v = ∅).
  { apply dec_stable. intros Hne. apply set_choose_L in Hne as [d Hd].
    apply not_true_iff_false in Hs. apply Hs, contains_dots. eauto. }
  apply contains_dots in Ht as [d0 Hd0]. rewrite contains_dots. unfold m.
  rewrite os_merge_dots_of by (intros [] []; reflexivity). rewrite Es. set (D := dots_of (os_entries t) v) in *.
  assert (Hne : D <> ∅) by set_solver.
  unfold os_merge_dots, remove_wins. rewrite (bool_decide_true (∅ = ∅) eq_refl), (bool_decide_false _ Hne). simpl.
  rewrite orb_false_r. unfold any_seen. destruct (existsb (dc_has_seen (os_ctx s)) (elements D)) eqn:E.
  - apply existsb_exists in E as (d & Hd & Sd). apply elem_of_list_In, elem_of_elements in Hd. split.
    + intros [x Hx]. set_solver.
    + intros A. rewrite (A d Hd) in Sd. discriminate.
  - split.
    + intros _ d Hd. apply not_true_iff_false. intros Sd. apply not_true_iff_false in E. apply E.
      apply existsb_exists. exists d. split; [now apply elem_of_list_In, elem_of_elements|exact Sd].
    + intros A. exists d0. apply elem_of_combined. right. split; [exact Hd0|]. left. apply not_seen. auto.
Qed.

(** 2 sees the first add and removes; 1 adds again meanwhile: the removal wins. *)
Example C08_example :
  let evs := [EOp 1 (SAdd 7); ESend 1; ERecv 2 0; EOp 2 (SRemove 7); EOp 1 (SAdd 7); EOp 1 (SAdd 9)]%N : list (event (setop N)) in
  let st := state_at os_new os_apply (os_merge remove_wins) evs in
  os_contains (st 2%N) 7%N = false /\ os_contains (st 1%N) 7%N = true /\
  os_contains (os_merge remove_wins (st 2%N) (st 1%N)) 7%N = false /\
  os_contains (os_merge remove_wins (st 2%N) (st 1%N)) 9%N = true.
Proof. repeat split; decided. Qed.

(** ** C09: map *)

(** Keys: for any value type, a key is present exactly when some known insertion of
    it was not observed by any known removal. *)
Theorem C09_ormap_keys :
  forall (K V : Type) `{Countable K} (vdef : N -> V) (vmerge : V -> V -> V)
    (evs : list (event mapop)) (r : N) (k : K),
  om_contains (state_at om_new (om_apply vdef) (om_merge vdef vmerge) evs r) k = true <->
  exists i x f, i ∈ known_by evs r /\ hist_of evs !! i = Some x /\ op_op x = KUpdate k f /\
    forall j y, j ∈ known_by evs r -> hist_of evs !! j = Some y -> op_op y = KRemove k -> i ∉ op_past y.
Proof. intros. apply om_contains_known. Qed.

Theorem C09_ormap_key_merge_laws :
  forall (K V : Type) `{Countable K} (vdef : N -> V) (vmerge : V -> V -> V)
    (evs : list (event mapop)) (p q r : N) (k : K),
  let st := state_at om_new (om_apply vdef) (om_merge vdef vmerge) evs in
  let m := om_merge vdef vmerge in
  om_contains (m (st p) (st q)) k = om_contains (m (st q) (st p)) k /\
  om_contains (m (st p) (m (st q) (st r))) k = om_contains (m (m (st p) (st q)) (st r)) k /\
  om_contains (m (st p) (st p)) k = om_contains (st p) k /\
  om_contains (m (m (st p) (st q)) (st q)) k = om_contains (m (st p) (st q)) k.
Proof.
  intros K V ? ? vdef vmerge evs p q r k st m. pose proof (ginv_exec evs) as [W C _ _].
  assert (I : forall a, om_inv (hist_of evs) (known_by evs a) (st a)) by (intros; apply om_run).
  assert (CC : forall a, closed (hist_of evs) (known_by evs a)) by exact C.
  assert (M : forall A B s t, closed (hist_of evs) A -> closed (hist_of evs) B ->
    om_inv (hist_of evs) A s -> om_inv (hist_of evs) B t -> om_inv (hist_of evs) (A ∪ B) (m s t))
    by (intros; now apply om_inv_merge).
  assert (D : forall A s t, om_inv (hist_of evs) A s -> om_inv (hist_of evs) A t -> om_contains s k = om_contains t k)
    by (intros A s t J L; exact (om_inv_contains_det _ _ _ _ k J L)).
  split; [|split; [|split]].
  - apply (D (known_by evs p ∪ known_by evs q)); [auto|].
    rewrite (union_comm_L (known_by evs p)). auto.
  - apply (D (known_by evs p ∪ (known_by evs q ∪ known_by evs r))).
    + auto using closed_union.
    + rewrite (union_assoc_L (known_by evs p)). auto using closed_union.
  - apply (D (known_by evs p)); [|auto].
    rewrite <- (union_idemp_L (known_by evs p)) at 1. auto.
  - apply (D (known_by evs p ∪ known_by evs q)); [|auto].
    rewrite <- (union_idemp_L (known_by evs q)), (union_assoc_L (known_by evs p)). auto using closed_union.
Qed.

(** Values: whatever can be observed of the values through [obs], if their own
    merge is commutative, associative, idempotent and neutral on defaults as far as
    [obs] can see, then so is the merge of maps, for all states. *)
Theorem C09_ormap_value_merge_laws :
  forall (K V X : Type) `{Countable K} (vdef : N -> V) (vmerge : V -> V -> V) (obs : V -> X),
  (forall a a' b b', obs a = obs a' -> obs b = obs b' -> obs (vmerge a b) = obs (vmerge a' b')) ->
  (forall a b, obs (vmerge a b) = obs (vmerge b a)) ->
  (forall a b c, obs (vmerge a (vmerge b c)) = obs (vmerge (vmerge a b) c)) ->
  (forall a, obs (vmerge a a) = obs a) ->
  (forall r a, obs (vmerge (vdef r) a) = obs a) ->
  forall (s t u : ormap K V) (k : K),
  let m := om_merge vdef vmerge in
  let value (a : ormap K V) := obs <$> om_values a !! k in
  value (m s t) = value (m t s) /\ value (m s (m t u)) = value (m (m s t) u) /\ value (m s s) = value s.
Proof.
  intros K V X ? ? vdef vmerge obs Hc Hcomm Hassoc Hid Hdef s t u k m value.
  split; [|split].
  - exact (value_comm vdef vmerge obs Hcomm Hdef s t k).
  - exact (value_assoc vdef vmerge obs Hc Hassoc Hdef s t u k).
  - exact (value_idemp vdef vmerge obs Hid Hdef s k).
Qed.

(** The counters satisfy the premises. *)
Example C09_counter_values_lawful :
  let obs c := (pn_inc c, pn_dec c) in
  (forall a a' b b', obs a = obs a' -> obs b = obs b' -> obs (pn_merge a b) = obs (pn_merge a' b')) /\
  (forall a b, obs (pn_merge a b) = obs (pn_merge b a)) /\
  (forall a b c, obs (pn_merge a (pn_merge b c)) = obs (pn_merge (pn_merge a b) c)) /\
  (forall a, obs (pn_merge a a) = obs a) /\
  (forall r a, obs (pn_merge (pn_new r) a) = obs a).
Proof.
  cbv zeta. repeat split.
  - intros [] [] [] [] [= -> ->] [= -> ->]. reflexivity.
  - intros a b. simpl. f_equal; apply max_merge_comm.
  - intros a b c. now rewrite pn_merge_assoc.
  - intros a. now rewrite pn_merge_idemp.
  - intros r a. simpl. f_equal; apply map_eq; intros q; rewrite max_merge_lookup, lookup_empty;
      simpl; [destruct (pn_inc a !! q)|destruct (pn_dec a !! q)]; simpl; rewrite ?N.max_0_l; reflexivity.
Qed.

(** A map of counters: a present key reads the sum of all known changes made to it
    (including those made before a removal, which the code does not reset), and
    replicas with the same knowledge read the same. [effects_of] is the history with
    each operation resolved against the state it met: changes through [get_mut] of an
    absent key are nothing. *)
Theorem C09_counter_map_reads_known_changes :
  forall (K : Type) `{Countable K} (evs : list (event cmop)) (r : N) (k : K),
  let h := effects_of om_new cm_apply cm_merge cm_eff evs in
  let m := state_at om_new cm_apply cm_merge evs r in
  let change (x : opinfo cmeff) :=
    match op_op x with
    | XAdd k' o | XChange k' o => if decide (k' = k) then Some o else None
    | _ => None
    end in
  pn_value <$> om_get m k =
  if om_contains m k then
    Some (Z.of_N (sum_known (fun x => match change x with Some (PInc n) => n | _ => 0%N end) h (known_by evs r)) -
          Z.of_N (sum_known (fun x => match change x with Some (PDec n) => n | _ => 0%N end) h (known_by evs r)))%Z
  else None.
Proof.
  intros K ? ? evs r k h m change. destruct (cm_run evs) as (_ & _ & _ & I & _). exact (cm_inv_get _ _ _ k (I r)).
Qed.

Theorem C09_counter_map_keys :
  forall (K : Type) `{Countable K} (evs : list (event cmop)) (r : N) (k : K),
  let h := effects_of om_new cm_apply cm_merge cm_eff evs in
  om_contains (state_at om_new cm_apply cm_merge evs r) k = true <->
  exists i x o, i ∈ known_by evs r /\ h !! i = Some x /\ op_op x = XAdd k o /\
    forall j y, j ∈ known_by evs r -> h !! j = Some y -> op_op y = XRemove k -> i ∉ op_past y.
Proof.
  intros K ? ? evs r k h. destruct (cm_run evs) as (_ & _ & _ & I & _). exact (cm_inv_contains _ _ _ k (I r)).
Qed.

(** The resolved history is the history: same authors, same pasts. *)
Theorem C09_counter_map_history :
  forall (K : Type) `{Countable K} (evs : list (event (cmop (K:=K)))),
  Forall2 (fun x y => op_origin x = op_origin y /\ op_past x = op_past y)
    (effects_of om_new cm_apply cm_merge cm_eff evs) (hist_of evs).
Proof. intros K ? ? evs. exact (proj1 (cm_run evs)). Qed.

Theorem C09_counter_map_converges :
  forall (K : Type) `{Countable K} (evs : list (event cmop)) (r r' : N) (k : K),
  known_by evs r = known_by evs r' ->
  pn_value <$> om_get (state_at om_new cm_apply cm_merge evs r) k =
  pn_value <$> om_get (state_at om_new cm_apply cm_merge evs r') k.
Proof.
  intros K ? ? evs r r' k E. destruct (cm_run evs) as (_ & _ & _ & I & _).
  pose proof (I r) as A. pose proof (I r') as B. rewrite <- E in B.
  rewrite (cm_inv_get _ _ _ k A), (cm_inv_get _ _ _ k B).
  assert (X : om_contains (state_at om_new cm_apply cm_merge evs r) k =
              om_contains (state_at om_new cm_apply cm_merge evs r') k).
  { apply Bool.eq_true_iff_eq. now rewrite (cm_inv_contains _ _ _ k A), (cm_inv_contains _ _ _ k B). }
  now rewrite X.
Qed.

(** 1 counts 5 under key 3; 2 sees it and removes the key while 1 adds 2 more:
    after the exchange both read 7. *)
Example C09_example_run : list (event (cmop (K:=N))) :=
  [EOp 1 (MUpdate 3 (PInc 5)); ESend 1; ERecv 2 0; EOp 2 (MRemove 3); EOp 2 (MMutate 3 (PInc 100));
   EOp 1 (MUpdate 3 (PInc 2)); ESend 1; ESend 2; ERecv 1 2; ERecv 2 1]%N.
Example C09_example :
  let st := state_at om_new cm_apply cm_merge C09_example_run in
  known_by C09_example_run 1%N = known_by C09_example_run 2%N /\
  pn_value <$> om_get (st 1%N) 3%N = Some 7%Z /\ pn_value <$> om_get (st 2%N) 3%N = Some 7%Z /\
  om_get (st 2%N) 4%N = None.
Proof. split; [decided|]. repeat split; vm_compute; reflexivity. Qed.

(** ** C12, sets and maps *)

(** A removal performed by the sender since the peer's version never reaches the peer:
    removing does not advance the version, and a delta carries no removals. *)
Theorem C12_orset_delta_equals_merge_refuted :
  exists evs : list (event (setop N)),
    let s := state_at os_new os_apply (os_merge add_wins) evs 1%N in
    let p := state_at os_new os_apply (os_merge add_wins) evs 2%N in
    os_delta_since s (os_version p) = None /\
    os_contains p 7%N = true /\ os_contains (os_merge add_wins p s) 7%N = false.
Proof.
  exists [EOp 1 (SAdd 7); ESend 1; ERecv 2 0; EOp 1 (SRemove 7)]%N.
  cbv zeta. split; [vm_compute; reflexivity|]. split; decided.
Qed.

(** Even when a delta is sent, because the sender also added something. *)
Theorem C12_orset_sent_delta_equals_merge_refuted :
  exists (evs : list (event (setop N))) d,
    let s := state_at os_new os_apply (os_merge add_wins) evs 1%N in
    let p := state_at os_new os_apply (os_merge add_wins) evs 2%N in
    os_delta_since s (os_version p) = Some d /\
    os_contains (os_apply_delta add_wins p d) 7%N = true /\ os_contains (os_merge add_wins p s) 7%N = false.
Proof.
  exists [EOp 1 (SAdd 7); ESend 1; ERecv 2 0; EOp 1 (SRemove 7); EOp 1 (SAdd 8)]%N.
  eexists. cbv zeta. split.
  - unfold os_delta_since. match goal with |- context [vc_dominates ?a ?b] =>
      assert (E : vc_dominates a b = false) by (vm_compute; reflexivity); rewrite E end. reflexivity.
  - split; decided.
Qed.

(** What does hold: a delta adds exactly what the full state would add, and loses nothing. *)
Theorem C12_orset_delta_adds_partial :
  forall (T : Type) `{Countable T} (evs : list (event (setop T))) (sender peer : N) (v : T),
  let s := state_at os_new os_apply (os_merge add_wins) evs sender in
  let p := state_at os_new os_apply (os_merge add_wins) evs peer in
  let p' := match os_delta_since s (os_version p) with Some d => os_apply_delta add_wins p d | None => p end in
  os_contains p' v = true <-> os_contains p v = true \/ os_contains (os_merge add_wins p s) v = true.
Proof. intros. apply os_delta_contains. Qed.

Theorem C12_ormap_delta_adds_partial :
  forall (K V : Type) `{Countable K} (vdef : N -> V) (vmerge : V -> V -> V)
    (evs : list (event mapop)) (sender peer : N) (k : K),
  let s := state_at om_new (om_apply vdef) (om_merge vdef vmerge) evs sender in
  let p := state_at om_new (om_apply vdef) (om_merge vdef vmerge) evs peer in
  let p' := match om_delta_since s (dc_clock (om_ctx p)) with
            | Some d => om_apply_delta vdef vmerge p d | None => p end in
  (om_contains p' k = true <-> om_contains p k = true \/ om_contains (om_merge vdef vmerge p s) k = true) /\
  (om_delta_since s (dc_clock (om_ctx p)) <> None -> om_values p' !! k = om_values (om_merge vdef vmerge p s) !! k).
Proof.
  intros K V ? ? vdef vmerge evs sender peer k s p p'. split; [apply om_delta_contains|].
  unfold p'. destruct (om_delta_since s (dc_clock (om_ctx p))) as [d|] eqn:E; [|congruence].
  intros _. now rewrite (om_delta_values vdef vmerge s p d E).
Qed.

(** A change made through [get_mut] does not advance a map's version, so the peer is
    told it is up to date although the counter it holds is stale. *)
Theorem C12_ormap_delta_equals_merge_refuted :
  exists evs : list (event (cmop (K:=N))),
    let s := state_at om_new cm_apply cm_merge evs 1%N in
    let p := state_at om_new cm_apply cm_merge evs 2%N in
    om_delta_since s (dc_clock (om_ctx p)) = None /\
    pn_value <$> om_get p 3%N = Some 5%Z /\ pn_value <$> om_get (cm_merge p s) 3%N = Some 8%Z.
Proof.
  exists [EOp 1 (MUpdate 3 (PInc 5)); ESend 1; ERecv 2 0; EOp 1 (MMutate 3 (PInc 3))]%N.
  cbv zeta. repeat split; vm_compute; reflexivity.
Qed.

(** Removals of keys are lost as well. *)
Theorem C12_ormap_removal_lost_refuted :
  exists (evs : list (event (cmop (K:=N)))) d,
    let s := state_at om_new cm_apply cm_merge evs 1%N in
    let p := state_at om_new cm_apply cm_merge evs 2%N in
    om_delta_since s (dc_clock (om_ctx p)) = Some d /\
    om_contains (om_apply_delta pn_new pn_merge p d) 3%N = true /\ om_contains (cm_merge p s) 3%N = false.
Proof.
  exists [EOp 1 (MUpdate 3 (PInc 5)); ESend 1; ERecv 2 0; EOp 1 (MRemove 3); EOp 1 (MUpdate 4 (PInc 1))]%N.
  eexists. cbv zeta. split.
  - unfold om_delta_since. match goal with |- context [vc_dominates ?a ?b] =>
      assert (E : vc_dominates a b = false) by (vm_compute; reflexivity); rewrite E end. reflexivity.
  - split; vm_compute; reflexivity.
Qed.

(** A sender with two new elements, a peer with one of its own. *)
Example C12_orset_example :
  let evs := [EOp 1 (SAdd 7); ESend 1; ERecv 2 0; EOp 1 (SAdd 8); EOp 1 (SAdd 9); EOp 2 (SAdd 5)]%N : list (event (setop N)) in
  let s := state_at os_new os_apply (os_merge add_wins) evs 1%N in
  let p := state_at os_new os_apply (os_merge add_wins) evs 2%N in
  let p' := match os_delta_since s (os_version p) with Some d => os_apply_delta add_wins p d | None => p end in
  forallb (os_contains p') [5; 7; 8; 9]%N = true /\ os_len p' = 4 /\ os_contains p 8%N = false.
Proof. repeat split; vm_compute; reflexivity. Qed.

(** Up/down counters: the delta is as good as the state (the same fact as C02's). *)
Theorem C12_pncounter_delta_equals_merge :
  forall (evs : list (event pnop)) (sender peer : N),
  let s := state_at pn_new pn_apply pn_merge evs sender in
  let p := state_at pn_new pn_apply pn_merge evs peer in
  pn_value (match pn_delta_since s (pn_version p) with Some d => pn_apply_delta p d | None => p end)
  = pn_value (pn_merge p s).
Proof. exact pn_delta_equiv. Qed.
