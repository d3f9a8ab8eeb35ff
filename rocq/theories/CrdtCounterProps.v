(** C01, C02, C03, C04: counters, vector clocks, causal contexts.

    [state_at new op merge evs r] is replica [r]'s state after the events [evs];
    [hist_of evs] lists all operations performed and [known_by evs r] is the set of
    those operations that have reached [r] (directly or through other replicas).
    [sum_known f h K] adds [f] over the operations of [h] in [K]; see Replication.v. *)
From stdpp Require Import gmap.
From Verif Require Import CrdtModel Replication ReplicationCount
  CrdtClockProofs CrdtCounterProofs CrdtContextProofs.

(** ** C01: grow-only counter *)

Theorem C01_gcounter_merge_laws : forall a b c : gcounter,
  gc_counts (gc_merge a b) = gc_counts (gc_merge b a) /\
  gc_value (gc_merge a b) = gc_value (gc_merge b a) /\
  gc_merge a (gc_merge b c) = gc_merge (gc_merge a b) c /\
  gc_merge a a = a /\
  (gc_value a <= gc_value (gc_merge a b))%N.
Proof.
  exact (fun a b c => conj (gc_merge_comm_counts a b)
    (conj (f_equal map_sum (gc_merge_comm_counts a b))
    (conj (gc_merge_assoc a b c) (conj (gc_merge_idemp a) (gc_merge_monotone a b))))).
Qed.

(** In every run every replica reads the sum of exactly the increments it knows. *)
Theorem C01_gcounter_counts_known_increments :
  forall (evs : list (event N)) (r : N),
  gc_value (state_at gc_new gc_increment gc_merge evs r) =
  sum_known (fun x => op_op x) (hist_of evs) (known_by evs r).
Proof. exact gc_value_known. Qed.

(** Replicas which know the same operations read the same value, and a replica
    which knows all operations reads the sum of all increments of the run. *)
Theorem C01_gcounter_converges :
  forall (evs : list (event N)) (r r' : N),
  known_by evs r = known_by evs r' ->
  gc_value (state_at gc_new gc_increment gc_merge evs r) =
  gc_value (state_at gc_new gc_increment gc_merge evs r').
Proof.
  exact (fun evs r r' H => eq_trans (gc_value_known evs r)
    (eq_trans (f_equal (sum_known amount (hist_of evs)) H) (eq_sym (gc_value_known evs r')))).
Qed.

Theorem C01_gcounter_total :
  forall (evs : list (event N)) (r : N),
  (forall i, i < length (hist_of evs) -> i ∈ known_by evs r) ->
  gc_value (state_at gc_new gc_increment gc_merge evs r) = total_ops (fun n => n) evs.
Proof.
  exact (fun evs r H => eq_trans (gc_value_known evs r) (hist_total (fun n => n) evs _ H)).
Qed.

(** Three replicas; replica 1's state reaches 2 twice, and 3 only through 2. *)
Example C01_example_run : list (event N) :=
  [EOp 1 5; ESend 1; EOp 2 7; ERecv 2 0; EOp 1 4; ERecv 2 0; ESend 2; ERecv 3 1; ESend 1; ERecv 3 2]%N.
Example C01_example :
  (forall i, i < length (hist_of C01_example_run) -> i ∈ known_by C01_example_run 3%N) /\
  gc_value (state_at gc_new gc_increment gc_merge C01_example_run 3%N) = 16%N.
Proof.
  split; [|vm_compute; reflexivity].
  intros i Hi. vm_compute in Hi.
  do 3 (destruct i as [|i]; [vm_compute; reflexivity|]). exfalso; lia.
Qed.

(** ** C02: up/down counter *)

Theorem C02_pncounter_merge_laws : forall a b c : pncounter,
  pn_inc (pn_merge a b) = pn_inc (pn_merge b a) /\
  pn_dec (pn_merge a b) = pn_dec (pn_merge b a) /\
  pn_value (pn_merge a b) = pn_value (pn_merge b a) /\
  pn_merge a (pn_merge b c) = pn_merge (pn_merge a b) c /\
  pn_merge a a = a.
Proof.
  intros a b c.
  assert (A := max_merge_comm (pn_inc a) (pn_inc b)).
  assert (B := max_merge_comm (pn_dec a) (pn_dec b)).
  refine (conj A (conj B (conj _ (conj (pn_merge_assoc a b c) (pn_merge_idemp a))))).
  exact (f_equal2 (fun x y => (Z.of_N (map_sum x) - Z.of_N (map_sum y))%Z) A B).
Qed.

Theorem C02_pncounter_counts_known_operations :
  forall (evs : list (event pnop)) (r : N),
  pn_value (state_at pn_new pn_apply pn_merge evs r) =
  (Z.of_N (sum_known (fun x => match op_op x with PInc n => n | PDec _ => 0%N end)
             (hist_of evs) (known_by evs r)) -
   Z.of_N (sum_known (fun x => match op_op x with PInc _ => 0%N | PDec n => n end)
             (hist_of evs) (known_by evs r)))%Z.
Proof. exact pn_value_known. Qed.

Theorem C02_pncounter_converges :
  forall (evs : list (event pnop)) (r r' : N),
  known_by evs r = known_by evs r' ->
  pn_value (state_at pn_new pn_apply pn_merge evs r) =
  pn_value (state_at pn_new pn_apply pn_merge evs r').
Proof.
  exact (fun evs r r' H => eq_trans (pn_value_known evs r)
    (eq_trans (f_equal (fun K => (Z.of_N (sum_known pn_amount_inc (hist_of evs) K) -
                                  Z.of_N (sum_known pn_amount_dec (hist_of evs) K))%Z) H)
              (eq_sym (pn_value_known evs r')))).
Qed.

(** A replica that knows every operation of the run reads total increments minus
    total decrements, computed directly from the event list. *)
Theorem C02_pncounter_total :
  forall (evs : list (event pnop)) (r : N),
  (forall i, i < length (hist_of evs) -> i ∈ known_by evs r) ->
  pn_value (state_at pn_new pn_apply pn_merge evs r) =
  (Z.of_N (total_ops (fun o => match o with PInc n => n | PDec _ => 0%N end) evs) -
   Z.of_N (total_ops (fun o => match o with PInc _ => 0%N | PDec n => n end) evs))%Z.
Proof.
  intros evs r H. rewrite pn_value_known. f_equal; f_equal; exact (hist_total _ evs _ H).
Qed.

(** Shipping the delta for the peer's version is as good as shipping the full state. *)
Theorem C02_pncounter_delta_is_complete :
  forall (evs : list (event pnop)) (sender peer : N),
  let s := state_at pn_new pn_apply pn_merge evs sender in
  let p := state_at pn_new pn_apply pn_merge evs peer in
  pn_value (match pn_delta_since s (pn_version p) with Some d => pn_apply_delta p d | None => p end)
  = pn_value (pn_merge p s).
Proof. exact pn_delta_equiv. Qed.

Example C02_example_run : list (event pnop) :=
  [EOp 1 (PInc 5); ESend 1; EOp 2 (PDec 7); ERecv 2 0; EOp 1 (PDec 1); ERecv 2 0; ESend 2; ERecv 3 1;
   ESend 1; ERecv 3 2]%N.
Example C02_example :
  pn_value (state_at pn_new pn_apply pn_merge C02_example_run 3%N) = (-3)%Z /\
  pn_delta_since (state_at pn_new pn_apply pn_merge C02_example_run 2%N)
    (pn_version (state_at pn_new pn_apply pn_merge C02_example_run 3%N)) = None /\
  is_Some (pn_delta_since (state_at pn_new pn_apply pn_merge C02_example_run 3%N)
    (pn_version (state_at pn_new pn_apply pn_merge C02_example_run 2%N))).
Proof. vm_compute. repeat split; eauto. Qed.

(** ** C03: vector clocks *)

(** Domination is the pointwise order of counters (missing replicas count 0). *)
Theorem C03_dominates_is_pointwise : forall a b : vclock,
  vc_dominates a b = true <-> forall r, (vc_get b r <= vc_get a r)%N.
Proof. exact vc_dominates_spec. Qed.

Theorem C03_dominates_preorder : forall a b c : vclock,
  vc_dominates a a = true /\
  (vc_dominates a b = true -> vc_dominates b c = true -> vc_dominates a c = true) /\
  (vc_dominates a b = true -> vc_dominates b a = true -> forall r, vc_get a r = vc_get b r).
Proof.
  intros a b c. refine (conj (vc_dominates_refl a) (conj (vc_dominates_trans a b c) _)).
  intros H1 H2 r. apply vc_dominates_spec with (r := r) in H1.
  apply vc_dominates_spec with (r := r) in H2. apply N.le_antisymm; assumption.
Qed.

(** Merging gives the least clock dominating both, and is a semilattice operation. *)
Theorem C03_merge_is_least_upper_bound : forall a b c : vclock,
  vc_dominates (vc_merge a b) a = true /\ vc_dominates (vc_merge a b) b = true /\
  (vc_dominates c a = true -> vc_dominates c b = true -> vc_dominates c (vc_merge a b) = true).
Proof.
  intros a b c. rewrite !vc_dominates_spec. setoid_rewrite vc_get_merge.
  split; [|split]; [intros r; lia..|]. intros H1 H2 r. specialize (H1 r). specialize (H2 r). lia.
Qed.

Theorem C03_merge_laws : forall a b c : vclock,
  vc_merge a b = vc_merge b a /\ vc_merge a (vc_merge b c) = vc_merge (vc_merge a b) c /\ vc_merge a a = a.
Proof.
  exact (fun a b c => conj (max_merge_comm a b) (conj (max_merge_assoc a b c) (max_merge_idemp a))).
Qed.

Theorem C03_increment_strictly_later : forall (a : vclock) (r : N),
  vc_dominates (vc_increment a r) a = true /\ vc_dominates a (vc_increment a r) = false.
Proof.
  intros a r. split.
  - apply vc_dominates_spec. intros q. rewrite vc_get_increment. lia.
  - apply not_true_is_false. rewrite vc_dominates_spec. intros H. specialize (H r).
    rewrite vc_get_increment, decide_True in H by reflexivity. lia.
Qed.

Theorem C03_concurrent_iff_incomparable : forall a b : vclock,
  vc_concurrent a b = true <-> (exists r, (vc_get a r < vc_get b r)%N) /\ (exists r, (vc_get b r < vc_get a r)%N).
Proof.
  assert (D : forall a b, negb (vc_dominates a b) = true <-> exists r, (vc_get a r < vc_get b r)%N).
  { intros a b. rewrite negb_true_iff. split.
    - unfold vc_dominates.
      assert (G : forall l, (forall r c, (r, c) ∈ l -> vc_get b r = c) ->
        vc_dominates_loop a l = false -> exists r, (vc_get a r < vc_get b r)%N).
      { induction l as [|[k n] l IH]; intros Hl; simpl; [discriminate|].
        destruct (N.ltb_spec (vc_get a k) n) as [L|_].
        - intros _. exists k. rewrite (Hl k n); [exact L|]. left.
        - apply IH. intros r c H. apply Hl. now right. }
      apply G. intros r c H. apply elem_of_map_to_list in H. unfold vc_get. now rewrite H.
    - intros [r Hr]. apply not_true_is_false. rewrite vc_dominates_spec. intros H. specialize (H r). lia. }
  intros a b. unfold vc_concurrent. rewrite andb_true_iff, !D. reflexivity.
Qed.

Example C03_example :
  let a := vc_increment ∅ 1%N in let b := vc_increment ∅ 2%N in
  vc_concurrent a b = true /\ vc_dominates (vc_merge a b) a = true /\ vc_dominates a (vc_merge a b) = false.
Proof. vm_compute. auto. Qed.

(** ** C04: causal contexts *)

(** After any commands from the empty context, an event (with a positive counter) is
    reported as seen exactly when some command told it. *)
Theorem C04_seen_exactly_what_was_told :
  forall (xs : list dcmd) (r n : N), (0 < n)%N ->
  dc_has_seen (drun dc_empty xs) (r, n) = true <-> told_in dc_empty xs (r, n).
Proof.
  intros xs r n Hn. rewrite drun_seen. rewrite dc_has_seen_spec, empty_seen. simpl.
  split; [intros [A|A]; [lia|exact A]|auto].
Qed.

(** Merging contexts reports exactly the union, in either order. *)
Theorem C04_merge_is_union : forall (a b : dotctx) (d : dot),
  dc_has_seen (dc_merge a b) d = dc_has_seen a d || dc_has_seen b d.
Proof.
  intros a b d. apply eq_true_iff_eq. rewrite orb_true_iff, !dc_has_seen_spec. exact (merge_seen a b d).
Qed.

(** An issued event was never seen before, provided nobody else invents events of [r]. *)
Theorem C04_issued_events_are_fresh :
  forall (r : N) (xs : list dcmd), all_tame r dc_empty xs ->
  dc_has_seen (drun dc_empty xs) (dc_next (drun dc_empty xs) r).2 = false.
Proof. exact drun_next_fresh. Qed.

Example C04_example :
  let xs := [DNext 1; DAdd (2, 3); DAdd (2, 1); DMerge (dc_next dc_empty 3).1; DAdd (2, 2)]%N in
  all_tame 1%N dc_empty xs /\
  dc_clock (drun dc_empty xs) = {[1 := 1; 2 := 3; 3 := 1]}%N /\ dc_cloud (drun dc_empty xs) = ∅ /\
  dc_has_seen (drun dc_empty xs) (2, 3)%N = true /\ dc_has_seen (drun dc_empty xs) (2, 4)%N = false.
Proof.
  split; [|split; [|split; [|split; vm_compute; reflexivity]]];
    [|apply (bool_decide_unpack _); vm_compute; exact I..].
  simpl. split; [exact I|]. split; [discriminate|]. split; [discriminate|]. split; [|split; [discriminate|exact I]].
  intros n Hn. apply dc_has_seen_spec in Hn. apply dc_has_seen_spec.
  destruct Hn as [Hn|Hn]; [|vm_compute in Hn; discriminate].
  left. simpl in *. etransitivity; [exact Hn|]. vm_compute. discriminate.
Qed.

(** Without that proviso freshness fails: an event of replica 1 delivered out of
    order before replica 1 issues it. *)
Theorem C04_issued_fresh_needs_proviso_refuted :
  exists xs r, dc_has_seen (drun dc_empty xs) (dc_next (drun dc_empty xs) r).2 = true.
Proof. exists [DAdd (1, 2); DNext 1]%N, 1%N. vm_compute. reflexivity. Qed.

(** Structural equality (the derived [PartialEq]) of merged contexts does depend on
    the merge order: covered out-of-order dots are not pruned. *)
Theorem C04_merge_structurally_commutative_refuted :
  exists a b, dc_merge a b <> dc_merge b a.
Proof.
  exists (drun dc_empty [DAdd (1, 3)]%N), (drun dc_empty [DNext 1; DNext 1; DNext 1]%N).
  intros H. apply (f_equal (fun c => elements (dc_cloud c))) in H. vm_compute in H. discriminate.
Qed.

Print Assumptions C01_gcounter_merge_laws.
Print Assumptions C01_gcounter_counts_known_increments.
Print Assumptions C01_gcounter_converges.
Print Assumptions C01_gcounter_total.
Print Assumptions C02_pncounter_merge_laws.
Print Assumptions C02_pncounter_counts_known_operations.
Print Assumptions C02_pncounter_converges.
Print Assumptions C02_pncounter_total.
Print Assumptions C02_pncounter_delta_is_complete.
Print Assumptions C03_dominates_is_pointwise.
Print Assumptions C03_dominates_preorder.
Print Assumptions C03_merge_is_least_upper_bound.
Print Assumptions C03_merge_laws.
Print Assumptions C03_increment_strictly_later.
Print Assumptions C03_concurrent_iff_incomparable.
Print Assumptions C04_seen_exactly_what_was_told.
Print Assumptions C04_merge_is_union.
Print Assumptions C04_issued_events_are_fresh.
Print Assumptions C04_issued_fresh_needs_proviso_refuted.
Print Assumptions C04_merge_structurally_commutative_refuted.
