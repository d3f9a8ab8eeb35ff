(** Lemmas about vector clocks and dot contexts. *)
From stdpp Require Import gmap.
From Verif Require Import CrdtModel.

(** ** [max_merge] is the pointwise maximum, whatever the iteration order *)

Definition maxo (x y : option N) : option N :=
  match x, y with
  | None, None => None
  | _, _ => Some (N.max (default 0%N x) (default 0%N y))
  end.

Lemma maxo_comm x y : maxo x y = maxo y x.
Proof. destruct x, y; simpl; f_equal; lia. Qed.
Lemma maxo_assoc x y z : maxo x (maxo y z) = maxo (maxo x y) z.
Proof. destruct x, y, z; simpl; f_equal; lia. Qed.
Lemma maxo_idemp x : maxo x x = x.
Proof. destruct x; simpl; f_equal; lia. Qed.
Lemma default_maxo x y : default 0%N (maxo x y) = N.max (default 0%N x) (default 0%N y).
Proof. destruct x, y; simpl; lia. Qed.

Lemma fold_max_lookup (l : list (N * N)) (m : gmap N N) r :
  NoDup l.*1 ->
  fold_left max_step l m !! r = maxo (m !! r) ((list_to_map l : gmap N N) !! r).
Proof.
  revert m. induction l as [|[k c] l IH]; intros m HN; simpl.
  - rewrite lookup_empty. destruct (m !! r); simpl; [f_equal; lia|reflexivity].
  - apply NoDup_cons in HN as [Hk HN]. rewrite IH by exact HN.
    unfold max_step; simpl.
    destruct (decide (r = k)) as [ -> |Hr].
    + rewrite !lookup_insert.
      rewrite (not_elem_of_list_to_map_1 l k Hk). simpl.
      destruct (m !! k); simpl; f_equal; lia.
    + now rewrite !lookup_insert_ne by auto.
Qed.

(** For every order in which the entries of [other] may be enumerated. *)
Lemma max_merge_any_order (self other : gmap N N) l :
  l ≡ₚ map_to_list other -> fold_left max_step l self = max_merge self other.
Proof.
  intros P. apply map_eq. intros r. unfold max_merge.
  assert (N1 : NoDup (map_to_list other).*1) by apply NoDup_fst_map_to_list.
  assert (N2 : NoDup l.*1) by (rewrite P; exact N1).
  rewrite !fold_max_lookup by assumption.
  now rewrite (list_to_map_proper l (map_to_list other) N2 P).
Qed.

Lemma max_merge_lookup (a b : gmap N N) r : max_merge a b !! r = maxo (a !! r) (b !! r).
Proof.
  unfold max_merge. rewrite fold_max_lookup by apply NoDup_fst_map_to_list.
  now rewrite list_to_map_to_list.
Qed.

Lemma max_merge_comm a b : max_merge a b = max_merge b a.
Proof. apply map_eq. intros r. rewrite !max_merge_lookup. apply maxo_comm. Qed.
Lemma max_merge_assoc a b c : max_merge a (max_merge b c) = max_merge (max_merge a b) c.
Proof. apply map_eq. intros r. rewrite !max_merge_lookup. apply maxo_assoc. Qed.
Lemma max_merge_idemp a : max_merge a a = a.
Proof. apply map_eq. intros r. rewrite !max_merge_lookup. apply maxo_idemp. Qed.

(** ** Vector clocks *)

Lemma vc_get_merge a b r : vc_get (vc_merge a b) r = N.max (vc_get a r) (vc_get b r).
Proof. unfold vc_get, vc_merge. rewrite max_merge_lookup. apply default_maxo. Qed.

Lemma vc_get_empty r : vc_get ∅ r = 0%N.
Proof. unfold vc_get. now rewrite lookup_empty. Qed.

Lemma vc_get_increment v r q :
  vc_get (vc_increment v r) q = (vc_get v q + (if decide (q = r) then 1 else 0))%N.
Proof.
  unfold vc_increment. unfold vc_get at 1. case_decide as H.
  - subst. now rewrite lookup_insert.
  - rewrite lookup_insert_ne by auto. fold (vc_get v q). lia.
Qed.

Lemma vc_dominates_loop_spec self l :
  vc_dominates_loop self l = true <-> forall r c, (r, c) ∈ l -> (c <= vc_get self r)%N.
Proof.
  induction l as [|[k n] l IH]; simpl.
  - split; [intros _ r c H; inversion H|reflexivity].
  - destruct (N.ltb_spec (vc_get self k) n) as [H|H].
    + split; [discriminate|]. intros A. specialize (A k n (elem_of_list_here _ _)). lia.
    + rewrite IH. split.
      * intros A r c Hrc. apply elem_of_cons in Hrc as [E|Hrc]; [|auto].
        injection E as -> ->. lia.
      * intros A r c Hrc. apply A. now right.
Qed.

Lemma vc_dominates_spec a b :
  vc_dominates a b = true <-> forall r, (vc_get b r <= vc_get a r)%N.
Proof.
  unfold vc_dominates. rewrite vc_dominates_loop_spec. split.
  - intros A r. unfold vc_get at 1. destruct (b !! r) as [c|] eqn:E; simpl; [|lia].
    apply A. now apply elem_of_map_to_list.
  - intros A r c H. apply elem_of_map_to_list in H.
    specialize (A r). unfold vc_get at 1 in A. now rewrite H in A.
Qed.

Lemma vc_dominates_refl a : vc_dominates a a = true.
Proof. apply vc_dominates_spec. intros; lia. Qed.

Lemma vc_dominates_trans a b c :
  vc_dominates a b = true -> vc_dominates b c = true -> vc_dominates a c = true.
Proof.
  rewrite !vc_dominates_spec. intros H1 H2 r. specialize (H1 r). specialize (H2 r). lia.
Qed.

(** ** Dot contexts *)

Definition seen (c : dotctx) (d : dot) : Prop :=
  (d.2 <= vc_get (dc_clock c) d.1)%N \/ d ∈ dc_cloud c.

Lemma dc_has_seen_spec c d : dc_has_seen c d = true <-> seen c d.
Proof.
  unfold dc_has_seen, seen. rewrite orb_true_iff, N.leb_le, bool_decide_eq_true. reflexivity.
Qed.

Lemma compact_loop_seen fuel c r d : seen (dc_compact_replica_loop fuel c r) d <-> seen c d.
Proof.
  revert c. induction fuel as [|fuel IH]; intros c; simpl; [reflexivity|].
  case_decide as H; [|reflexivity]. rewrite IH. clear IH.
  unfold seen; simpl. rewrite vc_get_increment. destruct d as [q n]; simpl.
  case_decide as Hq.
  - subst q. split.
    + intros [A|A]; [|set_solver].
      destruct (decide (n = (vc_get (dc_clock c) r + 1)%N)) as [ -> |]; [now right|left; lia].
    + intros [A|A]; [left; lia|].
      destruct (decide (n = (vc_get (dc_clock c) r + 1)%N)) as [ -> |Hn]; [left; lia|right].
      apply elem_of_difference. split; [exact A|]. rewrite elem_of_singleton. congruence.
  - rewrite N.add_0_r. split; (intros [A|A]; [now left|right]); [set_solver|].
    apply elem_of_difference. split; [exact A|]. rewrite elem_of_singleton. congruence.
Qed.

Lemma compact_replica_seen c r d : seen (dc_compact_replica c r) d <-> seen c d.
Proof. apply compact_loop_seen. Qed.

(** The loop of [compact_replica] really ends by its own exit test, not by fuel. *)
Lemma compact_loop_done fuel c r :
  size (dc_cloud c) < fuel ->
  let c' := dc_compact_replica_loop fuel c r in
  (r, (vc_get (dc_clock c') r + 1)%N) ∉ dc_cloud c'.
Proof.
  revert c. induction fuel as [|fuel IH]; intros c Hf; simpl; [lia|].
  case_decide as H; [|exact H]. apply IH. simpl.
  assert (size (dc_cloud c) <> 0) by (intros E; apply size_empty_inv in E; set_solver).
  rewrite size_difference by set_solver. rewrite size_singleton. lia.
Qed.

Lemma compact_replica_done c r :
  let c' := dc_compact_replica c r in (r, (vc_get (dc_clock c') r + 1)%N) ∉ dc_cloud c'.
Proof. apply compact_loop_done. lia. Qed.

Lemma fold_compact_seen l c d : seen (fold_left dc_compact_replica l c) d <-> seen c d.
Proof.
  revert c. induction l as [|r l IH]; intros c; simpl; [reflexivity|].
  rewrite IH. apply compact_replica_seen.
Qed.

Lemma compact_seen c d : seen (dc_compact c) d <-> seen c d.
Proof. apply fold_compact_seen. Qed.

Lemma next_seen c r d :
  seen (dc_next c r).1 d <-> seen c d \/ d = (dc_next c r).2.
Proof.
  unfold dc_next, seen; simpl. rewrite !vc_get_increment. destruct d as [q n]; simpl.
  rewrite (decide_True (P := r = r)) by reflexivity. case_decide as Hq.
  - subst q. split.
    + intros [A|A]; [|auto].
      destruct (decide (n = (vc_get (dc_clock c) r + 1)%N)) as [ -> |]; [now right|left; left; lia].
    + intros [[A|A]|A]; [left; lia|auto|]. injection A as ->. left; lia.
  - rewrite N.add_0_r. split; [tauto|]. intros [?|E]; [tauto|]. congruence.
Qed.

Lemma add_seen c d x : seen (dc_add c d) x <-> seen c x \/ x = d.
Proof.
  unfold dc_add. destruct (N.eqb_spec d.2 (vc_get (dc_clock c) d.1 + 1)) as [E|NE].
  - rewrite compact_replica_seen. pose proof (next_seen c d.1 x) as H.
    unfold dc_next in H. simpl in H. rewrite vc_get_increment, (decide_True (P := d.1 = d.1)) in H by reflexivity.
    rewrite <- E in H. now destruct d.
  - destruct (N.ltb_spec (vc_get (dc_clock c) d.1) d.2) as [L|G].
    + unfold seen; simpl. set_solver.
    + split; [auto|]. intros [?| ->]; [auto|]. left. exact G.
Qed.

Lemma fold_cloud_seen l c d :
  seen (fold_left dc_merge_cloud_step l c) d <-> seen c d \/ d ∈ l.
Proof.
  revert c. induction l as [|x l IH]; intros c; simpl.
  - set_solver.
  - rewrite IH. unfold dc_merge_cloud_step.
    destruct (dc_has_seen c x) eqn:E.
    + apply dc_has_seen_spec in E. split; [set_solver|].
      intros [?|Hd]; [auto|]. apply elem_of_cons in Hd as [ -> |?]; auto.
    + unfold seen; simpl. set_solver.
Qed.

Lemma merge_seen a b d : seen (dc_merge a b) d <-> seen a d \/ seen b d.
Proof.
  unfold dc_merge. rewrite compact_seen, fold_cloud_seen. unfold seen; simpl.
  rewrite vc_get_merge, elem_of_elements. destruct d as [q n]; simpl. split.
  - intros [[A|A]|A]; [|tauto|tauto].
    destruct (N.max_spec (vc_get (dc_clock a) q) (vc_get (dc_clock b) q)) as [[_ E]|[_ E]];
      rewrite E in A; tauto.
  - intros [[A|A]|[A|A]]; [|tauto| |tauto]; left; left; lia.
Qed.

Lemma empty_seen d : seen dc_empty d <-> d.2 = 0%N.
Proof.
  unfold seen, dc_empty; simpl. rewrite vc_get_empty. split.
  - intros [A|A]; [lia|set_solver].
  - intros A. left. lia.
Qed.

(** Contexts without out-of-order dots stay so under [next] and [merge]. *)
Lemma merge_nocloud a b :
  dc_cloud a = ∅ -> dc_cloud b = ∅ ->
  dc_merge a b = {| dc_clock := vc_merge (dc_clock a) (dc_clock b); dc_cloud := ∅ |}.
Proof.
  intros A B. unfold dc_merge. rewrite A, B, elements_empty. simpl.
  unfold dc_compact; simpl. now rewrite elements_empty.
Qed.
