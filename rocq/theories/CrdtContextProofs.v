(** Histories of dot contexts. *)
From stdpp Require Import gmap.
From Verif Require Import CrdtModel CrdtClockProofs.

(** Commands a context can be given. *)
Inductive dcmd := DNext (r : N) | DAdd (d : dot) | DMerge (c : dotctx).

Definition dstep (c : dotctx) (x : dcmd) : dotctx :=
  match x with
  | DNext r => (dc_next c r).1
  | DAdd d => dc_add c d
  | DMerge c' => dc_merge c c'
  end.
Definition drun (c : dotctx) (xs : list dcmd) : dotctx := fold_left dstep xs c.

(** What one command tells the context (given the context it meets). *)
Definition told (c : dotctx) (x : dcmd) (d : dot) : Prop :=
  match x with
  | DNext r => d = (dc_next c r).2
  | DAdd d' => d = d'
  | DMerge c' => dc_has_seen c' d = true
  end.

(** What a sequence of commands tells, from an initial context. *)
Fixpoint told_in (c : dotctx) (xs : list dcmd) (d : dot) : Prop :=
  match xs with
  | [] => False
  | x :: xs' => told c x d \/ told_in (dstep c x) xs' d
  end.

Lemma drun_seen xs c d :
  dc_has_seen (drun c xs) d = true <-> dc_has_seen c d = true \/ told_in c xs d.
Proof.
  revert c. induction xs as [|x xs IH]; intros c; simpl; [tauto|].
  unfold drun in *; simpl. rewrite IH. clear IH.
  assert (E : dc_has_seen (dstep c x) d = true <-> dc_has_seen c d = true \/ told c x d).
  { rewrite !dc_has_seen_spec. destruct x as [r|d'|c']; simpl.
    - apply next_seen.
    - apply add_seen.
    - rewrite merge_seen, dc_has_seen_spec. reflexivity. }
  tauto.
Qed.

(** Freshness. [own_dots_covered r c] holds when the context has no out-of-order dot
    of replica [r]. *)
Definition own_dots_covered (r : N) (c : dotctx) : Prop :=
  forall n, (r, n) ∈ dc_cloud c -> (n <= vc_get (dc_clock c) r)%N.

Lemma next_fresh r c : own_dots_covered r c -> dc_has_seen c (dc_next c r).2 = false.
Proof.
  intros H. destruct (dc_has_seen c (dc_next c r).2) eqn:E; [|reflexivity]. exfalso.
  apply dc_has_seen_spec in E. unfold dc_next, seen in E; simpl in E.
  rewrite vc_get_increment, decide_True in E by reflexivity.
  destruct E as [E|E]; [lia|]. apply H in E. lia.
Qed.

Lemma compact_loop_cloud fuel c r : dc_cloud (dc_compact_replica_loop fuel c r) ⊆ dc_cloud c.
Proof.
  revert c. induction fuel as [|fuel IH]; intros c; simpl; [set_solver|].
  case_decide; [|set_solver]. etransitivity; [apply IH|]. simpl. set_solver.
Qed.

Lemma compact_loop_clock fuel c r q :
  (vc_get (dc_clock c) q <= vc_get (dc_clock (dc_compact_replica_loop fuel c r)) q)%N.
Proof.
  revert c. induction fuel as [|fuel IH]; intros c; simpl; [lia|].
  case_decide; [|lia]. etransitivity; [|apply IH]. simpl. rewrite vc_get_increment. lia.
Qed.

Lemma fold_compact_cloud l c : dc_cloud (fold_left dc_compact_replica l c) ⊆ dc_cloud c.
Proof.
  revert c. induction l as [|r l IH]; intros c; simpl; [set_solver|].
  etransitivity; [apply IH|]. apply compact_loop_cloud.
Qed.

Lemma fold_compact_clock l c q :
  (vc_get (dc_clock c) q <= vc_get (dc_clock (fold_left dc_compact_replica l c)) q)%N.
Proof.
  revert c. induction l as [|r l IH]; intros c; simpl; [lia|].
  etransitivity; [|apply IH]. apply compact_loop_clock.
Qed.

Lemma fold_cloud_cloud l c d :
  d ∈ dc_cloud (fold_left dc_merge_cloud_step l c) ->
  d ∈ dc_cloud c \/ (d ∈ l /\ ~ (d.2 <= vc_get (dc_clock c) d.1)%N).
Proof.
  revert c. induction l as [|x l IH]; intros c; simpl; [auto|].
  intros H. apply IH in H. unfold dc_merge_cloud_step in H.
  destruct (dc_has_seen c x) eqn:E; simpl in H; [set_solver|].
  destruct (decide (d = x)) as [->|Hd]; [|set_solver].
  right. split; [left|]. intros A.
  assert (dc_has_seen c x = true); [|congruence]. apply dc_has_seen_spec. now left.
Qed.

Lemma fold_cloud_clock l c : dc_clock (fold_left dc_merge_cloud_step l c) = dc_clock c.
Proof.
  revert c. induction l as [|x l IH]; intros c; simpl; [reflexivity|].
  rewrite IH. unfold dc_merge_cloud_step. now destruct (dc_has_seen c x).
Qed.

(** A command is tame for [r] when it tells nothing new about replica [r]'s own
    events, except by issuing them. *)
Definition tame (r : N) (c : dotctx) (x : dcmd) : Prop :=
  match x with
  | DNext _ => True
  | DAdd d => d.1 = r -> dc_has_seen c d = true
  | DMerge c' => forall n, dc_has_seen c' (r, n) = true -> dc_has_seen c (r, n) = true
  end.
Fixpoint all_tame (r : N) (c : dotctx) (xs : list dcmd) : Prop :=
  match xs with
  | [] => True
  | x :: xs' => tame r c x /\ all_tame r (dstep c x) xs'
  end.

Lemma own_seen_clock r c n :
  own_dots_covered r c -> seen c (r, n) -> (n <= vc_get (dc_clock c) r)%N.
Proof. intros H [A|A]; [exact A|]. now apply H. Qed.

Lemma tame_step r c x : own_dots_covered r c -> tame r c x -> own_dots_covered r (dstep c x).
Proof.
  intros H T n. destruct x as [q|d|c']; simpl.
  - intros A. simpl. rewrite vc_get_increment. apply H in A. lia.
  - simpl in T. unfold dc_add. destruct (N.eqb_spec d.2 (vc_get (dc_clock c) d.1 + 1)) as [E|NE].
    + intros A. apply compact_loop_cloud in A. simpl in A. apply H in A.
      etransitivity; [|apply compact_loop_clock]. simpl. rewrite vc_get_increment. lia.
    + destruct (N.ltb_spec (vc_get (dc_clock c) d.1) d.2) as [L|G]; simpl; [|apply H].
      rewrite elem_of_union, elem_of_singleton. intros [A|A]; [|auto].
      subst d; simpl in *. specialize (T eq_refl). apply dc_has_seen_spec in T.
      apply own_seen_clock; assumption.
  - simpl in T. unfold dc_merge. intros A.
    apply fold_compact_cloud in A. apply fold_cloud_cloud in A. simpl in A.
    etransitivity; [|apply fold_compact_clock]. rewrite fold_cloud_clock. simpl.
    rewrite vc_get_merge. destruct A as [A|[A1 A2]]; [apply H in A; lia|].
    rewrite elem_of_elements in A1.
    assert (Sn : seen c (r, n)).
    { apply dc_has_seen_spec. apply T. apply dc_has_seen_spec. now right. }
    pose proof (own_seen_clock r c n H Sn). lia.
Qed.

Lemma tame_run_covered r xs c : own_dots_covered r c -> all_tame r c xs -> own_dots_covered r (drun c xs).
Proof.
  revert c. induction xs as [|x xs IH]; intros c H; simpl; [auto|].
  intros [T1 T2]. unfold drun; simpl. apply IH; [|exact T2]. now apply tame_step.
Qed.

Lemma drun_next_fresh r xs :
  all_tame r dc_empty xs ->
  dc_has_seen (drun dc_empty xs) (dc_next (drun dc_empty xs) r).2 = false.
Proof.
  intros T. apply next_fresh. apply tame_run_covered; [|exact T].
  intros n Hn. unfold dc_empty in Hn; simpl in Hn. set_solver.
Qed.
