(** Replicated sequences: local edits act like list edits; runs converge. *)
From stdpp Require Import gmap.
From Verif Require Import CrdtModel StableSort SequenceModel SequenceProofs Replication ReplicationEffects
  CrdtClockProofs.

Section Local.
  Context {T : Type}.
  Implicit Types l : list (node T).
  Notation live := (fun n : node T => n_del n = false).

  Lemma put_after_absent p (x : node T) l : p ∉ n_id <$> l -> put_after p x l = l.
  Proof.
    unfold put_after. induction l as [|n l IH]; intros H; [reflexivity|]. rewrite fmap_cons in H.
    rewrite bind_cons, decide_False by set_solver. simpl. f_equal.
    apply IH. set_solver.
  Qed.

  Lemma put_after_split (x n : node T) l :
    NoDup (n_id <$> l) -> n ∈ l -> exists l1 l2, l = l1 ++ n :: l2 /\ put_after (n_id n) x l = l1 ++ n :: x :: l2.
  Proof.
    intros ND Hn. apply elem_of_list_split in Hn as (l1 & l2 & ->). exists l1, l2. split; [reflexivity|].
    rewrite fmap_app, fmap_cons in ND. apply NoDup_app in ND as (ND1 & D & ND2). apply NoDup_cons in ND2 as [N2 _].
    assert (N1 : n_id n ∉ n_id <$> l1) by (intros H; apply (D _ H); left).
    unfold put_after. rewrite bind_app. fold (put_after (n_id n) x l1). rewrite (put_after_absent _ _ l1 N1).
    f_equal. rewrite bind_cons, decide_True by reflexivity. simpl. do 2 f_equal. apply put_after_absent, N2.
  Qed.

  Lemma filter_take_drop (x n : node T) l1 l2 i :
    NoDup (n_id <$> (l1 ++ n :: l2)) -> n_del n = false -> n_del x = false ->
    filter live (l1 ++ n :: l2) !! i = Some n ->
    filter live (l1 ++ n :: x :: l2) =
      take (S i) (filter live (l1 ++ n :: l2)) ++ x :: drop (S i) (filter live (l1 ++ n :: l2)).
  Proof.
    intros ND Hn Hx Hi. rewrite !filter_app, !filter_cons, !decide_True in * by assumption.
    assert (E : i = length (filter live l1)).
    { assert (ND' : NoDup (filter live l1 ++ n :: filter live l2)).
      { apply (NoDup_fmap_1 n_id). apply (NoDup_ids_filter live) in ND.
        rewrite filter_app, filter_cons, decide_True in ND by assumption. exact ND. }
      eapply NoDup_lookup; [exact ND'|exact Hi|]. rewrite lookup_app_r, Nat.sub_diag by lia. reflexivity. }
    subst i. set (v1 := filter live l1). set (v2 := filter live l2).
    assert (E1 : v1 ++ n :: v2 = (v1 ++ [n]) ++ v2) by now rewrite <- app_assoc.
    assert (E2 : S (length v1) = length (v1 ++ [n])) by (rewrite app_length; simpl; lia).
    rewrite E1, E2, take_app, drop_app, <- app_assoc. reflexivity.
  Qed.

  (** What every reachable replica satisfies. *)
  Definition seq_ok (s : rga T) : Prop :=
    tree (rg_nodes s) /\ forall n, n ∈ rg_nodes s -> ((n_id n).1 <= rg_ts s)%N.

  Lemma visible_ids s : seq_ok s -> NoDup (n_id <$> rg_sorted (rg_nodes s)).
  Proof.
    intros [Tr _]. destruct (sorted_walk _ Tr) as [_ P]. eapply NoDup_ids_perm; [symmetry; exact P|apply Tr].
  Qed.

  Lemma visible_node s i n : seq_ok s -> rg_visible s !! i = Some n -> n ∈ rg_nodes s /\ n_del n = false.
  Proof.
    intros [Tr _] H. apply elem_of_list_lookup_2 in H. unfold rg_visible in H.
    apply elem_of_list_filter in H as [H1 H2]. destruct (sorted_walk _ Tr) as [_ P]. rewrite P in H2. auto.
  Qed.

  Lemma visible_each_once s n : seq_ok s -> n ∈ rg_visible s <-> n ∈ rg_nodes s /\ n_del n = false.
  Proof.
    intros [Tr _]. unfold rg_visible. rewrite elem_of_list_filter.
    destruct (sorted_walk _ Tr) as [_ P]. rewrite P. tauto.
  Qed.
  Lemma visible_nodup s : seq_ok s -> NoDup (rg_visible s).
  Proof.
    intros H. apply NoDup_filter. apply (NoDup_fmap_1 n_id). now apply visible_ids.
  Qed.

  Notation fresh_node v p s :=
    {| n_id := ((rg_ts s + 1)%N, rg_id s); n_val := v; n_del := false; n_parent := p |}.

  Lemma push_new v p s n : seq_ok s -> n ∈ rg_nodes s -> ((n_id n).1 < (n_id (fresh_node v p s : node T)).1)%N.
  Proof. intros [_ B] Hn. specialize (B n Hn). simpl. lia. Qed.

  Lemma push_ok v p s :
    seq_ok s -> (forall q, p = Some q -> exists m, m ∈ rg_nodes s /\ n_id m = q) -> seq_ok (rg_push v p s).
  Proof.
    intros Ok Hp. split; simpl.
    - apply tree_snoc; [apply Ok|intros n Hn; now apply (push_new v p s)|]. exact Hp.
    - intros n Hn. apply elem_of_app in Hn as [Hn|Hn]; [pose proof (proj2 Ok n Hn); lia|].
      apply elem_of_list_singleton in Hn. subst n. simpl. lia.
  Qed.

  Lemma push_head v s : seq_ok s -> rg_visible (rg_push v None s) = fresh_node v None s :: rg_visible s.
  Proof.
    intros Ok. unfold rg_visible. simpl. rewrite sorted_snoc; simpl.
    - rewrite filter_cons, decide_True by reflexivity. reflexivity.
    - apply Ok.
    - intros n Hn. now apply (push_new v None s).
    - discriminate.
  Qed.

  Lemma push_behind v s i n :
    seq_ok s -> rg_visible s !! i = Some n ->
    rg_visible (rg_push v (Some (n_id n)) s) =
      take (S i) (rg_visible s) ++ fresh_node v (Some (n_id n)) s :: drop (S i) (rg_visible s).
  Proof.
    intros Ok Hi. destruct (visible_node s i n Ok Hi) as [Hn Hl].
    unfold rg_visible at 1. simpl. rewrite sorted_snoc; simpl.
    - assert (Hs : n ∈ rg_sorted (rg_nodes s)).
      { destruct (sorted_walk _ (proj1 Ok)) as [_ P]. now rewrite P. }
      destruct (put_after_split (fresh_node v (Some (n_id n)) s) n _ (visible_ids s Ok) Hs) as (l1 & l2 & E & ->).
      unfold rg_visible in Hi |- *. rewrite E in Hi |- *.
      apply filter_take_drop; [rewrite <- E; now apply visible_ids|exact Hl|reflexivity|exact Hi].
    - apply Ok.
    - intros m Hm. now apply (push_new v (Some (n_id n)) s).
    - intros p [= <-]. eauto.
  Qed.

  Lemma insert_after_vec i v s :
    seq_ok s -> i < rg_len s ->
    rg_to_vec (rg_insert_after i v s) = take (S i) (rg_to_vec s) ++ v :: drop (S i) (rg_to_vec s).
  Proof.
    intros Ok Hi. destruct (lookup_lt_is_Some_2 (rg_visible s) i Hi) as [n Hn].
    unfold rg_insert_after, rg_visible_id_at, rg_to_vec. rewrite Hn. simpl.
    rewrite (push_behind v s i n Ok Hn), fmap_app, fmap_cons, fmap_take, fmap_drop. reflexivity.
  Qed.
  Lemma insert_after_outside i v s :
    seq_ok s -> rg_len s <= i -> rg_to_vec (rg_insert_after i v s) = v :: rg_to_vec s.
  Proof.
    intros Ok Hi. unfold rg_insert_after, rg_visible_id_at, rg_to_vec. rewrite lookup_ge_None_2 by exact Hi. simpl.
    now rewrite push_head.
  Qed.
  Lemma insert_before_vec i v s :
    seq_ok s -> i <= rg_len s ->
    rg_to_vec (rg_insert_before i v s) = take i (rg_to_vec s) ++ v :: drop i (rg_to_vec s).
  Proof.
    intros Ok Hi. destruct i as [|i]; simpl.
    - unfold rg_to_vec. now rewrite push_head.
    - apply insert_after_vec; [exact Ok|lia].
  Qed.
  Lemma insert_before_outside i v s :
    seq_ok s -> rg_len s < i -> rg_to_vec (rg_insert_before i v s) = v :: rg_to_vec s.
  Proof.
    intros Ok Hi. destruct i as [|i]; [lia|]. apply insert_after_outside; [exact Ok|lia].
  Qed.
  Lemma append_vec v s : seq_ok s -> rg_to_vec (rg_append v s) = rg_to_vec s ++ [v].
  Proof.
    intros Ok. unfold rg_append, rg_last_visible_id, rg_to_vec. destruct (last (rg_visible s)) as [n|] eqn:E; simpl.
    - rewrite last_lookup in E. rewrite (push_behind v s _ n Ok E).
      assert (Hl : length (rg_visible s) <> 0) by (intros H; rewrite H in E; apply nil_length_inv in H; rewrite H in E; discriminate).
      rewrite take_ge, drop_ge by lia. now rewrite fmap_app.
    - rewrite push_head by exact Ok. apply last_None in E. now rewrite E.
  Qed.

  Definition mark (id : rid) (n : node T) : node T := if decide (n_id n = id) then set_deleted n else n.
  Lemma mark_id id n : n_id (mark id n) = n_id n.
  Proof. unfold mark. now case_decide. Qed.
  Lemma mark_parent id n : n_parent (mark id n) = n_parent n.
  Proof. unfold mark. now case_decide. Qed.
  Lemma mark_val id n : n_val (mark id n) = n_val n.
  Proof. unfold mark. now case_decide. Qed.
  Lemma mark_absent id l : id ∉ n_id <$> l -> mark id <$> l = l.
  Proof.
    intros H. rewrite <- (list_fmap_id l) at 2. apply list_fmap_ext. intros i n Hn. unfold mark.
    rewrite decide_False; [reflexivity|]. intros E. apply H. rewrite <- E.
    apply elem_of_list_fmap_1. eapply elem_of_list_lookup_2; eauto.
  Qed.
  Lemma mark_deleted_map id l : NoDup (n_id <$> l) -> mark_deleted id l = mark id <$> l.
  Proof.
    induction l as [|n l IH]; intros ND; [reflexivity|]. rewrite fmap_cons in *. apply NoDup_cons in ND as [Nn ND].
    simpl. unfold mark at 1. case_decide as E.
    - f_equal. rewrite mark_absent; [reflexivity|]. now rewrite <- E.
    - f_equal. auto.
  Qed.

  Lemma remove_vec i s : seq_ok s -> rg_to_vec (rg_remove i s) = delete i (rg_to_vec s).
  Proof.
    intros Ok. unfold rg_remove, rg_visible_id_at. destruct (rg_visible s !! i) as [n|] eqn:Hi; simpl.
    - unfold rg_to_vec. transitivity (n_val <$> delete i (rg_visible s)).
      2:{ now rewrite list_fmap_delete || (rewrite !delete_take_drop, fmap_app, fmap_take, fmap_drop). }
      f_equal. unfold rg_visible at 1. simpl. rewrite mark_deleted_map by apply Ok.
      rewrite sorted_map by (auto using mark_id, mark_parent; apply Ok).
      destruct (visible_node s i n Ok Hi) as [Hn Hl].
      assert (Hs : n ∈ rg_sorted (rg_nodes s)).
      { destruct (sorted_walk _ (proj1 Ok)) as [_ P]. now rewrite P. }
      pose proof (visible_ids s Ok) as ND. unfold rg_visible in Hi |- *.
      apply elem_of_list_split in Hs as (l1 & l2 & E). rewrite E in ND, Hi |- *.
      pose proof ND as ND0. rewrite fmap_app, fmap_cons in ND0. apply NoDup_app in ND0 as (_ & D & ND2).
      apply NoDup_cons in ND2 as [N2 _].
      assert (N1 : n_id n ∉ n_id <$> l1) by (intros H; apply (D _ H); left).
      rewrite fmap_app, fmap_cons, !mark_absent by assumption.
      rewrite !filter_app, !filter_cons, (decide_True _ _ Hl) in *.
      assert (Hm : n_del (mark (n_id n) n) = true) by (unfold mark; now rewrite decide_True).
      rewrite decide_False by congruence.
      assert (Ei : i = length (filter live l1)).
      { assert (ND' : NoDup (filter live l1 ++ n :: filter live l2)).
        { apply (NoDup_fmap_1 n_id). apply (NoDup_ids_filter live) in ND.
          rewrite filter_app, filter_cons, decide_True in ND by assumption. exact ND. }
        eapply NoDup_lookup; [exact ND'|exact Hi|]. rewrite lookup_app_r, Nat.sub_diag by lia. reflexivity. }
      subst i. rewrite delete_middle. reflexivity.
    - rewrite delete_take_drop. apply lookup_ge_None in Hi. unfold rg_to_vec. rewrite take_ge, drop_ge, app_nil_r; rewrite ?fmap_length; auto with lia.
  Qed.
End Local.
