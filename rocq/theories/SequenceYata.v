(** YATA behaves as RGA: right origins are recorded but never read. *)
From stdpp Require Import gmap.
From Verif Require Import CrdtModel StableSort SequenceModel SequenceProofs SequenceRuns SequenceMerge Replication
  ReplicationEffects.

Section Yata.
  Context {T : Type}.
  Implicit Types l : list (yitem T).

  Definition fgi (n : yitem T) : node T :=
    {| n_id := y_id n; n_val := y_val n; n_del := y_del n; n_parent := y_left n |}.
  Definition fg (s : yata T) : rga T :=
    {| rg_nodes := fgi <$> ya_items s; rg_ts := ya_clock s; rg_id := ya_id s |}.

  Lemma fgi_ids l : n_id <$> (fgi <$> l) = y_id <$> l.
  Proof. rewrite <- list_fmap_compose. apply list_fmap_ext. reflexivity. Qed.

  Lemma fgi_filter (P : yitem T -> Prop) `{forall x, Decision (P x)} (Q : node T -> Prop) `{forall x, Decision (Q x)} l :
    (forall n, P n <-> Q (fgi n)) -> fgi <$> filter P l = filter Q (fgi <$> l).
  Proof.
    intros E. induction l as [|n l IH]; [reflexivity|]. rewrite fmap_cons, !filter_cons.
    destruct (decide (P n)) as [HP|HP], (decide (Q (fgi n))) as [HQ|HQ]; rewrite ?fmap_cons, ?IH; try reflexivity;
      exfalso; apply E in HQ || apply HQ, E; tauto.
  Qed.

  Lemma ordered_rev_desc (l : list (node T)) :
    ordered (fun a b => rid_leb (n_id a) (n_id b)) l -> ordered (fun a b => rid_leb (n_id b) (n_id a)) (rev l).
  Proof.
    induction 1 as [|x l S IH F]; simpl; [constructor|].
    assert (G : forall l1 : list (node T), ordered (fun a b : node T => rid_leb (n_id b) (n_id a)) l1 ->
      Forall (fun y => rid_leb (n_id x) (n_id y) = true) l1 -> ordered (fun a b : node T => rid_leb (n_id b) (n_id a)) (l1 ++ [x])).
    { intros l1 S1. induction S1 as [|y l1 S1 IH1 F1]; intros Fx; simpl; [repeat constructor|].
      inversion Fx as [|? ? Hy Fx']; subst. constructor; [now apply IH1|]. apply Forall_app. split; [exact F1|]. repeat constructor. exact Hy. }
    apply G; [exact IH|]. rewrite Forall_forall in F |- *. intros y Hy. apply F. apply elem_of_list_In, in_rev.
    now apply elem_of_list_In.
  Qed.

  Lemma followers_children l p : NoDup (y_id <$> l) -> fgi <$> rev (followers l p) = children (fgi <$> l) p.
  Proof.
    intros ND. rewrite <- fgi_ids in ND.
    assert (P : fgi <$> rev (followers l p) ≡ₚ filter (fun n => n_parent n = p) (fgi <$> l)).
    { rewrite <- (fgi_filter (fun n => y_left n = p) (fun n => n_parent n = p)) by reflexivity.
      apply fmap_Permutation. etransitivity; [symmetry; apply Permutation_rev|]. unfold followers. apply sort_by_perm. }
    apply desc_unique.
    - eapply NoDup_ids_perm; [symmetry; exact P|]. now apply NoDup_ids_filter.
    - assert (E : fgi <$> rev (followers l p) = rev (fgi <$> followers l p)) by apply map_rev. rewrite E.
      apply ordered_rev_desc.
      assert (S : ordered (fun a b => rid_leb (y_id a) (y_id b)) (followers l p)).
      { apply sort_by_ordered.
        - intros a b. apply rid_leb_total.
        - intros a b c. apply rid_leb_trans. }
      revert S. generalize (followers l p). intros l1. induction 1 as [|x l0 S IH F]; [constructor|].
      constructor; [exact IH|]. apply Forall_fmap. exact F.
    - apply desc_ordered.
    - rewrite P. unfold children. symmetry. apply sort_by_perm.
  Qed.

  Lemma fgi_app l l' : fgi <$> (l ++ l') = (fgi <$> l) ++ (fgi <$> l').
  Proof. apply fmap_app. Qed.

  Lemma ya_loop_rga fuel l tp res :
    NoDup (y_id <$> l) ->
    fgi <$> ya_loop fuel l tp res = rg_loop fuel (fgi <$> l) (fgi <$> rev tp) (fgi <$> res).
  Proof.
    intros ND. revert tp res. induction fuel as [|fuel IH]; intros tp res; [reflexivity|]. simpl.
    destruct tp as [|x tp _] using rev_ind; [reflexivity|].
    rewrite last_snoc, removelast_last, rev_app_distr. simpl. rewrite IH.
    rewrite rev_app_distr, fgi_app, followers_children by exact ND. now rewrite fgi_app.
  Qed.

  Lemma ya_sorted_rga l : NoDup (y_id <$> l) -> fgi <$> ya_sorted l = rg_sorted (fgi <$> l).
  Proof.
    intros ND. unfold ya_sorted, rg_sorted. rewrite ya_loop_rga, followers_children by exact ND.
    now rewrite fmap_length.
  Qed.
  Lemma ya_visible_rga s : NoDup (y_id <$> ya_items s) -> fgi <$> ya_visible s = rg_visible (fg s).
  Proof.
    intros ND. unfold ya_visible, rg_visible. simpl. rewrite <- ya_sorted_rga by exact ND.
    now apply (fgi_filter (fun n => y_del n = false) (fun n => n_del n = false)).
  Qed.
  Lemma ya_to_vec_rga s : NoDup (y_id <$> ya_items s) -> ya_to_vec s = rg_to_vec (fg s).
  Proof.
    intros ND. unfold ya_to_vec, rg_to_vec. rewrite <- ya_visible_rga by exact ND.
    rewrite <- list_fmap_compose. apply list_fmap_ext. reflexivity.
  Qed.
  Lemma ya_last_rga s : NoDup (y_id <$> ya_items s) -> ya_last_visible_id s = rg_last_visible_id (fg s).
  Proof.
    intros ND. unfold ya_last_visible_id, rg_last_visible_id. rewrite <- ya_visible_rga by exact ND.
    rewrite fmap_last. now destruct (last (ya_visible s)).
  Qed.
  Lemma ya_at_rga s i : NoDup (y_id <$> ya_items s) -> ya_visible_id_at s i = rg_visible_id_at (fg s) i.
  Proof.
    intros ND. unfold ya_visible_id_at, rg_visible_id_at. rewrite <- ya_visible_rga by exact ND.
    rewrite list_lookup_fmap. now destruct (ya_visible s !! i).
  Qed.

  Lemma ya_mark_rga id l : fgi <$> ya_mark_deleted id l = mark_deleted id (fgi <$> l).
  Proof.
    induction l as [|n l IH]; [reflexivity|]. rewrite fmap_cons. simpl. case_decide; rewrite fmap_cons; [reflexivity|].
    now rewrite IH.
  Qed.
  Lemma ya_step_rga l m : fgi <$> ya_merge_step l m = rg_merge_step (fgi <$> l) (fgi m).
  Proof.
    unfold ya_merge_step, rg_merge_step.
    assert (E : existsb (fun n => bool_decide (y_id n = y_id m)) l =
                existsb (fun n => bool_decide (n_id n = n_id (fgi m))) (fgi <$> l)).
    { induction l as [|n l IH]; [reflexivity|]. rewrite fmap_cons. simpl. now rewrite IH. }
    rewrite <- E. destruct (existsb _ l); [|now rewrite fgi_app]. simpl. destruct (y_del m); [apply ya_mark_rga|reflexivity].
  Qed.
  Lemma ya_fold_rga l' l : fgi <$> fold_left ya_merge_step l' l = fold_left rg_merge_step (fgi <$> l') (fgi <$> l).
  Proof. revert l. induction l' as [|m l' IH]; intros l; simpl; [reflexivity|]. rewrite IH. now rewrite ya_step_rga. Qed.
  Lemma ya_merge_rga s t : fg (ya_merge s t) = rg_merge (fg s) (fg t).
  Proof. unfold fg, rg_merge, ya_merge; simpl. f_equal. apply ya_fold_rga. Qed.
  Lemma ya_apply_delta_rga s d : fg (ya_apply_delta s d) = rg_apply_delta (fg s) (fgi <$> d.1, d.2).
  Proof. unfold fg, rg_apply_delta, ya_apply_delta; simpl. f_equal. apply ya_fold_rga. Qed.

  Definition ya_apply (o : seqop T) (s : yata T) : yata T :=
    match o with
    | QAppend v => ya_append v s
    | QBefore i v => ya_insert_before i v s
    | QAfter i v => ya_insert_after i v s
    | QRemove i => ya_remove i s
    end.

  Lemma ya_push_rga v lft rgt s : fg (ya_push v lft rgt s) = rg_push v lft (fg s).
  Proof. unfold fg, ya_push, rg_push; simpl. f_equal. now rewrite fgi_app. Qed.
  Lemma ya_apply_rga o s : NoDup (y_id <$> ya_items s) -> fg (ya_apply o s) = rg_apply o (fg s).
  Proof.
    intros ND. destruct o as [v|[|i] v|i v|i]; simpl.
    - unfold ya_append, rg_append. now rewrite ya_push_rga, ya_last_rga.
    - apply ya_push_rga.
    - unfold ya_insert_after, rg_insert_after. now rewrite ya_push_rga, ya_at_rga.
    - unfold ya_insert_after, rg_insert_after. now rewrite ya_push_rga, ya_at_rga.
    - unfold ya_remove, rg_remove. rewrite ya_at_rga by exact ND. destruct (rg_visible_id_at (fg s) i); [|reflexivity].
      unfold fg; simpl. f_equal. apply ya_mark_rga.
  Qed.

  Definition yata_state (evs : list (event (seqop T))) (r : N) : yata T := state_at ya_new ya_apply ya_merge evs r.

  Lemma yata_run evs r : fg (yata_state evs r) = seq_state evs r.
  Proof.
    revert r. enough (G : (forall r, fg (yata_state evs r) = seq_state evs r) /\
      fg <$> c_sent (cexec ya_new ya_apply ya_merge evs) = c_sent (cexec rg_new rg_apply rg_merge evs)) by apply G.
    induction evs as [|e evs [IH IHs]] using rev_ind; [split; reflexivity|].
    assert (ND : forall r, NoDup (y_id <$> ya_items (yata_state evs r))).
    { intros r. rewrite <- fgi_ids. change (NoDup (n_id <$> rg_nodes (fg (yata_state evs r)))). rewrite IH. apply (seq_ok_run evs r). }
    unfold yata_state, seq_state, state_at, cexec in *. rewrite !fold_left_app. simpl.
    set (cy := fold_left (cstep ya_apply ya_merge) evs (config0 ya_new)) in *.
    set (cr := fold_left (cstep rg_apply rg_merge) evs (config0 rg_new)) in *.
    destruct e as [q o|q|q k]; simpl.
    - split; [|exact IHs]. intros r. unfold upd. case_decide; [|apply IH]. rewrite ya_apply_rga by apply ND. now rewrite IH.
    - split; [exact IH|]. rewrite fmap_app. now rewrite IHs, <- IH.
    - assert (E : c_sent cr !! k = fg <$> c_sent cy !! k) by (rewrite <- IHs; apply list_lookup_fmap).
      rewrite E. destruct (c_sent cy !! k) as [s|]; simpl; [|split; assumption].
      split; [|exact IHs]. intros r. unfold upd. case_decide; [|apply IH]. rewrite ya_merge_rga. now rewrite IH.
  Qed.

  Definition ya_eff (o : seqop T) (s : yata T) : seqeff T :=
    let new v p := FIns ((ya_clock s + 1)%N, ya_id s) v p in
    match o with
    | QAppend v => new v (ya_last_visible_id s)
    | QBefore 0 v => new v None
    | QBefore (S i) v | QAfter i v => new v (ya_visible_id_at s i)
    | QRemove i => match ya_visible_id_at s i with Some id => FDel id | None => FNone end
    end.
  Definition yata_effects (evs : list (event (seqop T))) : history (seqeff T) :=
    effects_of ya_new ya_apply ya_merge ya_eff evs.

  Lemma yata_nodup evs r : NoDup (y_id <$> ya_items (yata_state evs r)).
  Proof.
    rewrite <- fgi_ids. change (NoDup (n_id <$> rg_nodes (fg (yata_state evs r)))). rewrite yata_run. apply (seq_ok_run evs r).
  Qed.
  Lemma yata_vec evs r : ya_to_vec (yata_state evs r) = rg_to_vec (seq_state evs r).
  Proof. rewrite ya_to_vec_rga by apply yata_nodup. now rewrite yata_run. Qed.

  Lemma yata_effects_eq evs : yata_effects evs = seq_effects evs.
  Proof.
    unfold yata_effects, seq_effects.
    induction evs as [|e evs IH] using rev_ind; [reflexivity|]. rewrite !effects_of_snoc, IH.
    destruct e as [r o|r|r k]; unfold estep; cbn [fst snd]; [|reflexivity|reflexivity].
    change (c_st (cexec ya_new ya_apply ya_merge evs) r) with (yata_state evs r).
    change (c_st (cexec rg_new rg_apply rg_merge evs) r) with (seq_state evs r).
    rewrite <- yata_run. do 3 f_equal. pose proof (yata_nodup evs r) as ND.
    destruct o as [v|[|i] v|i v|i]; simpl; rewrite ?ya_last_rga, ?ya_at_rga by exact ND; reflexivity.
  Qed.
End Yata.
