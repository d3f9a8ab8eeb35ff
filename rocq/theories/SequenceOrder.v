(** Replicated sequences: one order for a whole run, and deltas. *)
From stdpp Require Import gmap.
From Verif Require Import CrdtModel StableSort SequenceModel SequenceProofs SequenceRuns SequenceMerge SequenceYata
  Replication ReplicationEffects CrdtClockProofs.

Section Order.
  Context {T : Type}.
  Notation hist := (history (seqeff T)).

  (** Extending a history. *)
  Lemma inserted_prefix (h h' : hist) (K : gset nat) id v p :
    closed h K -> inserted (h ++ h') K id v p <-> inserted h K id v p.
  Proof.
    intros C. split; intros (i & y & Hi & Hy & E); exists i, y; split; auto; split; auto.
    - rewrite lookup_app_l in Hy by (apply (proj1 C); exact Hi). exact Hy.
    - now apply lookup_app_l_Some.
  Qed.
  Lemma deleted_prefix (h h' : hist) (K : gset nat) id :
    closed h K -> deleted (h ++ h') K id <-> deleted h K id.
  Proof.
    intros C. split; intros (i & y & Hi & Hy & E); exists i, y; split; auto; split; auto.
    - rewrite lookup_app_l in Hy by (apply (proj1 C); exact Hi). exact Hy.
    - now apply lookup_app_l_Some.
  Qed.
  Lemma seq_closed_prefix (h h' : hist) (K : gset nat) : closed h K -> closed (h ++ h') K.
  Proof.
    intros [C1 C2]. split.
    - intros i Hi. rewrite app_length. pose proof (C1 i Hi). lia.
    - intros i x Hi Hx. rewrite lookup_app_l in Hx by auto. eauto.
  Qed.
  Lemma seq_inv_prefix (h h' : hist) K s :
    closed h K -> seq_hist (h ++ h') -> seq_inv h K s -> seq_inv (h ++ h') K s.
  Proof.
    intros C SH I. constructor; [exact SH|apply I| |apply I].
    intros n. rewrite inserted_prefix, deleted_prefix by exact C. apply I.
  Qed.

  Lemma eff_from_prefix (evs : list (event (seqop T))) g c (h : hist) :
    exists h', eff_from rg_apply rg_merge rg_eff evs g c h = h ++ h'.
  Proof.
    revert g c h. induction evs as [|e evs IH]; intros g c h; simpl; [exists []; now rewrite app_nil_r|].
    destruct (IH (gstep g e) (cstep rg_apply rg_merge c e) (estep rg_eff (h, c) (g, e))) as [h' ->].
    unfold estep; simpl. destruct e; [rewrite <- app_assoc|..]; eauto.
  Qed.
  Lemma eff_from_app (evs evs' : list (event (seqop T))) g c (h : hist) :
    eff_from rg_apply rg_merge rg_eff (evs ++ evs') g c h =
    eff_from rg_apply rg_merge rg_eff evs' (fold_left gstep evs g) (fold_left (cstep rg_apply rg_merge) evs c)
      (eff_from rg_apply rg_merge rg_eff evs g c h).
  Proof. revert g c h. induction evs as [|e evs IH]; intros g c h; simpl; [reflexivity|]. apply IH. Qed.
  Lemma effects_prefix (evs evs' : list (event (seqop T))) : exists h', seq_effects (evs ++ evs') = seq_effects evs ++ h'.
  Proof. unfold seq_effects, effects_of. rewrite eff_from_app. apply eff_from_prefix. Qed.

  (** A state that knows a whole history. *)
  Definition all_ops (h : hist) : gset nat := set_seq 0 (length h).
  Lemma elem_of_all (h : hist) i : i ∈ all_ops h <-> i < length h.
  Proof. unfold all_ops. rewrite elem_of_set_seq. lia. Qed.
  Lemma all_closed (h : hist) : wf h -> closed h (all_ops h).
  Proof.
    intros W. split; [intros i; apply elem_of_all|]. intros i x _ Hx j Hj. apply elem_of_all.
    destruct (W i x Hx) as ([C _] & _ & _). auto.
  Qed.

  Definition is_del (id : rid) (x : opinfo (seqeff T)) : bool :=
    match op_op x with FDel d => bool_decide (d = id) | _ => false end.
  Definition all_node (h : hist) (x : opinfo (seqeff T)) : option (node T) :=
    match op_op x with
    | FIns id v p => Some {| n_id := id; n_val := v; n_del := existsb (is_del id) h; n_parent := p |}
    | _ => None
    end.
  Definition max_ts (l : list (node T)) : N := foldr (fun n m => N.max (n_id n).1 m) 0%N l.
  Definition all_state (h : hist) : rga T :=
    {| rg_nodes := omap (all_node h) h; rg_ts := max_ts (omap (all_node h) h); rg_id := 0 |}.

  Lemma max_ts_ge (l : list (node T)) n : n ∈ l -> ((n_id n).1 <= max_ts l)%N.
  Proof. induction 1 as [n l|n m l H IH]; simpl; lia. Qed.

  Lemma omap_ids (g : rid -> bool) (h : hist) :
    (forall i j x y id v p v' p', h !! i = Some x -> h !! j = Some y ->
      op_op x = FIns id v p -> op_op y = FIns id v' p' -> i = j) ->
    NoDup (n_id <$> omap (fun x => match op_op x with
      | FIns id v p => Some {| n_id := id; n_val := v; n_del := g id; n_parent := p |}
      | _ => None end) h).
  Proof.
    induction h as [|x h IH]; intros U; [constructor|]. simpl.
    assert (ND := IH (fun i j y z id v p v' p' Hy Hz Ey Ez =>
      eq_add_S _ _ (U (S i) (S j) y z id v p v' p' Hy Hz Ey Ez))).
    destruct (op_op x) as [id v p|id|] eqn:Ex; [|exact ND|exact ND].
    rewrite fmap_cons. constructor; [|exact ND]. simpl. intros Hin.
    apply elem_of_list_fmap in Hin as (n & En & Hn). apply elem_of_list_omap in Hn as (y & Hy & Ey).
    apply elem_of_list_lookup in Hy as [j Hj]. destruct (op_op y) as [id' v' p'|id'|] eqn:Eo; try discriminate.
    injection Ey as <-. simpl in En. subst id'. pose proof (U 0 (S j) x y id v p v' p' eq_refl Hj Ex Eo). discriminate.
  Qed.

  Lemma deleted_all (h : hist) id : deleted h (all_ops h) id <-> existsb (is_del id) h = true.
  Proof.
    rewrite existsb_exists. split.
    - intros (j & y & _ & Hy & E). exists y. split; [apply elem_of_list_In; eapply elem_of_list_lookup_2; eauto|].
      unfold is_del. rewrite E. now apply bool_decide_eq_true.
    - intros (y & Hy & E). apply elem_of_list_In, elem_of_list_lookup in Hy as [j Hj]. exists j, y.
      split; [apply elem_of_all; eapply lookup_lt_Some; eauto|]. split; [exact Hj|].
      unfold is_del in E. destruct (op_op y); try discriminate. apply bool_decide_eq_true in E. now subst.
  Qed.

  Lemma all_inv (h : hist) : seq_hist h -> seq_inv h (all_ops h) (all_state h).
  Proof.
    intros SH. constructor; [exact SH| | |intros n; apply max_ts_ge].
    - apply (omap_ids (fun id => existsb (is_del id) h)). exact (sh_unique h SH).
    - intros n. simpl. rewrite elem_of_list_omap, deleted_all. unfold all_node. split.
      + intros (x & Hx & E). destruct (op_op x) as [id v p|id|] eqn:Eo; try discriminate. injection E as <-. simpl.
        split; [|tauto]. apply elem_of_list_lookup in Hx as [i Hi]. exists i, x.
        split; [apply elem_of_all; eapply lookup_lt_Some; eauto|auto].
      + intros [(i & x & _ & Hx & E) D]. exists x. split; [eapply elem_of_list_lookup_2; eauto|]. rewrite E.
        destruct n as [nid nv nd np]; simpl in *. do 2 f_equal. apply Bool.eq_true_iff_eq. now rewrite D.
  Qed.

  (** The operation that inserted an element. *)
  Definition is_ins (id : rid) (x : opinfo (seqeff T)) : Prop :=
    match op_op x with FIns d _ _ => d = id | _ => False end.
  Global Instance is_ins_dec id x : Decision (is_ins id x).
  Proof. unfold is_ins. destruct (op_op x); apply _. Defined.
  Definition ins_op (h : hist) (id : rid) : nat := match list_find (is_ins id) h with Some (i, _) => i | None => 0 end.

  Lemma ins_op_spec (h : hist) (K : gset nat) id v p :
    seq_hist h -> inserted h K id v p ->
    ins_op h id ∈ K /\ exists x, h !! ins_op h id = Some x /\ op_op x = FIns id v p.
  Proof.
    intros SH (i & x & Hi & Hx & E). unfold ins_op.
    destruct (list_find (is_ins id) h) as [[j y]|] eqn:F.
    - apply list_find_Some in F as (Hy & Py & _). unfold is_ins in Py. destruct (op_op y) as [d v' p'| |] eqn:Ey; try contradiction.
      subst d. assert (i = j) by (eapply (sh_unique h SH); eauto). subst j. split; [exact Hi|].
      rewrite Hx in Hy. injection Hy as <-. eauto.
    - apply list_find_None in F. rewrite Forall_forall in F. exfalso. apply (F x); [eapply elem_of_list_lookup_2; eauto|].
      unfold is_ins. now rewrite E.
  Qed.

  (** The insertions a replica with knowledge [K] should show. *)
  Definition live (h : hist) (K : gset nat) (i : nat) : Prop :=
    i ∈ K /\ exists x id v p, h !! i = Some x /\ op_op x = FIns id v p /\
      forall j y, j ∈ K -> h !! j = Some y -> op_op y <> FDel id.
  Definition inserts_value (h : hist) (i : nat) (v : T) : Prop :=
    exists x id p, h !! i = Some x /\ op_op x = FIns id v p.

  Definition global_order (h : hist) : list nat := ins_op h <$> (n_id <$> rg_sorted (rg_nodes (all_state h))).
  Definition shown (h : hist) (s : rga T) : list nat := ins_op h <$> (n_id <$> rg_visible s).

  Lemma ins_op_inj (h : hist) id id' v p v' p' K :
    seq_hist h -> inserted h K id v p -> inserted h K id' v' p' -> ins_op h id = ins_op h id' -> id = id'.
  Proof.
    intros SH I1 I2 E. destruct (ins_op_spec h K id v p SH I1) as (_ & x & Hx & Ex).
    destruct (ins_op_spec h K id' v' p' SH I2) as (_ & y & Hy & Ey). rewrite E in Hx. rewrite Hx in Hy.
    injection Hy as <-. rewrite Ex in Ey. now injection Ey.
  Qed.

  Lemma sublist_map {A B} (f : A -> B) (l k : list A) : sublist l k -> sublist (f <$> l) (f <$> k).
  Proof. induction 1; simpl; now constructor. Qed.
  Lemma sublist_filtered {A} (P : A -> Prop) `{forall x, Decision (P x)} (l : list A) : sublist (filter P l) l.
  Proof. induction l as [|x l IH]; [constructor|]. rewrite filter_cons. case_decide; now constructor. Qed.
  Lemma NoDup_fmap_on {A B} (f : A -> B) (l : list A) :
    (forall a b, a ∈ l -> b ∈ l -> f a = f b -> a = b) -> NoDup l -> NoDup (f <$> l).
  Proof.
    induction l as [|a l IH]; intros Inj ND; [constructor|]. apply NoDup_cons in ND as [Na ND]. rewrite fmap_cons.
    constructor; [|apply IH; [intros; apply Inj; auto; now right|exact ND]].
    intros H. apply elem_of_list_fmap in H as (b & E & Hb). apply Na. rewrite (Inj a b); auto; [left|now right].
  Qed.

  Lemma global_nodup (h : hist) : wf h -> seq_hist h -> NoDup (global_order h).
  Proof.
    intros W SH. pose proof (all_inv h SH) as I. pose proof (seq_inv_tree _ _ _ (all_closed h W) I) as Tr.
    destruct (sorted_walk _ Tr) as [_ P].
    assert (ND : NoDup (n_id <$> rg_sorted (rg_nodes (all_state h)))) by (rewrite P; apply Tr).
    apply NoDup_fmap_on; [|exact ND].
    assert (Ins : forall id, id ∈ n_id <$> rg_sorted (rg_nodes (all_state h)) -> exists v p, inserted h (all_ops h) id v p).
    { intros id Hid. apply elem_of_list_fmap in Hid as (n & -> & Hn). rewrite P in Hn.
      apply (si_nodes _ _ _ I) in Hn as [? _]. eauto. }
    intros a b Ha Hb E. destruct (Ins a Ha) as (v & p & Ia), (Ins b Hb) as (v' & p' & Ib).
    exact (ins_op_inj h a b v p v' p' _ SH Ia Ib E).
  Qed.

  Lemma shown_spec (h : hist) K s :
    wf h -> closed h K -> seq_inv h K s ->
    sublist (shown h s) (global_order h) /\
    (forall i, i ∈ shown h s <-> live h K i) /\
    Forall2 (inserts_value h) (shown h s) (rg_to_vec s).
  Proof.
    intros W C I. pose proof (si_hist _ _ _ I) as SH. pose proof (seq_inv_ok h K s C I) as Ok.
    split; [|split].
    - unfold shown, global_order. apply sublist_map.
      assert (Sub : K ⊆ all_ops h) by (intros i Hi; apply elem_of_all, (proj1 C i Hi)).
      pose proof (order_sub h K (all_ops h) s (all_state h) C (all_closed h W) I (all_inv h SH) Sub) as E.
      assert (S1 : sublist (n_id <$> rg_visible s) (n_id <$> rg_sorted (rg_nodes s))).
      { apply sublist_map. unfold rg_visible. apply sublist_filtered. }
      etransitivity; [exact S1|]. rewrite E. apply sublist_filtered.
    - intros i. unfold shown. rewrite elem_of_list_fmap. split.
      + intros (id & -> & Hid). apply elem_of_list_fmap in Hid as (n & -> & Hn).
        apply (visible_each_once s n Ok) in Hn as [Hn Dn]. apply (si_nodes _ _ _ I) in Hn as [Ins D].
        destruct (ins_op_spec h K _ _ _ SH Ins) as (HK & x & Hx & Ex). split; [exact HK|].
        exists x, (n_id n), (n_val n), (n_parent n). split; [exact Hx|]. split; [exact Ex|].
        intros j y Hj Hy Ey. assert (n_del n = true) by (apply D; exists j, y; auto). congruence.
      + intros (Hi & x & id & v & p & Hx & Ex & ND). exists id.
        assert (Ins : inserted h K id v p) by (exists i, x; auto).
        split.
        * destruct (ins_op_spec h K _ _ _ SH Ins) as (_ & y & Hy & Ey). exact (sh_unique h SH _ _ _ _ _ _ _ _ _ Hx Hy Ex Ey).
        * apply elem_of_list_fmap. exists {| n_id := id; n_val := v; n_del := false; n_parent := p |}. split; [reflexivity|].
          apply (visible_each_once s _ Ok). split; [|reflexivity]. apply (si_nodes _ _ _ I). simpl. split; [exact Ins|].
          split; [discriminate|]. intros (j & y & Hj & Hy & Ey). exfalso. exact (ND j y Hj Hy Ey).
    - unfold shown, rg_to_vec. rewrite <- list_fmap_compose. apply Forall2_fmap_l, Forall2_fmap_r.
      assert (All : forall n, n ∈ rg_visible s -> inserts_value h (ins_op h (n_id n)) (n_val n)).
      { intros n Hn. apply (visible_each_once s n Ok) in Hn as [Hn _]. apply (si_nodes _ _ _ I) in Hn as [Ins _].
        destruct (ins_op_spec h K _ _ _ SH Ins) as (_ & x & Hx & Ex). exists x, (n_id n), (n_parent n). auto. }
      revert All. generalize (rg_visible s). intros l All. induction l as [|n l IH]; constructor.
      + apply All. left.
      + apply IH. intros m Hm. apply All. now right.
  Qed.

  (** ** Versions and deltas *)

  Lemma version_step_get (c : vclock) (n : node T) q :
    vc_get (rg_version_step c n) q = if decide ((n_id n).2 = q) then N.max (vc_get c q) (n_id n).1 else vc_get c q.
  Proof.
    unfold rg_version_step. destruct (N.ltb_spec (vc_get c (n_id n).2) (n_id n).1) as [H|H].
    - unfold vc_get in *. case_decide as E.
      + subst q. rewrite lookup_insert. simpl. lia.
      + now rewrite lookup_insert_ne.
    - case_decide as E; [|reflexivity]. subst q. lia.
  Qed.
  Lemma version_fold (l : list (node T)) (c : vclock) q t :
    (t <= vc_get (fold_left rg_version_step l c) q)%N <->
    (t <= vc_get c q)%N \/ exists n, n ∈ l /\ (n_id n).2 = q /\ (t <= (n_id n).1)%N.
  Proof.
    revert c. induction l as [|m l IH]; intros c; simpl.
    - split; [auto|]. intros [H|(n & Hn & _)]; [exact H|inversion Hn].
    - rewrite IH, version_step_get. split.
      + intros [H|(n & Hn & H)].
        * case_decide as E; [|auto]. apply N.max_le in H as [H|H]; [auto|]. right. exists m. split; [left|auto].
        * right. exists n. split; [now right|exact H].
      + intros [H|(n & Hn & E & H)].
        * left. case_decide; lia.
        * apply elem_of_cons in Hn as [->|Hn]; [|eauto]. left. rewrite decide_True by exact E. lia.
  Qed.
  Lemma version_get (s : rga T) q t : (0 < t)%N ->
    (t <= vc_get (rg_version s) q)%N <-> exists n, n ∈ rg_nodes s /\ (n_id n).2 = q /\ (t <= (n_id n).1)%N.
  Proof.
    intros Ht. unfold rg_version. rewrite version_fold.
    assert (E : vc_get ∅ q = 0%N) by reflexivity. rewrite E. split; [intros [?|?]; [lia|assumption]|auto].
  Qed.

  (** If a state has an element of some origin, it has all earlier ones of that origin. *)
  Lemma own_before (h : hist) K s id v p m :
    wf h -> closed h K -> seq_inv h K s ->
    (exists L, inserted h L id v p) -> m ∈ rg_nodes s -> (n_id m).2 = id.2 -> (id.1 <= (n_id m).1)%N ->
    inserted h K id v p.
  Proof.
    intros W C I (L & j & y & _ & Hy & Ey) Hm Eo Hle. pose proof (si_hist _ _ _ I) as SH.
    apply (si_nodes _ _ _ I) in Hm as [(i & x & Hi & Hx & Ex) _].
    pose proof (sh_origin h SH i x _ _ _ Hx Ex) as Ox. pose proof (sh_origin h SH j y _ _ _ Hy Ey) as Oy.
    destruct (decide (i = j)) as [->|Hne]; [exists j, y; auto|].
    destruct (decide (i < j)) as [Hlt|Hge].
    - exfalso. destruct (W j y Hy) as (_ & _ & Own). assert (Hp : i ∈ op_past y) by (apply (Own i x Hlt Hx); congruence).
      assert (Ins : inserted h (op_past y) (n_id m) (n_val m) (n_parent m)) by (exists i, x; auto).
      pose proof (sh_newer h SH j y _ _ _ _ _ _ Hy Ey Ins). lia.
    - destruct (W i x Hx) as (_ & _ & Own). assert (Hp : j ∈ op_past x) by (apply (Own j y); [lia|exact Hy|congruence]).
      exists j, y. split; [exact (proj2 C i x Hi Hx j Hp)|auto].
  Qed.

  Lemma nodes_of_look (s : rga T) n : NoDup (n_id <$> rg_nodes s) -> n ∈ rg_nodes s -> look (rg_nodes s) (n_id n) = Some n.
  Proof. intros ND Hn. now apply look_elem. Qed.

  Lemma look_filter (P : node T -> Prop) `{forall x, Decision (P x)} (l : list (node T)) id n :
    NoDup (n_id <$> l) -> look (filter P l) id = Some n <-> look l id = Some n /\ P n.
  Proof.
    intros ND. pose proof (NoDup_ids_filter P l ND) as ND'. split.
    - intros E. apply look_id in E as [<- Hn]. apply elem_of_list_filter in Hn as [Pn Hn]. split; [now apply look_elem|exact Pn].
    - intros [E Pn]. apply look_id in E as [<- Hn]. apply look_elem; [exact ND'|]. apply elem_of_list_filter. auto.
  Qed.

  (** [t] applies what [s] sends it for [t]'s version. *)
  Definition recv_delta (t s : rga T) : rga T :=
    match rg_delta_since s (rg_version t) with Some d => rg_apply_delta t d | None => t end.

  Section Delta.
    Variables (h : hist) (K L : gset nat) (t s : rga T).
    Hypotheses (W : wf h) (CK : closed h K) (CL : closed h L) (IK : seq_inv h K t) (IL : seq_inv h L s).

    Lemma covered n : n ∈ rg_nodes s -> ((n_id n).1 <= vc_get (rg_version t) (n_id n).2)%N ->
      inserted h K (n_id n) (n_val n) (n_parent n).
    Proof.
      intros Hn Hle. apply (si_nodes _ _ _ IL) in Hn as [(i & x & Hi & Hx & Ex) _].
      apply version_get in Hle as (m & Hm & E & Hle); [|exact (sh_pos h (si_hist _ _ _ IL) i x _ _ _ Hx Ex)].
      eapply own_before; eauto. exists L, i, x. auto.
    Qed.

    Lemma not_sent n : n ∈ rg_nodes s -> rg_delta_since s (rg_version t) = None ->
      ((n_id n).1 <= vc_get (rg_version t) (n_id n).2)%N.
    Proof.
      intros Hn E. unfold rg_delta_since in E. destruct (vc_dominates (rg_version t) (rg_version s)) eqn:D; [|discriminate].
      rewrite vc_dominates_spec in D. etransitivity; [|apply D].
      destruct (N.eq_dec (n_id n).1 0) as [Z|Z]; [lia|]. apply version_get; [lia|]. exists n. auto.
    Qed.

    (** What the receiver ends up with, element by element. *)
    Lemma recv_look id :
      look (rg_nodes (recv_delta t s)) id =
        match look (rg_nodes t) id, look (rg_nodes s) id with
        | Some a, Some b =>
          Some (if bool_decide (rg_delta_since s (rg_version t) <> None /\ (vc_get (rg_version t) id.2 < id.1)%N) then join_node a b else a)
        | Some a, None => Some a
        | None, o => o
        end.
    Proof.
      pose proof (si_nodup _ _ _ IK) as NK. pose proof (si_nodup _ _ _ IL) as NL.
      unfold recv_delta. destruct (rg_delta_since s (rg_version t)) as [d|] eqn:Ed.
      - unfold rg_apply_delta; simpl.
        assert (D1 : d.1 = filter (fun n => (vc_get (rg_version t) (n_id n).2 < (n_id n).1)%N) (rg_nodes s)).
        { unfold rg_delta_since in Ed. destruct (vc_dominates _ _); [discriminate|]. now injection Ed as <-. }
        rewrite fold_look; [|exact NK|rewrite D1; now apply NoDup_ids_filter]. rewrite D1.
        destruct (look (filter _ (rg_nodes s)) id) as [b|] eqn:Eb.
        + apply look_filter in Eb as [Eb Hlt]; [|exact NL]. rewrite Eb.
          apply look_id in Eb as [Eb _]. rewrite Eb in Hlt.
          destruct (look (rg_nodes t) id); [|reflexivity].
          rewrite bool_decide_true by (split; [discriminate|exact Hlt]). reflexivity.
        + destruct (look (rg_nodes s) id) as [b|] eqn:Es; [|now destruct (look (rg_nodes t) id)].
          assert (Hge : ~ (vc_get (rg_version t) id.2 < id.1)%N).
          { intros Hlt. assert (X : look (filter (fun n => (vc_get (rg_version t) (n_id n).2 < (n_id n).1)%N) (rg_nodes s)) id = Some b).
            { apply look_filter; [exact NL|]. split; [exact Es|]. apply look_id in Es as [-> _]. exact Hlt. }
            congruence. }
          destruct (look (rg_nodes t) id) as [a|] eqn:Et; [now rewrite bool_decide_false by tauto|].
          exfalso. apply look_id in Es as [<- Hb].
          apply (proj1 (seq_inv_look_None h K t _ IK) Et) with (v := n_val b) (p := n_parent b). apply covered; [exact Hb|lia].
      - destruct (look (rg_nodes t) id) as [a|] eqn:Et, (look (rg_nodes s) id) as [b|] eqn:Es; try reflexivity.
        exfalso. apply look_id in Es as [<- Hb].
        apply (proj1 (seq_inv_look_None h K t _ IK) Et) with (v := n_val b) (p := n_parent b). apply covered; [exact Hb|].
        now apply not_sent.
    Qed.

    Lemma recv_nodup : NoDup (n_id <$> rg_nodes (recv_delta t s)).
    Proof.
      unfold recv_delta. destruct (rg_delta_since s (rg_version t)); [|apply IK]. simpl. apply fold_nodup, IK.
    Qed.

    (** The delta brings every element the full state would bring. *)
    Lemma recv_ids id : id ∈ n_id <$> rg_nodes (recv_delta t s) <-> id ∈ n_id <$> rg_nodes (rg_merge t s).
    Proof.
      assert (X : forall l : list (node T), id ∈ n_id <$> l <-> look l id <> None).
      { intros l. rewrite look_None. destruct (decide (id ∈ n_id <$> l)); tauto. }
      rewrite !X, recv_look. simpl. rewrite fold_look by (apply IK || apply IL).
      destruct (look (rg_nodes t) id), (look (rg_nodes s) id); split; congruence.
    Qed.

    (** When the sender knows no removal of something the receiver still shows,
        the result is that of a full merge. *)
    Lemma recv_full :
      (forall id, deleted h L id -> deleted h K id \/ forall v p, ~ inserted h K id v p) ->
      rg_nodes (recv_delta t s) ≡ₚ rg_nodes (rg_merge t s).
    Proof.
      intros ND. pose proof (seq_inv_merge h K L t s W CK CL IK IL) as IM.
      apply NoDup_Permutation; [apply NoDup_fmap_1 with n_id, recv_nodup|apply NoDup_fmap_1 with n_id, IM|].
      intros n. rewrite !look_elem by (apply recv_nodup || apply IM). rewrite recv_look. simpl.
      rewrite fold_look by (apply IK || apply IL).
      destruct (look (rg_nodes t) (n_id n)) as [a|] eqn:Et, (look (rg_nodes s) (n_id n)) as [b|] eqn:Es; try reflexivity.
      enough (J : join_node a b = a) by (rewrite J; now destruct (bool_decide _)).
      unfold join_node. destruct (n_del b) eqn:Db; [|reflexivity].
      apply (seq_inv_look h L s _ b IL) in Es as (_ & _ & DB). apply (seq_inv_look h K t _ a IK) in Et as (_ & InsA & DA).
      destruct (ND _ (proj1 DB Db)) as [D|D]; [|now apply D in InsA].
      apply DA in D. destruct a; unfold set_deleted; simpl in *. now rewrite D.
    Qed.
    Lemma recv_full_vec :
      (forall id, deleted h L id -> deleted h K id \/ forall v p, ~ inserted h K id v p) ->
      rg_to_vec (recv_delta t s) = rg_to_vec (rg_merge t s).
    Proof.
      intros ND. unfold rg_to_vec, rg_visible. do 2 f_equal. symmetry. apply sorted_perm.
      - eapply seq_inv_tree; [|exact (seq_inv_merge h K L t s W CK CL IK IL)]. destruct CK as [A1 A2], CL as [B1 B2].
        split; [set_solver|]. intros i x Hi Hx. apply elem_of_union in Hi as [Hi|Hi]; [pose proof (A2 i x Hi Hx)|pose proof (B2 i x Hi Hx)]; set_solver.
      - symmetry. now apply recv_full.
    Qed.
  End Delta.
End Order.
