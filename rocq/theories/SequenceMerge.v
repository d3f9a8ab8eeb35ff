(** Replicated sequences: merging and runs. *)
From stdpp Require Import gmap.
From Verif Require Import CrdtModel StableSort SequenceModel SequenceProofs SequenceRuns Replication
  ReplicationEffects CrdtClockProofs.

(** Operations of a caller. *)
Inductive seqop (T : Type) :=
| QAppend (v : T) | QBefore (i : nat) (v : T) | QAfter (i : nat) (v : T) | QRemove (i : nat).
Arguments QAppend {T} v.
Arguments QBefore {T} i v.
Arguments QAfter {T} i v.
Arguments QRemove {T} i.

(** What an operation turns out to do: create an element with a fresh identity
    behind an existing one (or at the head), or delete the element with an identity. *)
Inductive seqeff (T : Type) :=
| FIns (id : rid) (v : T) (parent : option rid) | FDel (id : rid) | FNone.
Arguments FIns {T} id v parent.
Arguments FDel {T} id.
Arguments FNone {T}.

Section Runs.
  Context {T : Type}.
  Implicit Types l : list (node T).
  Notation hist := (history (seqeff T)).

  Definition rg_apply (o : seqop T) (s : rga T) : rga T :=
    match o with
    | QAppend v => rg_append v s
    | QBefore i v => rg_insert_before i v s
    | QAfter i v => rg_insert_after i v s
    | QRemove i => rg_remove i s
    end.
  Definition rg_eff (o : seqop T) (s : rga T) : seqeff T :=
    let new v p := FIns ((rg_ts s + 1)%N, rg_id s) v p in
    match o with
    | QAppend v => new v (rg_last_visible_id s)
    | QBefore 0 v => new v None
    | QBefore (S i) v | QAfter i v => new v (rg_visible_id_at s i)
    | QRemove i => match rg_visible_id_at s i with Some id => FDel id | None => FNone end
    end.

  (** ** Node lists as maps from ids *)

  Definition look l (id : rid) : option (node T) := list_find (fun n => n_id n = id) l ≫= fun p => Some p.2.

  Lemma look_cons n l id : look (n :: l) id = if decide (n_id n = id) then Some n else look l id.
  Proof.
    unfold look. simpl. case_decide; [reflexivity|].
    destruct (list_find (fun n => n_id n = id) l) as [[j m]|]; reflexivity.
  Qed.
  Lemma look_elem l n : NoDup (n_id <$> l) -> n ∈ l <-> look l (n_id n) = Some n.
  Proof.
    induction l as [|m l IH]; intros ND; [split; [intros H; inversion H|discriminate]|].
    rewrite fmap_cons in ND. apply NoDup_cons in ND as [Nm ND]. rewrite look_cons, elem_of_cons. case_decide as E.
    - split; [|intros [= ->]; auto]. intros [->|Hn]; [reflexivity|]. exfalso. apply Nm. rewrite E.
      now apply elem_of_list_fmap_1.
    - rewrite <- IH by exact ND. split; [intros [->|?]; [congruence|assumption]|auto].
  Qed.
  Lemma look_id l id n : look l id = Some n -> n_id n = id /\ n ∈ l.
  Proof.
    induction l as [|m l IH]; [discriminate|]. rewrite look_cons. case_decide as E.
    - intros [= ->]. split; [exact E|left].
    - intros H. destruct (IH H). split; [assumption|now right].
  Qed.
  Lemma look_None l id : look l id = None <-> id ∉ n_id <$> l.
  Proof.
    induction l as [|m l IH]; [simpl; split; [intros _; apply not_elem_of_nil|reflexivity]|].
    rewrite look_cons, fmap_cons, not_elem_of_cons. case_decide as E.
    - split; [discriminate|intros [? _]; congruence].
    - rewrite IH. split; [intros; split; auto|tauto].
  Qed.
  Lemma look_snoc l n id : look (l ++ [n]) id = match look l id with Some m => Some m | None => if decide (n_id n = id) then Some n else None end.
  Proof.
    induction l as [|m l IH]; simpl; [now rewrite look_cons|]. rewrite !look_cons, IH. destruct (decide (n_id m = id)); reflexivity.
  Qed.
  Lemma look_map (f : node T -> node T) l id : (forall n, n_id (f n) = n_id n) -> look (f <$> l) id = f <$> look l id.
  Proof.
    intros Hf. induction l as [|m l IH]; [reflexivity|]. rewrite fmap_cons, !look_cons, Hf. case_decide; [reflexivity|exact IH].
  Qed.

  (** One step of a merge, and a whole one. *)
  Definition join_node (a b : node T) : node T := if n_del b then set_deleted a else a.

  Lemma step_look l m id :
    NoDup (n_id <$> l) ->
    look (rg_merge_step l m) id =
      if decide (n_id m = id) then Some (match look l id with Some a => join_node a m | None => m end) else look l id.
  Proof.
    intros ND. unfold rg_merge_step. destruct (existsb _ l) eqn:E.
    - apply existsb_exists in E as (a & Ha & E). apply bool_decide_eq_true in E. apply elem_of_list_In in Ha.
      assert (La : look l (n_id m) = Some a) by (rewrite <- E; now apply look_elem).
      unfold join_node. destruct (n_del m) eqn:D.
      + rewrite mark_deleted_map by exact ND. rewrite look_map by apply mark_id. case_decide as Ei.
        * subst id. rewrite La. simpl. unfold mark. now rewrite decide_True.
        * destruct (look l id) as [b|] eqn:Lb; [|reflexivity]. simpl. unfold mark.
          apply look_id in Lb as [Lb _]. rewrite decide_False; [reflexivity|]. congruence.
      + case_decide as Ei; [|reflexivity]. subst id. now rewrite La.
    - rewrite look_snoc. destruct (look l id) as [b|] eqn:Lb; [|case_decide; reflexivity].
      case_decide as Ei; [|reflexivity]. exfalso. apply look_id in Lb as [Lb Hb].
      apply not_true_iff_false in E. apply E. apply existsb_exists. exists b.
      split; [now apply elem_of_list_In|]. apply bool_decide_eq_true. congruence.
  Qed.

  Lemma step_nodup l m : NoDup (n_id <$> l) -> NoDup (n_id <$> rg_merge_step l m).
  Proof.
    intros ND. unfold rg_merge_step. destruct (existsb _ l) eqn:E.
    - destruct (n_del m); [|exact ND]. rewrite mark_deleted_map by exact ND.
      rewrite <- list_fmap_compose. rewrite (list_fmap_ext _ n_id l); [exact ND|]. intros; apply mark_id.
    - rewrite fmap_app. apply NoDup_app. split; [exact ND|]. split; [|apply NoDup_singleton].
      intros i Hi H. apply elem_of_list_singleton in H. subst i. apply not_true_iff_false in E. apply E.
      apply elem_of_list_fmap in Hi as (a & Ea & Ha). apply existsb_exists. exists a.
      split; [now apply elem_of_list_In|]. apply bool_decide_eq_true. now rewrite Ea.
  Qed.

  Lemma fold_nodup l' l : NoDup (n_id <$> l) -> NoDup (n_id <$> fold_left rg_merge_step l' l).
  Proof. revert l. induction l' as [|m l' IH]; intros l ND; simpl; [exact ND|]. apply IH. now apply step_nodup. Qed.

  Lemma fold_look l' l id :
    NoDup (n_id <$> l) -> NoDup (n_id <$> l') ->
    look (fold_left rg_merge_step l' l) id =
      match look l id, look l' id with
      | Some a, Some b => Some (join_node a b)
      | Some a, None => Some a
      | None, o => o
      end.
  Proof.
    revert l. induction l' as [|m l' IH]; intros l ND ND'; simpl.
    - now destruct (look l id).
    - rewrite fmap_cons in ND'. apply NoDup_cons in ND' as [Nm ND'].
      rewrite IH by (auto using step_nodup). rewrite step_look, look_cons by exact ND. case_decide as E.
      + subst id. assert (L0 : look l' (n_id m) = None) by now apply look_None. rewrite L0.
        now destruct (look l (n_id m)).
      + reflexivity.
  Qed.

  (** ** The invariant *)

  Definition inserted (h : hist) (K : gset nat) (id : rid) (v : T) (p : option rid) : Prop :=
    exists i x, i ∈ K /\ h !! i = Some x /\ op_op x = FIns id v p.
  Definition deleted (h : hist) (K : gset nat) (id : rid) : Prop :=
    exists j y, j ∈ K /\ h !! j = Some y /\ op_op y = FDel id.

  Record seq_hist (h : hist) : Prop := {
    sh_pos : forall i x id v p, h !! i = Some x -> op_op x = FIns id v p -> (0 < id.1)%N;
    sh_newer : forall i x id v p id' v' p', h !! i = Some x -> op_op x = FIns id v p ->
      inserted h (op_past x) id' v' p' -> (id'.1 < id.1)%N;
    sh_origin : forall i x id v p, h !! i = Some x -> op_op x = FIns id v p -> id.2 = op_origin x;
    sh_parent : forall i x id v q, h !! i = Some x -> op_op x = FIns id v (Some q) ->
      exists v' p', inserted h (op_past x) q v' p' /\ (q.1 < id.1)%N;
    sh_del : forall i x id, h !! i = Some x -> op_op x = FDel id -> exists v p, inserted h (op_past x) id v p;
    sh_unique : forall i j x y id v p v' p', h !! i = Some x -> h !! j = Some y ->
      op_op x = FIns id v p -> op_op y = FIns id v' p' -> i = j }.

  Record seq_inv (h : hist) (K : gset nat) (s : rga T) : Prop := {
    si_hist : seq_hist h;
    si_nodup : NoDup (n_id <$> rg_nodes s);
    si_nodes : forall n, n ∈ rg_nodes s <->
      inserted h K (n_id n) (n_val n) (n_parent n) /\ (n_del n = true <-> deleted h K (n_id n));
    si_ts : forall n, n ∈ rg_nodes s -> ((n_id n).1 <= rg_ts s)%N }.

  Lemma inserted_fun h K K' id v p v' p' :
    seq_hist h -> inserted h K id v p -> inserted h K' id v' p' -> v = v' /\ p = p'.
  Proof.
    intros SH (i & x & _ & Hx & Ex) (j & y & _ & Hy & Ey).
    assert (i = j) by (eapply sh_unique; eauto). subst j. rewrite Hx in Hy. injection Hy as ->.
    rewrite Ex in Ey. injection Ey as -> ->. auto.
  Qed.
  Lemma inserted_mono h K K' id v p : K ⊆ K' -> inserted h K id v p -> inserted h K' id v p.
  Proof. intros S (i & x & Hi & H). exists i, x. split; [set_solver|exact H]. Qed.
  Lemma deleted_dec h (K : gset nat) id : deleted h K id \/ ~ deleted h K id.
  Proof.
    assert (Dec : forall j, {match h !! j with Some y => op_op y = FDel id | None => False end} +
                            {~ match h !! j with Some y => op_op y = FDel id | None => False end}).
    { intros j. destruct (h !! j) as [y|]; [|now right].
      destruct (op_op y) as [a b c|a|]; [right; discriminate| |right; discriminate].
      destruct (decide (a = id)) as [->|N]; [now left|right; congruence]. }
    assert (G : forall L : list nat, (exists j y, j ∈ L /\ h !! j = Some y /\ op_op y = FDel id) \/
                                     ~ (exists j y, j ∈ L /\ h !! j = Some y /\ op_op y = FDel id)).
    { induction L as [|j L [IH|IH]].
      - right. intros (j & y & Hj & _). inversion Hj.
      - left. destruct IH as (k & y & Hk & H). exists k, y. split; [now right|exact H].
      - destruct (Dec j) as [D|D].
        + destruct (h !! j) as [y|] eqn:Hy; [|contradiction]. left. exists j, y. split; [left|auto].
        + right. intros (k & y & Hk & Hy & E). apply elem_of_cons in Hk as [->|Hk].
          * rewrite Hy in D. tauto.
          * apply IH. eauto. }
    destruct (G (elements K)) as [D|D].
    - left. destruct D as (j & y & Hj & H). apply elem_of_elements in Hj. exists j, y. auto.
    - right. intros (j & y & Hj & H). apply D. exists j, y. rewrite elem_of_elements. auto.
  Qed.

  Lemma seq_inv_tree h K s : closed h K -> seq_inv h K s -> tree (rg_nodes s).
  Proof.
    intros C [SH ND M _]. split; [exact ND|]. intros n q Hn Hq.
    apply M in Hn as [(i & x & Hi & Hx & Ex) _]. rewrite Hq in Ex.
    destruct (sh_parent h SH i x _ _ q Hx Ex) as (v' & p' & Ins & Hlt).
    assert (Ins' : inserted h K q v' p') by (eapply inserted_mono; [|exact Ins]; exact (proj2 C i x Hi Hx)).
    destruct (deleted_dec h K q) as [D|D].
    - exists {| n_id := q; n_val := v'; n_del := true; n_parent := p' |}. split; [|auto].
      apply M. simpl. split; [exact Ins'|tauto].
    - exists {| n_id := q; n_val := v'; n_del := false; n_parent := p' |}. split; [|auto].
      apply M. simpl. split; [exact Ins'|]. split; [discriminate|tauto].
  Qed.
  Lemma seq_inv_ok h K s : closed h K -> seq_inv h K s -> seq_ok s.
  Proof. intros C I. split; [eapply seq_inv_tree; eauto|apply I]. Qed.

  Lemma seq_inv_det h K s t : seq_inv h K s -> seq_inv h K t -> rg_nodes s ≡ₚ rg_nodes t.
  Proof.
    intros [_ N1 M1 _] [_ N2 M2 _]. apply NoDup_Permutation; [now apply NoDup_fmap_1 in N1|now apply NoDup_fmap_1 in N2|].
    intros n. now rewrite M1, M2.
  Qed.

  Lemma inserted_app h x K id v p : closed h K -> inserted (h ++ [x]) K id v p <-> inserted h K id v p.
  Proof.
    intros C. split; intros (i & y & Hi & Hy & E); exists i, y; split; auto; split; auto.
    - rewrite lookup_app_l in Hy by (apply (proj1 C); exact Hi). exact Hy.
    - now apply lookup_app_l_Some.
  Qed.
  Lemma deleted_app h x K id : closed h K -> deleted (h ++ [x]) K id <-> deleted h K id.
  Proof.
    intros C. split; intros (i & y & Hi & Hy & E); exists i, y; split; auto; split; auto.
    - rewrite lookup_app_l in Hy by (apply (proj1 C); exact Hi). exact Hy.
    - now apply lookup_app_l_Some.
  Qed.

  Lemma visible_at_inserted h K s i id :
    closed h K -> seq_inv h K s -> rg_visible_id_at s i = Some id ->
    exists n, n ∈ rg_nodes s /\ n_id n = id /\ inserted h K id (n_val n) (n_parent n).
  Proof.
    intros C I H. unfold rg_visible_id_at in H. destruct (rg_visible s !! i) as [n|] eqn:E; [|discriminate].
    injection H as <-. destruct (visible_node s i n (seq_inv_ok h K s C I) E) as [Hn _].
    exists n. split; [exact Hn|]. split; [reflexivity|]. now apply (si_nodes _ _ _ I).
  Qed.

  Lemma last_visible_at (s : rga T) : rg_last_visible_id s = rg_visible_id_at s (pred (length (rg_visible s))).
  Proof. unfold rg_last_visible_id, rg_visible_id_at. now rewrite last_lookup. Qed.

  (** Every operation creates a child of something visible, deletes something visible, or does nothing. *)
  Lemma apply_cases (o : seqop T) (s : rga T) :
    (exists v p, rg_apply o s = rg_push v p s /\ rg_eff o s = FIns ((rg_ts s + 1)%N, rg_id s) v p /\
       (p = None \/ exists i, p = rg_visible_id_at s i)) \/
    (exists i id, rg_visible_id_at s i = Some id /\ rg_eff o s = FDel id /\
       rg_apply o s = {| rg_nodes := mark_deleted id (rg_nodes s); rg_ts := rg_ts s; rg_id := rg_id s |}) \/
    (rg_apply o s = s /\ rg_eff o s = FNone).
  Proof.
    destruct o as [v|i v|i v|i]; simpl.
    - left. exists v, (rg_last_visible_id s). split; [reflexivity|]. split; [reflexivity|]. right.
      eexists. apply last_visible_at.
    - left. destruct i as [|i]; simpl.
      + exists v, None. auto.
      + exists v, (rg_visible_id_at s i). eauto.
    - left. exists v, (rg_visible_id_at s i). eauto.
    - right. unfold rg_remove. destruct (rg_visible_id_at s i) as [id|] eqn:E; [left; eauto|auto].
  Qed.

  Lemma seq_hist_snoc h K s o :
    wf h -> closed h K -> own_known h (rg_id s) K -> seq_inv h K s ->
    seq_hist (h ++ [{| op_origin := rg_id s; op_op := rg_eff o s; op_past := K |}]).
  Proof.
    intros W C Own I. pose proof (si_hist _ _ _ I) as SH.
    set (x := {| op_origin := rg_id s; op_op := rg_eff o s; op_past := K |}).
    assert (Split : forall i y, (h ++ [x]) !! i = Some y -> h !! i = Some y \/ (i = length h /\ y = x)).
    { intros i y H. apply lookup_app_Some in H as [?|[Hl H]]; [auto|].
      apply list_lookup_singleton_Some in H as [Hi <-]. right. split; [lia|reflexivity]. }
    assert (Cpast : forall i y, h !! i = Some y -> closed h (op_past y)) by (intros i y Hy; apply (W i y Hy)).
    (* facts about a new insertion *)
    assert (New : forall id v p, op_op x = FIns id v p ->
      id = ((rg_ts s + 1)%N, rg_id s) /\ (forall q, p = Some q -> exists v' p', inserted h K q v' p' /\ (q.1 < id.1)%N)).
    { intros id v p E. destruct (apply_cases o s) as [(v0 & p0 & _ & Ef & Hp)|[(i & id0 & _ & Ef & _)|[_ Ef]]];
        simpl in E; rewrite Ef in E; try discriminate. injection E as <- <- <-. split; [reflexivity|].
      intros q ->. destruct Hp as [?|[i Hi]]; [discriminate|]. symmetry in Hi.
      destruct (visible_at_inserted h K s i q C I Hi) as (n & Hn & En & Ins).
      exists (n_val n), (n_parent n). split; [exact Ins|]. simpl. pose proof (si_ts _ _ _ I n Hn). rewrite En in *. lia. }
    constructor.
    - intros i y id v p Hy E. apply Split in Hy as [Hy|[_ ->]]; [exact (sh_pos h SH i y id v p Hy E)|].
      destruct (New id v p E) as [-> _]. simpl. lia.
    - intros i y id v p id' v' p' Hy E Ins. apply Split in Hy as [Hy|[_ ->]].
      + apply (inserted_app h x _ _ _ _ (Cpast i y Hy)) in Ins. exact (sh_newer h SH i y id v p id' v' p' Hy E Ins).
      + destruct (New id v p E) as [-> _]. simpl in Ins |- *. apply (inserted_app h x K _ _ _ C) in Ins.
        destruct (deleted_dec h K id') as [D|D].
        * assert (Hn : {| n_id := id'; n_val := v'; n_del := true; n_parent := p' |} ∈ rg_nodes s)
            by (apply (si_nodes _ _ _ I); simpl; tauto).
          apply (si_ts _ _ _ I) in Hn. simpl in Hn. lia.
        * assert (Hn : {| n_id := id'; n_val := v'; n_del := false; n_parent := p' |} ∈ rg_nodes s)
            by (apply (si_nodes _ _ _ I); simpl; split; [exact Ins|split; [discriminate|tauto]]).
          apply (si_ts _ _ _ I) in Hn. simpl in Hn. lia.
    - intros i y id v p Hy E. apply Split in Hy as [Hy|[_ ->]]; [exact (sh_origin h SH i y id v p Hy E)|].
      destruct (New id v p E) as [-> _]. reflexivity.
    - intros i y id v q Hy E. apply Split in Hy as [Hy|[_ ->]].
      + destruct (sh_parent h SH i y id v q Hy E) as (v' & p' & Ins & Hlt). exists v', p'.
        split; [|exact Hlt]. apply inserted_app; eauto.
      + destruct (New id v _ E) as [-> H]. destruct (H q eq_refl) as (v' & p' & Ins & Hlt).
        exists v', p'. split; [|exact Hlt]. simpl. now apply inserted_app.
    - intros i y id Hy E. apply Split in Hy as [Hy|[_ ->]].
      + destruct (sh_del h SH i y id Hy E) as (v' & p' & Ins). exists v', p'. apply inserted_app; eauto.
      + simpl in E. destruct (apply_cases o s) as [(v0 & p0 & _ & Ef & Hp)|[(k & id0 & Hk & Ef & _)|[_ Ef]]];
          rewrite Ef in E; try discriminate. injection E as <-.
        destruct (visible_at_inserted h K s k id0 C I Hk) as (n & Hn & En & Ins).
        exists (n_val n), (n_parent n). simpl. now apply inserted_app.
    - assert (Fresh : forall i y v p v' p', h !! i = Some y -> op_op x = FIns ((rg_ts s + 1)%N, rg_id s) v p ->
        op_op y = FIns ((rg_ts s + 1)%N, rg_id s) v' p' -> False).
      { intros i y v p v' p' Hy Ex Ey. pose proof (sh_origin h SH i y _ _ _ Hy Ey) as Or. simpl in Or.
        assert (Hi : i ∈ K) by (apply (Own i y Hy); congruence).
        assert (Ins : inserted h K ((rg_ts s + 1)%N, rg_id s) v' p') by (exists i, y; auto).
        destruct (deleted_dec h K ((rg_ts s + 1)%N, rg_id s)) as [D|D].
        - assert (Hn : {| n_id := ((rg_ts s + 1)%N, rg_id s); n_val := v'; n_del := true; n_parent := p' |} ∈ rg_nodes s)
            by (apply (si_nodes _ _ _ I); simpl; tauto).
          apply (si_ts _ _ _ I) in Hn. simpl in Hn. lia.
        - assert (Hn : {| n_id := ((rg_ts s + 1)%N, rg_id s); n_val := v'; n_del := false; n_parent := p' |} ∈ rg_nodes s)
            by (apply (si_nodes _ _ _ I); simpl; split; [exact Ins|split; [discriminate|tauto]]).
          apply (si_ts _ _ _ I) in Hn. simpl in Hn. lia. }
      intros i j y z id v p v' p' Hy Hz Ey Ez.
      apply Split in Hy as [Hy|[-> ->]], Hz as [Hz|[-> ->]].
      + eapply sh_unique; eauto.
      + destruct (New id v' p' Ez) as [-> _]. destruct (Fresh i y v' p' v p Hy Ez Ey).
      + destruct (New id v p Ey) as [-> _]. destruct (Fresh j z v p v' p' Hz Ey Ez).
      + reflexivity.
  Qed.

  Lemma seq_inv_apply h o K s :
    wf h -> closed h K -> own_known h (rg_id s) K -> seq_inv h K s ->
    seq_inv (h ++ [{| op_origin := rg_id s; op_op := rg_eff o s; op_past := K |}]) (K ∪ {[length h]}) (rg_apply o s).
  Proof.
    intros W C Own I. pose proof (seq_hist_snoc h K s o W C Own I) as SH'.
    set (x := {| op_origin := rg_id s; op_op := rg_eff o s; op_past := K |}) in *.
    assert (Hx : (h ++ [x]) !! length h = Some x) by (rewrite lookup_app_r, Nat.sub_diag by lia; reflexivity).
    assert (InsS : forall id v p, inserted (h ++ [x]) (K ∪ {[length h]}) id v p <->
      inserted h K id v p \/ op_op x = FIns id v p).
    { intros id v p. split.
      - intros (i & y & Hi & Hy & E). apply elem_of_union in Hi as [Hi|Hi].
        + left. apply (inserted_app h x K id v p C). exists i, y. auto.
        + apply elem_of_singleton in Hi. subst i. rewrite Hx in Hy. injection Hy as <-. auto.
      - intros [Ins|E].
        + apply (inserted_app h x K id v p C) in Ins. eapply inserted_mono; [|exact Ins]. set_solver.
        + exists (length h), x. split; [set_solver|auto]. }
    assert (DelS : forall id, deleted (h ++ [x]) (K ∪ {[length h]}) id <-> deleted h K id \/ op_op x = FDel id).
    { intros id. split.
      - intros (i & y & Hi & Hy & E). apply elem_of_union in Hi as [Hi|Hi].
        + left. apply (deleted_app h x K id C). exists i, y. auto.
        + apply elem_of_singleton in Hi. subst i. rewrite Hx in Hy. injection Hy as <-. auto.
      - intros [D|E].
        + apply (deleted_app h x K id C) in D. destruct D as (i & y & Hi & H). exists i, y. split; [set_solver|exact H].
        + exists (length h), x. split; [set_solver|auto]. }
    destruct (apply_cases o s) as [(v & p & Ea & Ef & Hp)|[(i & id & Hi & Ef & Ea)|[Ea Ef]]]; rewrite Ea.
    - (* insertion *)
      set (nw := {| n_id := ((rg_ts s + 1)%N, rg_id s); n_val := v; n_del := false; n_parent := p |}).
      assert (Nid : n_id nw ∉ n_id <$> rg_nodes s).
      { intros H. apply elem_of_list_fmap in H as (m & E & Hm). pose proof (si_ts _ _ _ I m Hm) as B.
        rewrite <- E in B. simpl in B. lia. }
      assert (NoDel : ~ deleted h K (n_id nw)).
      { intros (j & y & Hj & Hy & E). destruct (sh_del h (si_hist _ _ _ I) j y _ Hy E) as (v' & p' & Ins).
        apply Nid. apply (inserted_mono h _ K) in Ins; [|exact (proj2 C j y Hj Hy)].
        assert (D : deleted h K (n_id nw)) by (exists j, y; auto).
        apply elem_of_list_fmap. exists {| n_id := n_id nw; n_val := v'; n_del := true; n_parent := p' |}.
        split; [reflexivity|]. apply (si_nodes _ _ _ I). simpl. tauto. }
      constructor.
      + exact SH'.
      + simpl. rewrite fmap_app. apply NoDup_app. split; [apply I|]. split; [|apply NoDup_singleton].
        intros k Hk E. apply elem_of_list_singleton in E. subst k. tauto.
      + intros n. simpl. rewrite elem_of_app, elem_of_list_singleton. fold nw.
        rewrite InsS, DelS. unfold x; simpl. rewrite Ef. split.
        * intros [Hn| ->].
          -- apply (si_nodes _ _ _ I) in Hn as [A B]. split; [auto|]. rewrite B. split; [auto|].
             intros [?|?]; [assumption|discriminate].
          -- split; [right; reflexivity|]. split; [discriminate|]. intros [?|?]; [tauto|discriminate].
        * intros [[A|A] B].
          -- left. apply (si_nodes _ _ _ I). split; [exact A|]. rewrite B. split; [intros [?|?]; [assumption|discriminate]|auto].
          -- right. injection A as E1 E2 E3. destruct n as [nid nval ndel npar]; simpl in *. subst.
             unfold nw. f_equal. destruct ndel; [|reflexivity]. exfalso. destruct (proj1 B eq_refl) as [?|?]; [tauto|discriminate].
      + intros n Hn. simpl in *. apply elem_of_app in Hn as [Hn|Hn]; [pose proof (si_ts _ _ _ I n Hn); lia|].
        apply elem_of_list_singleton in Hn. subst n. simpl. lia.
    - (* deletion *)
      assert (ND : NoDup (n_id <$> rg_nodes s)) by apply I.
      constructor; simpl.
      + exact SH'.
      + rewrite mark_deleted_map by exact ND. rewrite <- list_fmap_compose.
        rewrite (list_fmap_ext _ n_id (rg_nodes s)); [exact ND|]. intros; apply mark_id.
      + intros n. rewrite mark_deleted_map by exact ND. rewrite InsS, DelS. unfold x; simpl. rewrite Ef. split.
        * intros Hn. apply elem_of_list_fmap in Hn as (m & -> & Hm).
          rewrite mark_id, mark_val, mark_parent. apply (si_nodes _ _ _ I) in Hm as [A B]. split; [auto|].
          unfold mark. case_decide as E; simpl.
          -- split; [intros _; right; now rewrite E|reflexivity].
          -- rewrite B. split; [auto|]. intros [?|E9]; [assumption|congruence].
        * intros [[A|A] B]; [|discriminate]. apply elem_of_list_fmap.
          destruct (decide (n_id n = id)) as [E|E].
          -- destruct (deleted_dec h K id) as [D|D].
             ++ exists n. split; [|apply (si_nodes _ _ _ I); split; [exact A|rewrite B, E; tauto]].
                unfold mark. rewrite decide_True by exact E. destruct n as [nid nval ndel npar]; simpl in *.
                unfold set_deleted; simpl. f_equal. apply B. right. now rewrite E.
             ++ exists {| n_id := n_id n; n_val := n_val n; n_del := false; n_parent := n_parent n |}. split.
                ** unfold mark; simpl. rewrite decide_True by exact E. destruct n as [nid nval ndel npar]; simpl in *.
                   unfold set_deleted; simpl. f_equal. apply B. right. now rewrite E.
                ** apply (si_nodes _ _ _ I). simpl. split; [exact A|]. rewrite E. split; [discriminate|tauto].
          -- exists n. split; [unfold mark; now rewrite decide_False|]. apply (si_nodes _ _ _ I). split; [exact A|].
             rewrite B. split; [intros [?|E9]; [assumption|congruence]|auto].
      + intros n Hn. rewrite mark_deleted_map in Hn by exact ND. apply elem_of_list_fmap in Hn as (m & -> & Hm).
        rewrite mark_id. now apply (si_ts _ _ _ I).
    - constructor.
      + exact SH'.
      + apply I.
      + intros n. rewrite InsS, DelS. unfold x; simpl. rewrite Ef. rewrite (si_nodes _ _ _ I). split.
        * intros [A B]. split; [auto|]. rewrite B. split; [auto|]. intros [?|?]; [assumption|discriminate].
        * intros [[A|A] B]; [|discriminate]. split; [exact A|]. rewrite B. split; [|auto]. intros [?|?]; [assumption|discriminate].
      + apply I.
  Qed.

  Lemma seq_inv_mono h o K K' s s' :
    wf h -> closed h K -> closed h K' -> own_known h (rg_id s') K' -> seq_inv h K s -> seq_inv h K' s' ->
    seq_inv (h ++ [{| op_origin := rg_id s'; op_op := rg_eff o s'; op_past := K' |}]) K s.
  Proof.
    intros W C C' Own I I'. constructor.
    - now apply seq_hist_snoc.
    - apply I.
    - intros n. rewrite inserted_app, deleted_app by exact C. apply I.
    - apply I.
  Qed.

  Lemma inserted_union h K L id v p : inserted h (K ∪ L) id v p <-> inserted h K id v p \/ inserted h L id v p.
  Proof.
    split.
    - intros (i & x & Hi & H). apply elem_of_union in Hi as [Hi|Hi]; [left|right]; exists i, x; auto.
    - intros [(i & x & Hi & H)|(i & x & Hi & H)]; exists i, x; (split; [set_solver|exact H]).
  Qed.
  Lemma deleted_union h K L id : deleted h (K ∪ L) id <-> deleted h K id \/ deleted h L id.
  Proof.
    split.
    - intros (i & x & Hi & H). apply elem_of_union in Hi as [Hi|Hi]; [left|right]; exists i, x; auto.
    - intros [(i & x & Hi & H)|(i & x & Hi & H)]; exists i, x; (split; [set_solver|exact H]).
  Qed.

  Lemma deleted_inserted h K id : seq_hist h -> closed h K -> deleted h K id -> exists v p, inserted h K id v p.
  Proof.
    intros SH C (j & y & Hj & Hy & E). destruct (sh_del h SH j y id Hy E) as (v & p & Ins). exists v, p.
    eapply inserted_mono; [|exact Ins]. exact (proj2 C j y Hj Hy).
  Qed.

  (** The state as a map from ids. *)
  Lemma seq_inv_look h K s id n :
    seq_inv h K s -> look (rg_nodes s) id = Some n <->
      n_id n = id /\ inserted h K id (n_val n) (n_parent n) /\ (n_del n = true <-> deleted h K id).
  Proof.
    intros I. split.
    - intros H. apply look_id in H as [<- Hn]. split; [reflexivity|]. now apply (si_nodes _ _ _ I).
    - intros (<- & H). apply look_elem; [apply I|]. now apply (si_nodes _ _ _ I).
  Qed.
  Lemma seq_inv_look_None h K s id :
    seq_inv h K s -> look (rg_nodes s) id = None <-> forall v p, ~ inserted h K id v p.
  Proof.
    intros I. split.
    - intros H v p Ins. destruct (deleted_dec h K id) as [D|D].
      + assert (X : look (rg_nodes s) id = Some {| n_id := id; n_val := v; n_del := true; n_parent := p |})
          by (apply (seq_inv_look h K s); simpl; tauto). congruence.
      + assert (X : look (rg_nodes s) id = Some {| n_id := id; n_val := v; n_del := false; n_parent := p |}).
        { apply (seq_inv_look h K s); [exact I|]. simpl. split; [reflexivity|]. split; [exact Ins|]. split; [discriminate|tauto]. }
        congruence.
    - intros H. destruct (look (rg_nodes s) id) as [n|] eqn:E; [|reflexivity].
      apply (seq_inv_look h K s id n I) in E as (_ & Ins & _). now apply H in Ins.
  Qed.

  Lemma seq_inv_merge h K L s t :
    wf h -> closed h K -> closed h L -> seq_inv h K s -> seq_inv h L t -> seq_inv h (K ∪ L) (rg_merge s t).
  Proof.
    intros W CK CL I J. pose proof (si_hist _ _ _ I) as SH. constructor; simpl.
    - exact SH.
    - apply fold_nodup, I.
    - intros n. rewrite look_elem by apply fold_nodup, I.
      rewrite fold_look by (apply I || apply J). rewrite inserted_union, deleted_union.
      destruct (look (rg_nodes s) (n_id n)) as [a|] eqn:Ea, (look (rg_nodes t) (n_id n)) as [b|] eqn:Eb.
      + apply (seq_inv_look h K s _ a I) in Ea as (Ia & InsA & DelA).
        apply (seq_inv_look h L t _ b J) in Eb as (Ib & InsB & DelB).
        split.
        * intros [= <-]. unfold join_node in *. destruct (n_del b) eqn:Db; simpl.
          -- split; [auto|]. split; [|reflexivity]. intros _. right. now apply DelB.
          -- split; [auto|]. rewrite DelA. split; [auto|]. intros [?|H]; [assumption|]. apply DelB in H. discriminate.
        * intros [Ins Del]. f_equal.
          assert (E : n_val a = n_val n /\ n_parent a = n_parent n)
            by (destruct Ins as [Ins|Ins]; eapply inserted_fun; eauto).
          destruct E as [E1 E2]. destruct a as [aid av ad ap], n as [nid nv nd np]; simpl in *. subst.
          unfold join_node, set_deleted; simpl. destruct (n_del b) eqn:Db; f_equal.
          -- symmetry. apply Del. right. now apply DelB.
          -- apply Bool.eq_true_iff_eq. rewrite DelA, Del. split; [auto|]. intros [?|H]; [assumption|]. apply DelB in H. discriminate.
      + apply (seq_inv_look h K s _ a I) in Ea as (Ia & InsA & DelA).
        pose proof (proj1 (seq_inv_look_None h L t _ J) Eb) as NoL.
        assert (NoD : ~ deleted h L (n_id n)).
        { intros D. destruct (deleted_inserted h L _ SH CL D) as (v & p & X). now apply NoL in X. }
        split.
        * intros [= <-]. split; [auto|]. rewrite DelA. tauto.
        * intros [[Ins|Ins] Del]; [|now apply NoL in Ins].
          destruct (inserted_fun h K K _ _ _ _ _ SH InsA Ins) as [E1 E2].
          destruct a as [aid av ad ap], n as [nid nv nd np]; simpl in *. subst. do 2 f_equal.
          apply Bool.eq_true_iff_eq. rewrite DelA, Del. tauto.
      + apply (seq_inv_look h L t _ b J) in Eb as (Ib & InsB & DelB).
        pose proof (proj1 (seq_inv_look_None h K s _ I) Ea) as NoK.
        assert (NoD : ~ deleted h K (n_id n)).
        { intros D. destruct (deleted_inserted h K _ SH CK D) as (v & p & X). now apply NoK in X. }
        split.
        * intros [= <-]. split; [auto|]. rewrite DelB. tauto.
        * intros [[Ins|Ins] Del]; [now apply NoK in Ins|].
          destruct (inserted_fun h L L _ _ _ _ _ SH InsB Ins) as [E1 E2].
          destruct b as [aid av ad ap], n as [nid nv nd np]; simpl in *. subst. do 2 f_equal.
          apply Bool.eq_true_iff_eq. rewrite DelB, Del. tauto.
      + split; [discriminate|]. intros [[Ins|Ins] _].
        * now apply (seq_inv_look_None h K s _ I) in Ins.
        * now apply (seq_inv_look_None h L t _ J) in Ins.
    - intros n Hn. rewrite look_elem in Hn by apply fold_nodup, I. rewrite fold_look in Hn by (apply I || apply J).
      destruct (look (rg_nodes s) (n_id n)) as [a|] eqn:Ea, (look (rg_nodes t) (n_id n)) as [b|] eqn:Eb; try discriminate.
      + apply look_id in Ea as [Ea Ha]. pose proof (si_ts _ _ _ I a Ha). rewrite Ea in *. lia.
      + apply look_id in Ea as [Ea Ha]. pose proof (si_ts _ _ _ I a Ha). rewrite Ea in *. lia.
      + apply look_id in Eb as [Eb Hb]. pose proof (si_ts _ _ _ J b Hb). rewrite Eb in *. lia.
  Qed.

  Definition seq_state (evs : list (event (seqop T))) (r : N) : rga T := state_at rg_new rg_apply rg_merge evs r.
  Definition seq_effects (evs : list (event (seqop T))) : hist := effects_of rg_new rg_apply rg_merge rg_eff evs.

  Lemma seq_run evs :
    Forall2 same_shape (seq_effects evs) (hist_of evs) /\ wf (seq_effects evs) /\
    (forall r, closed (seq_effects evs) (known_by evs r)) /\
    (forall r, seq_inv (seq_effects evs) (known_by evs r) (seq_state evs r)) /\
    (forall r, rg_id (seq_state evs r) = r).
  Proof.
    apply (replication_invariant_eff (S := rga T) rg_new rg_apply rg_merge rg_eff rg_id seq_inv).
    - reflexivity.
    - intros o s. destruct (apply_cases o s) as [(v & p & -> & _)|[(i & id & _ & _ & ->)|[-> _]]]; reflexivity.
    - reflexivity.
    - intros r. constructor; simpl.
      + constructor; intros i; intros; rewrite lookup_nil in *; discriminate.
      + constructor.
      + intros n. split; [intros H; inversion H|]. intros [(i & x & Hi & _) _]. set_solver.
      + intros n H. inversion H.
    - intros. now apply seq_inv_mono.
    - intros. now apply seq_inv_apply.
    - intros. now apply seq_inv_merge.
  Qed.

  Lemma seq_ok_run evs r : seq_ok (seq_state evs r).
  Proof. destruct (seq_run evs) as (_ & _ & C & I & _). eapply seq_inv_ok; [apply C|apply I]. Qed.

  Lemma visible_det h K s t : closed h K -> seq_inv h K s -> seq_inv h K t -> rg_visible s = rg_visible t.
  Proof.
    intros C I J. unfold rg_visible. f_equal. apply sorted_perm; [eapply seq_inv_tree; eauto|]. eapply seq_inv_det; eauto.
  Qed.

  (** Replicas with more knowledge show common elements in the same order. *)
  Lemma order_sub h K L s t :
    closed h K -> closed h L -> seq_inv h K s -> seq_inv h L t -> K ⊆ L ->
    n_id <$> rg_sorted (rg_nodes s) =
    filter (fun id => id ∈ n_id <$> rg_nodes s) (n_id <$> rg_sorted (rg_nodes t)).
  Proof.
    intros CK CL I J Sub.
    (* compare with deletion marks wiped *)
    set (wipe := fun n : node T => {| n_id := n_id n; n_val := n_val n; n_del := false; n_parent := n_parent n |}).
    assert (Wid : forall n, n_id (wipe n) = n_id n) by reflexivity.
    assert (Wp : forall n, n_parent (wipe n) = n_parent n) by reflexivity.
    pose proof (seq_inv_tree h K s CK I) as Ts. pose proof (seq_inv_tree h L t CL J) as Tt.
    pose proof (si_hist _ _ _ I) as SH.
    assert (Ids : forall l0, n_id <$> (wipe <$> l0) = n_id <$> l0).
    { intros l0. rewrite <- list_fmap_compose. apply list_fmap_ext. reflexivity. }
    pose proof (sorted_sub (wipe <$> rg_nodes s) (wipe <$> rg_nodes t) (fun n => n_id n ∈ n_id <$> rg_nodes s)
      (tree_map wipe _ Wid Wp Ts) (tree_map wipe _ Wid Wp Tt)) as E.
    assert (Mem : forall n, n ∈ wipe <$> rg_nodes s <-> n ∈ wipe <$> rg_nodes t /\ n_id n ∈ n_id <$> rg_nodes s).
    { intros n. split.
      - intros Hn. apply elem_of_list_fmap in Hn as (a & -> & Ha). rewrite Wid.
        split; [|now apply elem_of_list_fmap_1].
        pose proof Ha as Ha'. apply (si_nodes _ _ _ I) in Ha' as [Ins _].
        pose proof (inserted_mono h K L _ _ _ Sub Ins) as InsL.
        destruct (look (rg_nodes t) (n_id a)) as [b|] eqn:Eb.
        + pose proof Eb as Eb'. apply (seq_inv_look h L t _ b J) in Eb as (Ib & InsB & _).
          destruct (inserted_fun h L L _ _ _ _ _ SH InsB InsL) as [E1 E2]. apply look_id in Eb' as [_ Hb].
          apply elem_of_list_fmap. exists b. split; [|exact Hb]. unfold wipe. now rewrite Ib, E1, E2.
        + apply (proj1 (seq_inv_look_None h L t _ J) Eb) in InsL. destruct InsL.
      - intros [Hn Hid]. apply elem_of_list_fmap in Hn as (b & -> & Hb). rewrite Wid in Hid.
        apply elem_of_list_fmap in Hid as (a & Ea & Ha). apply elem_of_list_fmap. exists a. split; [|exact Ha].
        apply (si_nodes _ _ _ J) in Hb as [InsB _]. apply (si_nodes _ _ _ I) in Ha as [InsA _].
        rewrite <- Ea in InsA. destruct (inserted_fun h L K _ _ _ _ _ SH InsB InsA) as [E1 E2].
        unfold wipe. now rewrite Ea, E1, E2. }
    specialize (E Mem). rewrite !sorted_map in E by auto.
    apply (f_equal (fmap n_id)) in E. rewrite Ids in E. rewrite E.
    generalize (rg_sorted (rg_nodes t)). intros l0. induction l0 as [|n l0 IH]; [reflexivity|].
    rewrite !fmap_cons, !filter_cons, Wid. destruct (decide (n_id n ∈ n_id <$> rg_nodes s)); [rewrite fmap_cons, Wid; f_equal|]; exact IH.
  Qed.
End Runs.
