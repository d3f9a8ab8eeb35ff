(** Observed-remove sets and maps. *)
From stdpp Require Import gmap.
From Verif Require Import CrdtModel CrdtSetModel Replication ReplicationCount CrdtClockProofs
  CrdtCounterProofs ReplicationOrder.

(** ** Generic facts about the loops *)

Lemma fold_insert_lookup {T A} `{Countable T} (F : T -> option A -> A) (keys : list T) (m : gmap T A) v :
  NoDup keys ->
  fold_left (fun acc k => <[k := F k (acc !! k)]> acc) keys m !! v =
  if decide (v ∈ keys) then Some (F v (m !! v)) else m !! v.
Proof.
  revert m. induction keys as [|k keys IH]; intros m ND; cbn [fold_left].
  - rewrite decide_False by (intros E; inversion E). reflexivity.
  - apply NoDup_cons in ND as [Hk ND]. rewrite IH by exact ND.
    destruct (decide (v ∈ keys)) as [Hv|Hv].
    + rewrite decide_True by (now right). rewrite lookup_insert_ne; [reflexivity|]. intros ->. tauto.
    + destruct (decide (v = k)) as [->|Hne].
      * rewrite decide_True by left. now rewrite lookup_insert.
      * rewrite decide_False, lookup_insert_ne; [reflexivity|auto|].
        intros E. apply elem_of_cons in E as [?|?]; tauto.
Qed.

Lemma fold_insert_map_lookup {T A B} `{Countable T} (F : T -> option A -> B -> A) (o : gmap T B) (m : gmap T A) v :
  fold_left (fun acc e => <[e.1 := F e.1 (acc !! e.1) e.2]> acc) (map_to_list o) m !! v =
  match o !! v with Some b => Some (F v (m !! v) b) | None => m !! v end.
Proof.
  assert (G : forall l (m : gmap T A), NoDup l.*1 ->
    fold_left (fun acc e => <[e.1 := F e.1 (acc !! e.1) e.2]> acc) l m !! v =
    match (list_to_map l : gmap T B) !! v with Some b => Some (F v (m !! v) b) | None => m !! v end).
  { clear m. induction l as [|[k b] l IH]; intros m ND; simpl; [now rewrite lookup_empty|].
    simpl in ND. apply NoDup_cons in ND as [Hk ND]. rewrite IH by exact ND.
    destruct (decide (v = k)) as [->|Hne].
    - rewrite !lookup_insert. rewrite not_elem_of_list_to_map_1 by exact Hk. reflexivity.
    - rewrite !lookup_insert_ne by auto. reflexivity. }
  rewrite G by apply NoDup_fst_map_to_list. now rewrite list_to_map_to_list.
Qed.

Lemma not_seen c d : dc_has_seen c d = false <-> ~ seen c d.
Proof. rewrite <- dc_has_seen_spec. destruct (dc_has_seen c d); split; congruence. Qed.

Lemma elem_of_combined c1 c2 A B d :
  d ∈ combined_dots c1 c2 A B <->
  (d ∈ A /\ (~ seen c2 d \/ d ∈ B)) \/ (d ∈ B /\ (~ seen c1 d \/ d ∈ A)).
Proof.
  unfold combined_dots. rewrite elem_of_union, !elem_of_filter, !not_seen. tauto.
Qed.

(** ** The invariant shared by sets and maps *)

Section Observed.
  Context {T : Type} `{Countable T} {O : Type} (addk remk : O -> option T).
  Implicit Types (h : history O) (K L : gset nat) (E : gmap T (gset dot)) (c : dotctx).

  Definition isadd (x : opinfo O) : N := match addk (op_op x) with Some _ => 1 | None => 0 end.

  (** Add [i] of [k] is alive: known, and no known removal of [k] had seen it. *)
  Definition alive h K (k : T) (i : nat) : Prop :=
    exists x, i ∈ K /\ h !! i = Some x /\ addk (op_op x) = Some k /\
      forall j y, j ∈ K -> h !! j = Some y -> remk (op_op y) = Some k -> i ∉ op_past y.

  Definition dot_at h (i : nat) : dot :=
    match h !! i with Some x => (op_origin x, rank isadd h i) | None => (0, 0)%N end.

  Record oinv h K E c : Prop := {
    oi_cloud : dc_cloud c = ∅;
    oi_nz : forall q, dc_clock c !! q <> Some 0%N;
    oi_clock : forall q, vc_get (dc_clock c) q = sum_known (only q isadd) h K;
    oi_ne : forall k, E !! k <> Some ∅;
    oi_dots : forall k d, d ∈ dots_of E k <-> exists i, alive h K k i /\ d = dot_at h i }.

  Lemma isadd_some x k : addk (op_op x) = Some k -> isadd x <> 0%N.
  Proof. unfold isadd. intros ->. discriminate. Qed.

  Lemma oinv_seen h K E c i x k :
    wf h -> closed h K -> oinv h K E c -> h !! i = Some x -> addk (op_op x) = Some k ->
    seen c (dot_at h i) <-> i ∈ K.
  Proof.
    intros W C I Hx Ha. unfold seen, dot_at. rewrite Hx, (oi_cloud _ _ _ _ I), (oi_clock _ _ _ _ I). simpl.
    rewrite (rank_known isadd h K i x W C Hx (isadd_some x k Ha)). set_solver.
  Qed.

  Lemma dot_at_inj h i j x y k k' :
    wf h -> h !! i = Some x -> h !! j = Some y -> addk (op_op x) = Some k -> addk (op_op y) = Some k' ->
    dot_at h i = dot_at h j -> i = j.
  Proof.
    intros W Hx Hy Ha Hb. unfold dot_at. rewrite Hx, Hy. intros E. injection E as E1 E2.
    eapply (rank_inj isadd h i j x y); eauto using isadd_some.
  Qed.

  Lemma dots_nonempty E k : (forall k, E !! k <> Some ∅) -> E !! k = None <-> dots_of E k = ∅.
  Proof.
    intros NE. unfold dots_of. destruct (E !! k) as [D|] eqn:Ek; simpl; [|split; reflexivity].
    split; [discriminate|]. intros ->. exfalso. exact (NE k Ek).
  Qed.

  Lemma oinv_det h K E E' c c' : oinv h K E c -> oinv h K E' c' -> E = E' /\ c = c'.
  Proof.
    intros [A1 A2 A3 A4 A5] [B1 B2 B3 B4 B5]. split.
    - apply map_eq. intros k.
      assert (D : dots_of E k = dots_of E' k) by (apply set_eq; intros d; now rewrite A5, B5).
      destruct (E !! k) as [x|] eqn:Ex; destruct (E' !! k) as [y|] eqn:Ey.
      + unfold dots_of in D. rewrite Ex, Ey in D. simpl in D. congruence.
      + exfalso. apply (dots_nonempty E' k B4) in Ey. rewrite <- D in Ey.
        apply (dots_nonempty E k A4) in Ey. congruence.
      + exfalso. apply (dots_nonempty E k A4) in Ex. rewrite D in Ex.
        apply (dots_nonempty E' k B4) in Ex. congruence.
      + reflexivity.
    - destruct c as [ck cc], c' as [ck' cc']; simpl in *. subst. f_equal. apply map_eq. intros q.
      specialize (A2 q). specialize (B2 q). specialize (A3 q). specialize (B3 q). rewrite <- B3 in A3.
      unfold vc_get in A3. destruct (ck !! q), (ck' !! q); simpl in *; congruence.
  Qed.

  Lemma oinv_init : oinv [] ∅ ∅ dc_empty.
  Proof.
    split; simpl.
    - reflexivity.
    - intros q. rewrite lookup_empty. discriminate.
    - intros q. apply vc_get_empty.
    - intros k. rewrite lookup_empty. discriminate.
    - intros k d. unfold dots_of. rewrite lookup_empty. simpl. split; [set_solver|].
      intros (i & (x & Hi & _) & _). set_solver.
  Qed.

  Lemma dot_at_mono h x i : wf h -> i < length h -> dot_at (h ++ [x]) i = dot_at h i.
  Proof.
    intros W Hi. unfold dot_at. rewrite lookup_app_l by exact Hi.
    destruct (h !! i) as [y|] eqn:Hy; [|reflexivity]. now rewrite rank_mono_hist.
  Qed.

  Lemma alive_mono h x K k i : closed h K -> alive (h ++ [x]) K k i <-> alive h K k i.
  Proof.
    intros C. split; intros (y & Hi & Hy & Ha & Hr); exists y; pose proof (proj1 C i Hi) as Hl.
    - rewrite lookup_app_l in Hy by exact Hl. repeat split; try assumption.
      intros j z Hj Hz. apply (Hr j z Hj). now apply lookup_app_l_Some.
    - repeat split; try assumption; [now apply lookup_app_l_Some|].
      intros j z Hj Hz. rewrite lookup_app_l in Hz by (apply (proj1 C); exact Hj). eauto.
  Qed.

  Lemma oinv_mono h x K E c : wf h -> closed h K -> oinv h K E c -> oinv (h ++ [x]) K E c.
  Proof.
    intros W C I. split; try apply I.
    - intros q. rewrite sum_known_mono_hist by exact C. apply I.
    - intros k d. rewrite (oi_dots _ _ _ _ I). split; intros (i & Ha & ->); exists i.
      + split; [now apply alive_mono|]. symmetry. apply dot_at_mono; [exact W|].
        destruct Ha as (y & Hi & _). now apply (proj1 C).
      + apply (alive_mono h x K k i C) in Ha. split; [exact Ha|]. apply dot_at_mono; [exact W|].
        destruct Ha as (y & Hi & _). now apply (proj1 C).
  Qed.

  (** What is alive after one more operation at a replica knowing [K]. *)
  Lemma alive_snoc h K q o k i :
    closed h K ->
    alive (h ++ [{| op_origin := q; op_op := o; op_past := K |}]) (K ∪ {[length h]}) k i <->
    (i = length h /\ addk o = Some k) \/ (alive h K k i /\ remk o <> Some k).
  Proof.
    intros C. set (x := {| op_origin := q; op_op := o; op_past := K |}).
    assert (Hx : (h ++ [x]) !! length h = Some x) by (rewrite lookup_app_r, Nat.sub_diag by lia; reflexivity).
    split.
    - intros (y & Hi & Hy & Ha & Hr). apply elem_of_union in Hi as [Hi|Hi].
      + right. pose proof (proj1 C i Hi) as Hl. rewrite lookup_app_l in Hy by exact Hl. split.
        * exists y. repeat split; try assumption. intros j z Hj Hz.
          apply (Hr j z); [set_solver|]. now apply lookup_app_l_Some.
        * intros E. apply (Hr (length h) x); [set_solver|exact Hx|exact E|exact Hi].
      + apply elem_of_singleton in Hi. subst i. left. split; [reflexivity|].
        assert (y = x) by congruence. subst y. exact Ha.
    - intros [[-> Ha]|[(y & Hi & Hy & Ha & Hr) Hn]].
      + exists x. split; [set_solver|]. split; [exact Hx|]. split; [exact Ha|].
        intros j z Hj Hz Hz' Hp. apply elem_of_union in Hj as [Hj|Hj].
        * pose proof (proj1 C j Hj). rewrite lookup_app_l in Hz by lia.
          apply (proj2 C j z Hj Hz) in Hp. apply (proj1 C) in Hp. lia.
        * apply elem_of_singleton in Hj. subst j. assert (z = x) by congruence. subst z.
          simpl in Hp. apply (proj1 C) in Hp. lia.
      + exists y. pose proof (proj1 C i Hi) as Hl. split; [set_solver|].
        split; [now apply lookup_app_l_Some|]. split; [exact Ha|].
        intros j z Hj Hz Hz'. apply elem_of_union in Hj as [Hj|Hj].
        * rewrite lookup_app_l in Hz by (apply (proj1 C); exact Hj). eauto.
        * apply elem_of_singleton in Hj. subst j. assert (z = x) by congruence. subst z. simpl in Hz'. tauto.
  Qed.

  Lemma dot_at_new h K q o k E c :
    closed h K -> oinv h K E c -> addk o = Some k ->
    dot_at (h ++ [{| op_origin := q; op_op := o; op_past := K |}]) (length h) =
    (q, (vc_get (dc_clock c) q + 1)%N).
  Proof.
    intros C I Ha. unfold dot_at. rewrite lookup_app_r, Nat.sub_diag by lia. simpl.
    rewrite rank_new by exact C. rewrite (oi_clock _ _ _ _ I). unfold isadd. simpl. now rewrite Ha.
  Qed.

  Lemma oinv_add h K E c q o k :
    wf h -> closed h K -> oinv h K E c -> addk o = Some k -> remk o = None ->
    oinv (h ++ [{| op_origin := q; op_op := o; op_past := K |}]) (K ∪ {[length h]})
         (<[k := {[(dc_next c q).2]} ∪ dots_of E k]> E) (dc_next c q).1.
  Proof.
    intros W C I Ha Hr. pose proof (dot_at_new h K q o k E c C I Ha) as Hd.
    set (x := {| op_origin := q; op_op := o; op_past := K |}) in *.
    assert (Hn : (dc_next c q).2 = (q, (vc_get (dc_clock c) q + 1)%N)).
    { unfold dc_next; simpl. rewrite vc_get_increment. now rewrite decide_True. }
    split.
    - apply I.
    - intros p. simpl. unfold vc_increment. destruct (decide (p = q)) as [->|Hp].
      + rewrite lookup_insert. intros Z. injection Z as Z. lia.
      + rewrite lookup_insert_ne by auto. apply I.
    - intros p. simpl. rewrite vc_get_increment, sum_known_snoc, (oi_clock _ _ _ _ I) by exact C.
      unfold only, isadd. subst x. simpl. rewrite Ha. repeat case_decide; congruence || reflexivity.
    - intros k'. destruct (decide (k' = k)) as [->|Hk].
      + rewrite lookup_insert. intros Z. injection Z as Z. set_solver.
      + rewrite lookup_insert_ne by auto. apply I.
    - intros k' d. 
      assert (HA : forall i, alive (h ++ [x]) (K ∪ {[length h]}) k' i <->
        (i = length h /\ addk o = Some k') \/ (alive h K k' i /\ remk o <> Some k'))
        by (intros; apply alive_snoc; exact C).
      setoid_rewrite HA.
      assert (Hold : forall i, alive h K k' i -> dot_at (h ++ [x]) i = dot_at h i).
      { intros i (y & Hi & _). apply dot_at_mono; [exact W|]. now apply (proj1 C). }
      unfold dots_of. destruct (decide (k' = k)) as [->|Hk].
      + rewrite lookup_insert. simpl. fold (dots_of E k). rewrite elem_of_union, elem_of_singleton.
        rewrite (oi_dots _ _ _ _ I). split.
        * intros [->|(i & Hi & ->)].
          -- exists (length h). split; [left; auto|]. rewrite Hd. exact Hn.
          -- exists i. split; [right; split; [exact Hi|congruence]|]. symmetry. auto.
        * intros (i & [[-> _]|[Hi _]] & ->).
          -- left. rewrite Hd. symmetry. exact Hn.
          -- right. exists i. auto.
      + rewrite lookup_insert_ne by auto. fold (dots_of E k'). rewrite (oi_dots _ _ _ _ I). split.
        * intros (i & Hi & ->). exists i. split; [right; split; [exact Hi|congruence]|]. symmetry. auto.
        * intros (i & [[-> E']|[Hi _]] & ->); [congruence|]. exists i. auto.
  Qed.

  Lemma oinv_remove h K E c q o k :
    wf h -> closed h K -> oinv h K E c -> addk o = None -> remk o = Some k ->
    oinv (h ++ [{| op_origin := q; op_op := o; op_past := K |}]) (K ∪ {[length h]}) (delete k E) c.
  Proof.
    intros W C I Ha Hr. set (x := {| op_origin := q; op_op := o; op_past := K |}) in *. split.
    - apply I.
    - apply I.
    - intros p. rewrite sum_known_snoc, (oi_clock _ _ _ _ I) by exact C.
      unfold only, isadd. subst x. simpl. rewrite Ha. case_decide; lia.
    - intros k'. destruct (decide (k' = k)) as [->|Hk].
      + rewrite lookup_delete. discriminate.
      + rewrite lookup_delete_ne by auto. apply I.
    - intros k' d. 
      assert (HA : forall i, alive (h ++ [x]) (K ∪ {[length h]}) k' i <->
        (i = length h /\ addk o = Some k') \/ (alive h K k' i /\ remk o <> Some k'))
        by (intros; apply alive_snoc; exact C).
      setoid_rewrite HA.
      assert (Hold : forall i, alive h K k' i -> dot_at (h ++ [x]) i = dot_at h i).
      { intros i (y & Hi & _). apply dot_at_mono; [exact W|]. now apply (proj1 C). }
      unfold dots_of. destruct (decide (k' = k)) as [->|Hk].
      + rewrite lookup_delete. simpl. split; [set_solver|].
        intros (i & [[_ ?]|[_ ?]] & _); congruence.
      + rewrite lookup_delete_ne by auto. fold (dots_of E k'). rewrite (oi_dots _ _ _ _ I). split.
        * intros (i & Hi & ->). exists i. split; [right; split; [exact Hi|congruence]|]. symmetry. auto.
        * intros (i & [[-> E']|[Hi _]] & ->); [congruence|]. exists i. auto.
  Qed.

  Lemma oinv_neither h K E c q o :
    wf h -> closed h K -> oinv h K E c -> addk o = None -> remk o = None ->
    oinv (h ++ [{| op_origin := q; op_op := o; op_past := K |}]) (K ∪ {[length h]}) E c.
  Proof.
    intros W C I Ha Hr. set (x := {| op_origin := q; op_op := o; op_past := K |}) in *. split.
    - apply I.
    - apply I.
    - intros p. rewrite sum_known_snoc, (oi_clock _ _ _ _ I) by exact C.
      unfold only, isadd. subst x. simpl. rewrite Ha. case_decide; lia.
    - apply I.
    - intros k' d. 
      assert (HA : forall i, alive (h ++ [x]) (K ∪ {[length h]}) k' i <->
        (i = length h /\ addk o = Some k') \/ (alive h K k' i /\ remk o <> Some k'))
        by (intros; apply alive_snoc; exact C).
      setoid_rewrite HA.
      assert (Hold : forall i, alive h K k' i -> dot_at (h ++ [x]) i = dot_at h i).
      { intros i (y & Hi & _). apply dot_at_mono; [exact W|]. now apply (proj1 C). }
      rewrite (oi_dots _ _ _ _ I). split.
      + intros (i & Hi & ->). exists i. split; [right; split; [exact Hi|congruence]|]. symmetry. auto.
      + intros (i & [[-> E']|[Hi _]] & ->); [congruence|]. exists i. auto.
  Qed.

  Lemma oinv_merge h K L E1 E2 E3 c1 c2 :
    wf h -> closed h K -> closed h L -> oinv h K E1 c1 -> oinv h L E2 c2 ->
    (forall k, E3 !! k <> Some ∅) ->
    (forall k d, d ∈ dots_of E3 k <->
      (d ∈ dots_of E1 k /\ (~ seen c2 d \/ d ∈ dots_of E2 k)) \/
      (d ∈ dots_of E2 k /\ (~ seen c1 d \/ d ∈ dots_of E1 k))) ->
    oinv h (K ∪ L) E3 (dc_merge c1 c2).
  Proof.
    intros W CK CL I J NE Hd.
    rewrite merge_nocloud by (apply I || apply J). split; simpl.
    - reflexivity.
    - intros q. unfold vc_merge. rewrite max_merge_lookup.
      pose proof (oi_nz _ _ _ _ I q) as A. pose proof (oi_nz _ _ _ _ J q) as B.
      destruct (dc_clock c1 !! q) as [a|], (dc_clock c2 !! q) as [b|]; simpl; try congruence;
        intros Z; injection Z as Z; first [apply A; f_equal; lia | apply B; f_equal; lia].
    - intros q. rewrite vc_get_merge, (oi_clock _ _ _ _ I), (oi_clock _ _ _ _ J).
      symmetry. apply (sum_known_union h K L (only q isadd) q W CK CL).
      intros x Hx. unfold only. now rewrite decide_False.
    - exact NE.
    - intros k d. rewrite Hd. clear Hd NE E3.
      assert (U : forall i, alive h (K ∪ L) k i <->
         (alive h K k i /\ (i ∉ L \/ alive h L k i)) \/ (alive h L k i /\ (i ∉ K \/ alive h K k i))).
      { assert (Half : forall M N i, closed h M -> closed h N -> alive h M k i ->
           (i ∉ N \/ alive h N k i) -> forall j y, j ∈ M ∪ N -> h !! j = Some y ->
           remk (op_op y) = Some k -> i ∉ op_past y).
        { intros M N i CM CN (x & Hi & Hx & Ha & Hr) HN j y Hj Hy Hry Hp.
          apply elem_of_union in Hj as [Hj|Hj]; [exact (Hr j y Hj Hy Hry Hp)|].
          destruct HN as [HN|(x' & _ & _ & _ & Hr')].
          - apply HN. exact (proj2 CN j y Hj Hy i Hp).
          - exact (Hr' j y Hj Hy Hry Hp). }
        intros i. split.
        - intros (x & Hi & Hx & Ha & Hr).
          assert (AK : i ∈ K -> alive h K k i).
          { intros HK. exists x. repeat split; try assumption. intros j y Hj. apply Hr. set_solver. }
          assert (AL : i ∈ L -> alive h L k i).
          { intros HL. exists x. repeat split; try assumption. intros j y Hj. apply Hr. set_solver. }
          apply elem_of_union in Hi as [Hi|Hi].
          + left. split; [auto|]. destruct (decide (i ∈ L)); auto.
          + right. split; [auto|]. destruct (decide (i ∈ K)); auto.
        - intros [[A B]|[A B]].
          + pose proof (Half K L i CK CL A B) as Hr. destruct A as (x & Hi & Hx & Ha & _).
            exists x. repeat split; try assumption. set_solver.
          + pose proof (Half L K i CL CK A B) as Hr. destruct A as (x & Hi & Hx & Ha & _).
            exists x. repeat split; try assumption; [set_solver|]. intros j y Hj. apply Hr. set_solver. }
      rewrite (oi_dots _ _ _ _ I), (oi_dots _ _ _ _ J). setoid_rewrite U. clear U.
      assert (S1 : forall i, alive h K k i -> seen c2 (dot_at h i) <-> i ∈ L).
      { intros i (x & _ & Hx & Ha & _). eapply oinv_seen; eauto. }
      assert (S2 : forall i, alive h L k i -> seen c1 (dot_at h i) <-> i ∈ K).
      { intros i (x & _ & Hx & Ha & _). eapply oinv_seen; eauto. }
      assert (Same : forall i j, alive h K k i -> alive h L k j -> dot_at h i = dot_at h j -> i = j).
      { intros i j (x & _ & Hx & Ha & _) (y & _ & Hy & Hb & _). eapply dot_at_inj; eauto. }
      split.
      + intros [[(i & Hi & ->) B]|[(i & Hi & ->) B]]; exists i; (split; [|reflexivity]).
        * left. split; [exact Hi|]. destruct B as [B|(j & Hj & E)].
          -- left. rewrite <- (S1 i Hi). exact B.
          -- right. rewrite (Same i j Hi Hj E). exact Hj.
        * right. split; [exact Hi|]. destruct B as [B|(j & Hj & E)].
          -- left. rewrite <- (S2 i Hi). exact B.
          -- right. rewrite <- (Same j i Hj Hi (eq_sym E)). exact Hj.
      + intros (i & [[A B]|[A B]] & ->).
        * left. split; [eauto|]. destruct B as [B|B]; [left; rewrite (S1 i A); exact B|right; eauto].
        * right. split; [eauto|]. destruct B as [B|B]; [left; rewrite (S2 i A); exact B|right; eauto].
  Qed.

  Lemma oinv_contains h K E c k :
    oinv h K E c ->
    match E !! k with None => false | Some dots => negb (bool_decide (dots = ∅)) end = true <->
    exists i, alive h K k i.
  Proof.
    intros I. pose proof (oi_dots _ _ _ _ I k) as D. unfold dots_of in D.
    destruct (E !! k) as [ds|] eqn:Ek; simpl in D.
    - rewrite negb_true_iff, bool_decide_eq_false. split.
      + intros Hne. apply set_choose_L in Hne as [d Hd]. apply D in Hd as (i & Hi & _). eauto.
      + intros (i & Hi) ->. assert (dot_at h i ∈ (∅ : gset dot)) by (apply D; eauto). set_solver.
    - split; [discriminate|]. intros (i & Hi).
      assert (dot_at h i ∈ (∅ : gset dot)) by (apply D; eauto). set_solver.
  Qed.
End Observed.

(** ** Sets *)

Inductive setop (T : Type) := SAdd (v : T) | SRemove (v : T).
Arguments SAdd {T} v.
Arguments SRemove {T} v.

Section Sets.
  Context {T : Type} `{Countable T}.

  Definition os_apply (o : setop T) (s : orset T) : orset T :=
    match o with SAdd v => os_add v s | SRemove v => os_remove v s end.
  Definition s_add (o : setop T) : option T := match o with SAdd v => Some v | SRemove _ => None end.
  Definition s_rem (o : setop T) : option T := match o with SAdd _ => None | SRemove v => Some v end.

  Lemma os_merge_lookup B (s t : orset T) v :
    os_entries (os_merge B s t) !! v =
    let D := os_merge_dots B (os_ctx s) (os_ctx t) (dots_of (os_entries s) v) (dots_of (os_entries t) v) in
    if decide (v ∈ (dom (os_entries s) ∪ dom (os_entries t) : gset T)) then
      (if decide (D = ∅) then None else Some D)
    else None.
  Proof.
    unfold os_merge. cbn [os_entries]. rewrite map_filter_lookup.
    set (keys := elements (_ : gset T)).
    pose proof (fold_insert_lookup (fun k o => os_merge_dots B (os_ctx s) (os_ctx t) (default ∅ o)
       (dots_of (os_entries t) k)) keys (os_entries s) v (NoDup_elements _)) as F.
    change (fold_left (os_merge_key B s t) keys (os_entries s) !! v =
      if decide (v ∈ keys) then Some (os_merge_dots B (os_ctx s) (os_ctx t) (dots_of (os_entries s) v)
       (dots_of (os_entries t) v)) else os_entries s !! v) in F.
    rewrite F. unfold keys. destruct (decide (v ∈ elements _)) as [E|E]; rewrite elem_of_elements in E.
    - rewrite (decide_True (P := v ∈ dom (os_entries s) ∪ dom (os_entries t))) by exact E. simpl.
      destruct (decide (os_merge_dots B (os_ctx s) (os_ctx t) (dots_of (os_entries s) v) (dots_of (os_entries t) v) = ∅)) as [G|G].
      { rewrite option_guard_False; [reflexivity|]. intros G'. exact (G' G). }
      { rewrite option_guard_True; [reflexivity|exact G]. }
    - rewrite (decide_False (P := v ∈ dom (os_entries s) ∪ dom (os_entries t))) by exact E.
      assert (os_entries s !! v = None) as ->; [|reflexivity].
      apply not_elem_of_dom. set_solver.
  Qed.

  Lemma os_merge_dots_of B (s t : orset T) v :
    (forall m1 m2, B false false m1 m2 = false) ->
    dots_of (os_entries (os_merge B s t)) v =
    os_merge_dots B (os_ctx s) (os_ctx t) (dots_of (os_entries s) v) (dots_of (os_entries t) v).
  Proof.
    intros HB. unfold dots_of at 1. rewrite os_merge_lookup. simpl.
    case_decide as E.
    - case_decide as F; [now rewrite F|reflexivity].
    - simpl. assert (A1 : dots_of (os_entries s) v = ∅).
      { unfold dots_of. assert (os_entries s !! v = None) as -> by (apply not_elem_of_dom; set_solver). reflexivity. }
      assert (A2 : dots_of (os_entries t) v = ∅).
      { unfold dots_of. assert (os_entries t !! v = None) as -> by (apply not_elem_of_dom; set_solver). reflexivity. }
      rewrite A1, A2. unfold os_merge_dots. rewrite !bool_decide_true by reflexivity. simpl.
      rewrite HB. reflexivity.
  Qed.

  Lemma os_merge_ne B (s t : orset T) v : os_entries (os_merge B s t) !! v <> Some ∅.
  Proof. rewrite os_merge_lookup. simpl. repeat case_decide; congruence. Qed.

  Lemma add_wins_merge (s t : orset T) v d :
    d ∈ dots_of (os_entries (os_merge add_wins s t)) v <->
      (d ∈ dots_of (os_entries s) v /\ (~ seen (os_ctx t) d \/ d ∈ dots_of (os_entries t) v)) \/
      (d ∈ dots_of (os_entries t) v /\ (~ seen (os_ctx s) d \/ d ∈ dots_of (os_entries s) v)).
  Proof.
    rewrite os_merge_dots_of by reflexivity. unfold os_merge_dots, add_wins.
    set (A := dots_of (os_entries s) v). set (B := dots_of (os_entries t) v).
    rewrite <- elem_of_combined.
    destruct (negb (bool_decide (A = ∅)) || negb (bool_decide (B = ∅))) eqn:E; [reflexivity|].
    apply orb_false_iff in E as [E1 E2]. apply negb_false_iff, bool_decide_eq_true in E1, E2.
    rewrite elem_of_combined, E1, E2. set_solver.
  Qed.

  Definition os_inv (h : history (setop T)) (K : gset nat) (s : orset T) : Prop :=
    oinv s_add s_rem h K (os_entries s) (os_ctx s).

  Lemma os_inv_merge h K L s t :
    wf h -> closed h K -> closed h L -> os_inv h K s -> os_inv h L t -> os_inv h (K ∪ L) (os_merge add_wins s t).
  Proof.
    intros W CK CL I J. unfold os_inv.
    change (os_ctx (os_merge add_wins s t)) with (dc_merge (os_ctx s) (os_ctx t)).
    eapply oinv_merge; eauto using os_merge_ne. intros; apply add_wins_merge.
  Qed.

  Lemma os_run (evs : list (event (setop T))) r :
    os_inv (hist_of evs) (known_by evs r) (state_at os_new os_apply (os_merge add_wins) evs r).
  Proof.
    pose proof (replication_invariant (S := orset T) os_new os_apply (os_merge add_wins) os_id os_inv) as R.
    apply R; clear R.
    - reflexivity.
    - intros [v|v] s; reflexivity.
    - reflexivity.
    - intros q. apply oinv_init.
    - intros h x K s W C I. now apply oinv_mono.
    - intros h [v|v] K s W C _ I; unfold os_inv; simpl.
      + apply (oinv_add s_add s_rem h K (os_entries s) (os_ctx s) (os_id s) (SAdd v) v W C I); reflexivity.
      + apply (oinv_remove s_add s_rem h K (os_entries s) (os_ctx s) (os_id s) (SRemove v) v W C I); reflexivity.
    - intros h K L s t W CK CL I J. now apply os_inv_merge.
  Qed.

  Lemma os_contains_known (evs : list (event (setop T))) r v :
    os_contains (state_at os_new os_apply (os_merge add_wins) evs r) v = true <->
    exists i x, i ∈ known_by evs r /\ hist_of evs !! i = Some x /\ op_op x = SAdd v /\
      forall j y, j ∈ known_by evs r -> hist_of evs !! j = Some y -> op_op y = SRemove v -> i ∉ op_past y.
  Proof.
    unfold os_contains. rewrite (oinv_contains s_add s_rem _ _ _ _ v (os_run evs r)).
    split.
    - intros (i & x & Hi & Hx & Ha & Hr). exists i, x. split; [exact Hi|]. split; [exact Hx|]. split.
      + destruct (op_op x); simpl in Ha; congruence.
      + intros j y Hj Hy E. apply (Hr j y Hj Hy). now rewrite E.
    - intros (i & x & Hi & Hx & Ha & Hr). exists i, x. split; [exact Hi|]. split; [exact Hx|].
      split; [now rewrite Ha|]. intros j y Hj Hy E. apply (Hr j y Hj Hy).
      destruct (op_op y); simpl in E; congruence.
  Qed.

  Lemma NoDup_filter_fst {A B} (P : A * B -> Prop) `{forall x, Decision (P x)} l :
    NoDup l.*1 -> NoDup (filter P l).*1.
  Proof.
    induction l as [|[x y] l IH]; intros ND; simpl in *; [constructor|].
    apply NoDup_cons in ND as [Hx ND]. rewrite filter_cons. case_decide; [|auto]. simpl.
    constructor; [|auto]. intros E. apply Hx. apply elem_of_list_fmap in E as (e & -> & He).
    apply elem_of_list_filter in He as [_ He]. apply elem_of_list_fmap. eauto.
  Qed.

  Lemma os_len_contains (s : orset T) :
    exists l, NoDup l /\ length l = os_len s /\ forall v, v ∈ l <-> os_contains s v = true.
  Proof.
    exists (filter (fun e : T * gset dot => e.2 <> ∅) (map_to_list (os_entries s))).*1.
    assert (ND : NoDup (filter (fun e : T * gset dot => e.2 <> ∅) (map_to_list (os_entries s))).*1).
    { apply NoDup_filter_fst, NoDup_fst_map_to_list. }
    split; [exact ND|]. split.
    - rewrite fmap_length. unfold os_len.
      clear ND. induction (map_to_list (os_entries s)) as [|e l IH]; [reflexivity|].
      rewrite fmap_cons, !filter_cons. destruct (decide (e.2 <> ∅)) as [D|D].
      + cbn [length]. now rewrite IH.
      + exact IH.
    - intros v. rewrite elem_of_list_fmap. unfold os_contains. split.
      + intros ([w D] & -> & He). apply elem_of_list_filter in He as [Hne He].
        apply elem_of_map_to_list in He. simpl in *. rewrite He.
        now apply negb_true_iff, bool_decide_eq_false.
      + destruct (os_entries s !! v) as [D|] eqn:E; [|discriminate]. intros Hne.
        apply negb_true_iff, bool_decide_eq_false in Hne. exists (v, D). split; [reflexivity|].
        apply elem_of_list_filter. split; [exact Hne|]. now apply elem_of_map_to_list.
  Qed.
End Sets.
