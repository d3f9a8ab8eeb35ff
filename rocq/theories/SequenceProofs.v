(** Replicated sequences: the display order. *)
From stdpp Require Import gmap.
From Verif Require Import CrdtModel StableSort SequenceModel.

Lemma rid_leb_spec a b : rid_leb a b = true <-> (a.1 < b.1)%N \/ (a.1 = b.1 /\ (a.2 <= b.2)%N).
Proof.
  unfold rid_leb. rewrite orb_true_iff, andb_true_iff, N.ltb_lt, N.eqb_eq, N.leb_le. tauto.
Qed.
Lemma rid_leb_total a b : rid_leb a b = true \/ rid_leb b a = true.
Proof. rewrite !rid_leb_spec. lia. Qed.
Lemma rid_leb_trans a b c : rid_leb a b = true -> rid_leb b c = true -> rid_leb a c = true.
Proof. rewrite !rid_leb_spec. lia. Qed.
Lemma rid_leb_antisym a b : rid_leb a b = true -> rid_leb b a = true -> a = b.
Proof. rewrite !rid_leb_spec. destruct a, b; simpl. intros. f_equal; lia. Qed.

Section Order.
  Context {T : Type}.
  Implicit Types l : list (node T).
  Notation desc := (fun a b : node T => rid_leb (n_id b) (n_id a)).

  Lemma ids_inj l a b : NoDup (n_id <$> l) -> a ∈ l -> b ∈ l -> n_id a = n_id b -> a = b.
  Proof.
    induction l as [|x l IH]; intros ND Ha Hb E; [inversion Ha|].
    simpl in ND. apply NoDup_cons in ND as [Nx ND].
    apply elem_of_cons in Ha as [->|Ha], Hb as [Hb|Hb]; subst; auto.
    - exfalso. apply Nx. rewrite E. now apply elem_of_list_fmap_1.
    - exfalso. apply Nx. rewrite <- E. now apply elem_of_list_fmap_1.
  Qed.

  Lemma desc_ordered l : ordered desc (sort_by desc l).
  Proof.
    apply sort_by_ordered.
    - intros a b. destruct (rid_leb_total (n_id a) (n_id b)); auto.
    - intros a b c H1 H2. exact (rid_leb_trans _ _ _ H2 H1).
  Qed.

  Lemma desc_unique l l' :
    NoDup (n_id <$> l) -> ordered desc l -> ordered desc l' -> l ≡ₚ l' -> l = l'.
  Proof.
    intros ND S S' P. apply (ordered_unique desc); auto.
    intros a b Ha Hb H1 H2. apply (ids_inj l); auto. now apply rid_leb_antisym.
  Qed.

  Lemma NoDup_ids_filter (P : node T -> Prop) `{forall x, Decision (P x)} l :
    NoDup (n_id <$> l) -> NoDup (n_id <$> filter P l).
  Proof.
    induction l as [|x l IH]; intros ND; [constructor|]. simpl in ND. apply NoDup_cons in ND as [Nx ND].
    rewrite filter_cons. case_decide; [|auto]. simpl. constructor; [|auto].
    intros E. apply Nx. apply elem_of_list_fmap in E as (y & -> & Hy). apply elem_of_list_filter in Hy.
    apply elem_of_list_fmap_1. tauto.
  Qed.
  Lemma NoDup_ids_perm l l' : l ≡ₚ l' -> NoDup (n_id <$> l) -> NoDup (n_id <$> l').
  Proof. intros P. now rewrite P. Qed.

  Lemma elem_of_children l p n : n ∈ children l p <-> n ∈ l /\ n_parent n = p.
  Proof. unfold children. rewrite elem_of_sort_by, elem_of_list_filter. tauto. Qed.

  Lemma children_ids l p : NoDup (n_id <$> l) -> NoDup (n_id <$> children l p).
  Proof.
    intros ND. eapply NoDup_ids_perm; [symmetry; apply sort_by_perm|]. now apply NoDup_ids_filter.
  Qed.

  Lemma children_perm l l' p : NoDup (n_id <$> l) -> l ≡ₚ l' -> children l p = children l' p.
  Proof.
    intros ND P. apply desc_unique.
    - now apply children_ids.
    - apply desc_ordered.
    - apply desc_ordered.
    - unfold children. rewrite !sort_by_perm. now rewrite P.
  Qed.

  (** ** The traversal, without fuel *)

  Inductive walk (ch : option rid -> list (node T)) : list (node T) -> list (node T) -> Prop :=
  | walk_nil : walk ch [] []
  | walk_cons n rest out : walk ch (ch (Some (n_id n)) ++ rest) out -> walk ch (n :: rest) (n :: out).

  Lemma loop_walk l stack out fuel result :
    walk (children l) stack out -> length out <= fuel -> rg_loop fuel l stack result = result ++ out.
  Proof.
    intros W. revert fuel result. induction W as [|n rest out W IH]; intros fuel result Hf.
    - rewrite app_nil_r. now destruct fuel.
    - destruct fuel as [|fuel]; simpl in Hf; [lia|]. simpl. rewrite IH by lia. now rewrite <- app_assoc.
  Qed.

  (** What makes a node list a tree: distinct ids, and every parent present and older. *)
  Definition tree l : Prop :=
    NoDup (n_id <$> l) /\
    forall n p, n ∈ l -> n_parent n = Some p -> exists m, m ∈ l /\ n_id m = p /\ (p.1 < (n_id n).1)%N.

  Lemma tree_perm l l' : l ≡ₚ l' -> tree l -> tree l'.
  Proof.
    intros P [ND Par]. split; [exact (NoDup_ids_perm l l' P ND)|].
    intros n p Hn Hp. rewrite <- P in Hn. destruct (Par n p Hn Hp) as (m & Hm & E). exists m. now rewrite <- P.
  Qed.

  Lemma walk_exists l v stack :
    tree l -> NoDup (n_id <$> (v ++ stack)) ->
    (forall m, m ∈ v ++ stack <-> m ∈ l /\ (n_parent m = None \/ exists n, n ∈ v /\ n_parent m = Some (n_id n))) ->
    exists out, walk (children l) stack out /\ v ++ out ≡ₚ l.
  Proof.
    intros [NDl Par].
    assert (Wf : forall v stack, NoDup (n_id <$> (v ++ stack)) -> (forall m, m ∈ v ++ stack -> m ∈ l) ->
      length (v ++ stack) <= length l).
    { intros v0 st0 ND Sub. apply submseteq_length, NoDup_submseteq; [|exact Sub]. eapply NoDup_fmap_1; exact ND. }
    remember (length l - length v) as k eqn:Ek. revert v stack Ek.
    induction k as [k IH] using lt_wf_ind. intros v stack Ek ND Mem.
    destruct stack as [|n rest].
    - exists []. split; [constructor|]. rewrite app_nil_r in *.
      assert (Cl : forall t m, m ∈ l -> ((n_id m).1 < t)%N -> m ∈ v).
      { intros t. induction t as [|t IHt] using N.peano_ind; intros m Hm Ht; [lia|].
        apply Mem. split; [exact Hm|]. destruct (n_parent m) as [p|] eqn:Ep; [|auto]. right.
        destruct (Par m p Hm Ep) as (q & Hq & Eq & Hlt). exists q. split; [|now rewrite Eq].
        apply IHt; [exact Hq|]. rewrite Eq. lia. }
      apply NoDup_Permutation.
      + eapply NoDup_fmap_1; exact ND.
      + eapply NoDup_fmap_1; exact NDl.
      + intros m. split; [intros Hm; now apply Mem|]. intros Hm. apply (Cl ((n_id m).1 + 1)%N); [exact Hm|lia].
    - assert (Hlen : length (v ++ n :: rest) <= length l) by (apply Wf; [exact ND|intros m Hm; now apply Mem in Hm]).
      rewrite app_length in Hlen. simpl in Hlen.
      assert (Hn : n ∈ l) by (apply (Mem n); apply elem_of_app; right; left).
      assert (Hnv : forall x, x ∈ v -> n_id x <> n_id n).
      { intros x Hx E. rewrite fmap_app in ND. apply NoDup_app in ND as (_ & D & _).
        apply (D (n_id x)); [now apply elem_of_list_fmap_1|]. rewrite E. simpl. left. }
      destruct (IH (length l - length (v ++ [n]))) with (v := v ++ [n]) (stack := children l (Some (n_id n)) ++ rest)
        as (out & W & P).
      + rewrite app_length. simpl. lia.
      + reflexivity.
      + rewrite <- app_assoc. simpl.
        assert (P : v ++ n :: children l (Some (n_id n)) ++ rest ≡ₚ (v ++ n :: rest) ++ children l (Some (n_id n))).
        { rewrite <- app_assoc. simpl. apply Permutation_app_head. constructor. apply Permutation_app_comm. }
        rewrite P, fmap_app. apply NoDup_app. split; [exact ND|]. split; [|now apply children_ids].
        intros i Hi Hc. apply elem_of_list_fmap in Hi as (a & -> & Ha). apply elem_of_list_fmap in Hc as (b & E & Hb).
        apply elem_of_children in Hb as [Hb Hp].
        assert (a = b) by (apply (ids_inj l); [exact NDl|now apply Mem in Ha|exact Hb|exact E]). subst b.
        apply Mem in Ha as [_ [Ha|(x & Hx & Ha)]]; [congruence|].
        rewrite Hp in Ha. injection Ha as Ha. symmetry in Ha. now apply (Hnv x Hx).
      + intros m. rewrite <- app_assoc. simpl. rewrite elem_of_app, elem_of_cons, elem_of_app, elem_of_children.
        specialize (Mem m). rewrite elem_of_app, elem_of_cons in Mem. split.
        * intros [Hm|[Hm|[[Hm Hp]|Hm]]].
          -- destruct (proj1 Mem (or_introl Hm)) as [A [B|(x & Hx & B)]]; split; auto.
             right. exists x. rewrite elem_of_app. auto.
          -- destruct (proj1 Mem (or_intror (or_introl Hm))) as [A [B|(x & Hx & B)]]; split; auto.
             right. exists x. rewrite elem_of_app. auto.
          -- split; [exact Hm|]. right. exists n. rewrite elem_of_app, elem_of_list_singleton. auto.
          -- destruct (proj1 Mem (or_intror (or_intror Hm))) as [A [B|(x & Hx & B)]]; split; auto.
             right. exists x. rewrite elem_of_app. auto.
        * intros [Hm [Hp|(x & Hx & Hp)]].
          -- destruct (proj2 Mem (conj Hm (or_introl Hp))) as [?|[?|?]]; auto.
          -- apply elem_of_app in Hx as [Hx|Hx].
             ++ destruct (proj2 Mem (conj Hm (or_intror (ex_intro _ x (conj Hx Hp))))) as [?|[?|?]]; auto.
             ++ apply elem_of_list_singleton in Hx. subst x. auto.
      + exists (n :: out). split; [now constructor|]. rewrite <- P. now rewrite <- app_assoc.
  Qed.

  Lemma sorted_walk l : tree l -> walk (children l) (children l None) (rg_sorted l) /\ rg_sorted l ≡ₚ l.
  Proof.
    intros Tr. destruct (walk_exists l [] (children l None) Tr) as (out & W & P).
    - simpl. apply children_ids, Tr.
    - intros m. simpl. rewrite elem_of_children. split; [intros [? ?]; auto|].
      intros [Hm [Hp|(n & Hn & _)]]; [auto|inversion Hn].
    - simpl in P. unfold rg_sorted. rewrite (loop_walk l _ out).
      + simpl. auto.
      + exact W.
      + now rewrite P.
  Qed.

  Lemma walk_det ch st out out' : walk ch st out -> walk ch st out' -> out = out'.
  Proof.
    intros W. revert out'. induction W as [|n rest out W IH]; intros out' W'; inversion W'; subst; [reflexivity|].
    f_equal. auto.
  Qed.

  Lemma walk_ext ch ch' st out : (forall p, ch p = ch' p) -> walk ch st out -> walk ch' st out.
  Proof. intros E W. induction W; constructor. now rewrite <- E. Qed.

  (** The display depends on the set of nodes only. *)
  Lemma sorted_perm l l' : tree l -> l ≡ₚ l' -> rg_sorted l = rg_sorted l'.
  Proof.
    intros Tr P. destruct (sorted_walk l Tr) as [W _]. destruct (sorted_walk l' (tree_perm _ _ P Tr)) as [W' _].
    assert (E : forall p, children l p = children l' p) by (intros; apply children_perm; [apply Tr|exact P]).
    rewrite <- E in W'. eapply walk_det; [exact W|]. eapply walk_ext; [|exact W']. intros p. now rewrite E.
  Qed.

  (** Changing deletion marks (or values) does not move anything. *)
  Lemma children_map (f : node T -> node T) l p :
    (forall n, n_id (f n) = n_id n) -> (forall n, n_parent (f n) = n_parent n) ->
    NoDup (n_id <$> l) -> children (f <$> l) p = f <$> children l p.
  Proof.
    intros Hi Hp ND.
    assert (Ids : forall l0, n_id <$> (f <$> l0) = n_id <$> l0).
    { intros l0. rewrite <- list_fmap_compose. apply list_fmap_ext; intros; apply Hi. }
    apply desc_unique.
    - apply children_ids. now rewrite Ids.
    - apply desc_ordered.
    - pose proof (desc_ordered (filter (fun n => n_parent n = p) l)) as S. fold (children l p) in S.
      induction S as [|x l0 S IH F]; simpl; [constructor|]. constructor; [exact IH|].
      apply Forall_fmap. eapply Forall_impl; [exact F|]. intros z Hz. simpl. rewrite !Hi. exact Hz.
    - unfold children. rewrite sort_by_perm.
      assert (E : filter (fun n => n_parent n = p) (f <$> l) = f <$> filter (fun n => n_parent n = p) l).
      { clear ND. induction l as [|x l IH]; [reflexivity|]. rewrite fmap_cons, !filter_cons, Hp.
        destruct (decide (n_parent x = p)); [rewrite fmap_cons|]; now rewrite IH. }
      rewrite E. now rewrite sort_by_perm.
  Qed.

  Lemma tree_map (f : node T -> node T) l :
    (forall n, n_id (f n) = n_id n) -> (forall n, n_parent (f n) = n_parent n) -> tree l -> tree (f <$> l).
  Proof.
    intros Hi Hp [ND Par]. split.
    - rewrite <- list_fmap_compose. rewrite (list_fmap_ext _ n_id l); [exact ND|intros; apply Hi].
    - intros n p Hn E. apply elem_of_list_fmap in Hn as (m & -> & Hm). rewrite Hp in E. rewrite Hi.
      destruct (Par m p Hm E) as (q & Hq & Eq & Hlt). exists (f q). rewrite Hi. split; [|auto].
      now apply elem_of_list_fmap_1.
  Qed.

  Lemma sorted_map (f : node T -> node T) l :
    (forall n, n_id (f n) = n_id n) -> (forall n, n_parent (f n) = n_parent n) -> tree l ->
    rg_sorted (f <$> l) = f <$> rg_sorted l.
  Proof.
    intros Hi Hp Tr. destruct (sorted_walk l Tr) as [W _].
    destruct (sorted_walk (f <$> l) (tree_map f l Hi Hp Tr)) as [W' _].
    assert (G : forall st out, walk (children l) st out -> walk (children (f <$> l)) (f <$> st) (f <$> out)).
    { induction 1 as [|n rest out _ IH]; simpl; [constructor|]. constructor.
      rewrite Hi, (children_map f l) by (auto; apply Tr). rewrite <- fmap_app. exact IH. }
    eapply walk_det; [exact W'|]. rewrite (children_map f l) by (auto; apply Tr). now apply G.
  Qed.

  (** A node newer than everything goes directly behind its parent. *)
  Definition put_after (p : rid) (x : node T) l : list (node T) :=
    l ≫= fun n => if decide (n_id n = p) then [n; x] else [n].

  Lemma children_snoc l x p :
    NoDup (n_id <$> (l ++ [x])) -> (forall n, n ∈ l -> ((n_id n).1 < (n_id x).1)%N) ->
    children (l ++ [x]) p = if decide (n_parent x = p) then x :: children l p else children l p.
  Proof.
    intros ND New. apply desc_unique.
    - now apply children_ids.
    - apply desc_ordered.
    - case_decide; [|apply desc_ordered]. constructor; [apply desc_ordered|].
      apply Forall_forall. intros n Hn. apply elem_of_children in Hn as [Hn _]. apply rid_leb_spec.
      left. auto.
    - unfold children at 1. rewrite sort_by_perm, filter_app, filter_cons, filter_nil.
      case_decide; [|rewrite app_nil_r; unfold children; now rewrite sort_by_perm].
      unfold children. rewrite sort_by_perm. symmetry. apply Permutation_cons_append.
  Qed.

  Lemma walk_children_sub l st out :
    walk (children l) st out -> (forall n, n ∈ st -> n ∈ l) -> forall n, n ∈ out -> n ∈ l.
  Proof.
    induction 1 as [|n rest out W IH]; intros Sub m Hm; [inversion Hm|].
    apply elem_of_cons in Hm as [->|Hm]; [apply Sub; left|]. apply IH; [|exact Hm].
    intros k Hk. apply elem_of_app in Hk as [Hk|Hk]; [now apply elem_of_children in Hk|]. apply Sub. now right.
  Qed.

  Lemma tree_snoc l x :
    tree l -> (forall n, n ∈ l -> ((n_id n).1 < (n_id x).1)%N) ->
    (forall p, n_parent x = Some p -> exists m, m ∈ l /\ n_id m = p) -> tree (l ++ [x]).
  Proof.
    intros [ND Par] New Px. split.
    - rewrite fmap_app. apply NoDup_app. split; [exact ND|]. split; [|apply NoDup_singleton].
      intros i Hi E. apply elem_of_list_singleton in E. apply elem_of_list_fmap in Hi as (n & -> & Hn).
      specialize (New n Hn). rewrite E in New. lia.
    - intros n p Hn Hp. apply elem_of_app in Hn as [Hn|Hn].
      + destruct (Par n p Hn Hp) as (m & Hm & E). exists m. rewrite elem_of_app. auto.
      + apply elem_of_list_singleton in Hn. subst n. destruct (Px p Hp) as (m & Hm & E).
        exists m. rewrite elem_of_app. split; [auto|]. split; [exact E|]. rewrite <- E. auto.
  Qed.

  Lemma sorted_snoc l x :
    tree l -> (forall n, n ∈ l -> ((n_id n).1 < (n_id x).1)%N) ->
    (forall p, n_parent x = Some p -> exists m, m ∈ l /\ n_id m = p) ->
    rg_sorted (l ++ [x]) = match n_parent x with None => x :: rg_sorted l | Some p => put_after p x (rg_sorted l) end.
  Proof.
    intros Tr New Px. pose proof (tree_snoc l x Tr New Px) as Tr'.
    destruct (sorted_walk l Tr) as [W P]. destruct (sorted_walk _ Tr') as [W' _].
    assert (Leaf : children (l ++ [x]) (Some (n_id x)) = []).
    { apply elem_of_nil_inv. intros n Hn. apply elem_of_children in Hn as [Hn Hp].
      destruct (proj2 Tr' n _ Hn Hp) as (_ & _ & _ & Hlt).
      apply elem_of_app in Hn as [Hn|Hn]; [specialize (New n Hn); lia|].
      apply elem_of_list_singleton in Hn. subst n. lia. }
    destruct (n_parent x) as [p|] eqn:Ep.
    - assert (G : forall st out, walk (children l) st out ->
        walk (children (l ++ [x])) st (put_after p x out)).
      { induction 1 as [|n rest out _ IH]; [constructor|]. simpl.
        destruct (decide (n_id n = p)) as [E|E]; simpl; constructor.
        - rewrite (children_snoc l x) by (auto; apply Tr'). rewrite decide_True by congruence.
          simpl. constructor. rewrite Leaf. exact IH.
        - rewrite (children_snoc l x) by (auto; apply Tr'). rewrite decide_False by congruence. exact IH. }
      eapply walk_det; [exact W'|].
      rewrite (children_snoc l x) by (auto; apply Tr'). rewrite decide_False by congruence. now apply G.
    - assert (G : forall st out, walk (children l) st out -> walk (children (l ++ [x])) st out).
      { induction 1 as [|n rest out _ IH]; constructor.
        rewrite (children_snoc l x) by (auto; apply Tr'). rewrite decide_False by congruence. exact IH. }
      eapply walk_det; [exact W'|].
      rewrite (children_snoc l x) by (auto; apply Tr'). rewrite decide_True by congruence.
      constructor. rewrite Leaf. now apply G.
  Qed.

  (** Two trees, one inside the other, display common nodes in the same order. *)
  Lemma sorted_sub l l' (keep : node T -> Prop) `{forall n, Decision (keep n)} :
    tree l -> tree l' -> (forall n, n ∈ l <-> n ∈ l' /\ keep n) ->
    rg_sorted l = filter keep (rg_sorted l').
  Proof.
    intros Tr Tr' Sub. destruct (sorted_walk l Tr) as [W _]. destruct (sorted_walk l' Tr') as [W' P'].
    assert (Ch : forall p, children l p = filter keep (children l' p)).
    { intros p. apply desc_unique.
      - apply children_ids, Tr.
      - apply desc_ordered.
      - apply ordered_filter, desc_ordered.
      - apply NoDup_Permutation.
        + eapply NoDup_fmap_1. apply children_ids, Tr.
        + apply NoDup_filter. eapply NoDup_fmap_1. apply children_ids, Tr'.
        + intros n. rewrite elem_of_list_filter, !elem_of_children, Sub. tauto. }
    assert (G : forall st out, walk (children l') st out -> (forall n, n ∈ st -> n ∈ l') ->
      walk (children l) (filter keep st) (filter keep out)).
    { induction 1 as [|n rest out _ IH]; intros Hst; [constructor|].
      assert (Hst' : forall m, m ∈ children l' (Some (n_id n)) ++ rest -> m ∈ l').
      { intros m Hm. apply elem_of_app in Hm as [Hm|Hm]; [now apply elem_of_children in Hm|]. apply Hst. now right. }
      specialize (IH Hst'). rewrite filter_app in IH. rewrite !filter_cons.
      destruct (decide (keep n)) as [Hk|Hk].
      - constructor. rewrite Ch. exact IH.
      - replace (filter keep (children l' (Some (n_id n)))) with ([] : list (node T)) in IH; [exact IH|].
        symmetry. apply elem_of_nil_inv. intros m Hm. rewrite <- Ch in Hm. apply elem_of_children in Hm as [Hm Hp].
        destruct (proj2 Tr m _ Hm Hp) as (q & Hq & Eq & _). apply Sub in Hq as [Hq Kq].
        assert (q = n) by (apply (ids_inj l'); [apply Tr'|exact Hq|apply Hst; left|exact Eq]). subst q. tauto. }
    eapply walk_det; [exact W|]. rewrite Ch. apply G; [exact W'|].
    intros n Hn. now apply elem_of_children in Hn.
  Qed.
End Order.
