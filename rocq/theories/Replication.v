(** A specification of replicated execution, shared by all replicated data types.

    A run is a list of events. Any replica may perform a local operation, emit a
    snapshot of its state (into a soup of messages), or receive any snapshot emitted
    earlier. Nothing is assumed about delivery: snapshots may be lost (never
    received), duplicated (received several times), delayed or reordered.
    Replicas have pairwise different ids (in the code ids are random 64-bit numbers,
    crates/logicaffeine_data/src/crdt/replica.rs).

    Besides the concrete states the specification tracks, for each replica, the SET
    of operations that have reached it ([known]); an operation is named by its
    position in the list of all operations ([history]), and each operation records
    its causal past, i.e. what its origin knew when performing it. *)
From stdpp Require Import gmap.

Section Replication.
  Context {O : Type}.

  Inductive event :=
  | EOp (r : N) (o : O)        (** replica [r] performs operation [o] *)
  | ESend (r : N)              (** replica [r] emits its state *)
  | ERecv (r : N) (k : nat).   (** replica [r] merges the [k]-th emitted state *)

  Record opinfo := { op_origin : N; op_op : O; op_past : gset nat }.
  Notation history := (list opinfo).

  (** The abstract side: which operations are known where. *)
  Record ghost := { g_hist : history; g_known : N -> gset nat; g_sent : list (gset nat) }.

  Definition upd {A} (f : N -> A) (r : N) (a : A) : N -> A :=
    fun q => if decide (q = r) then a else f q.

  Definition ghost0 : ghost := {| g_hist := []; g_known := fun _ => ∅; g_sent := [] |}.

  Definition gstep (g : ghost) (e : event) : ghost :=
    match e with
    | EOp r o =>
      {| g_hist := g_hist g ++ [{| op_origin := r; op_op := o; op_past := g_known g r |}];
         g_known := upd (g_known g) r (g_known g r ∪ {[ length (g_hist g) ]});
         g_sent := g_sent g |}
    | ESend r =>
      {| g_hist := g_hist g; g_known := g_known g; g_sent := g_sent g ++ [g_known g r] |}
    | ERecv r k =>
      match g_sent g !! k with
      | None => g
      | Some K =>
        {| g_hist := g_hist g; g_known := upd (g_known g) r (g_known g r ∪ K); g_sent := g_sent g |}
      end
    end.

  Definition gexec (evs : list event) : ghost := fold_left gstep evs ghost0.

  (** All operations performed in a run, and what a replica knows after it. *)
  Definition hist_of (evs : list event) : history := g_hist (gexec evs).
  Definition known_by (evs : list event) (r : N) : gset nat := g_known (gexec evs) r.

  (** A history is well formed when every operation knew all earlier operations of
      its own replica and only earlier operations, causally closed. *)
  Definition closed (h : history) (K : gset nat) : Prop :=
    (forall i, i ∈ K -> i < length h) /\
    (forall i x, i ∈ K -> h !! i = Some x -> op_past x ⊆ K).
  Definition wf (h : history) : Prop :=
    forall i x, h !! i = Some x ->
      closed h (op_past x) /\ (forall j, j ∈ op_past x -> j < i) /\
      (forall j y, j < i -> h !! j = Some y -> op_origin y = op_origin x -> j ∈ op_past x).
  (** A replica knows all of its own operations. *)
  Definition own_known (h : history) (r : N) (K : gset nat) : Prop :=
    forall j y, h !! j = Some y -> op_origin y = r -> j ∈ K.

  Lemma closed_mono h x K : closed h K -> closed (h ++ [x]) K.
  Proof.
    intros [A B]. split.
    - intros i Hi. rewrite app_length. specialize (A i Hi). simpl. lia.
    - intros i y Hi Hy. specialize (A i Hi). rewrite lookup_app_l in Hy by lia. eauto.
  Qed.

  Lemma closed_union h K L : closed h K -> closed h L -> closed h (K ∪ L).
  Proof.
    intros [A B] [C D]. split.
    - intros i Hi. apply elem_of_union in Hi as [?|?]; auto.
    - intros i y Hi Hy. apply elem_of_union in Hi as [?|?]; [specialize (B i y) | specialize (D i y)]; set_solver.
  Qed.

  Record ginv (g : ghost) : Prop := {
    gi_wf : wf (g_hist g);
    gi_known : forall r, closed (g_hist g) (g_known g r);
    gi_own : forall r, own_known (g_hist g) r (g_known g r);
    gi_sent : forall k K, g_sent g !! k = Some K -> closed (g_hist g) K }.

  Lemma wf_snoc h r o K :
    wf h -> closed h K -> own_known h r K ->
    wf (h ++ [{| op_origin := r; op_op := o; op_past := K |}]).
  Proof.
    intros W C Own i x Hx.
    destruct (decide (i < length h)) as [Hi|Hi].
    - rewrite lookup_app_l in Hx by lia. destruct (W i x Hx) as (A & B & D).
      split; [apply closed_mono; exact A|]. split; [exact B|].
      intros j y Hj Hy. rewrite lookup_app_l in Hy by lia. eauto.
    - assert (i = length h).
      { apply lookup_lt_Some in Hx. rewrite app_length in Hx. simpl in Hx. lia. }
      subst i. rewrite lookup_app_r, Nat.sub_diag in Hx by lia. injection Hx as <-. simpl.
      split; [apply closed_mono; exact C|]. split.
      + intros j Hj. now apply (proj1 C).
      + intros j y Hj Hy E. rewrite lookup_app_l in Hy by lia. eauto.
  Qed.

  Lemma closed_snoc h r o K :
    closed h K -> closed (h ++ [{| op_origin := r; op_op := o; op_past := K |}]) (K ∪ {[length h]}).
  Proof.
    intros C. split.
    - intros i Hi. rewrite app_length. simpl. apply elem_of_union in Hi as [Hi|Hi].
      + apply (proj1 C) in Hi. lia.
      + apply elem_of_singleton in Hi. lia.
    - intros i x Hi Hx. apply elem_of_union in Hi as [Hi|Hi].
      + pose proof (proj1 C i Hi). rewrite lookup_app_l in Hx by lia.
        pose proof (proj2 C i x Hi Hx). set_solver.
      + apply elem_of_singleton in Hi. subst i.
        rewrite lookup_app_r, Nat.sub_diag in Hx by lia. injection Hx as <-. simpl. set_solver.
  Qed.

  Lemma own_snoc h r o K q L :
    own_known h q L -> r <> q -> own_known (h ++ [{| op_origin := r; op_op := o; op_past := K |}]) q L.
  Proof.
    intros H Hne j y Hy Hq.
    destruct (decide (j < length h)) as [Hj|Hj].
    - rewrite lookup_app_l in Hy by lia. eauto.
    - assert (j = length h).
      { apply lookup_lt_Some in Hy. rewrite app_length in Hy. simpl in Hy. lia. }
      subst j. rewrite lookup_app_r, Nat.sub_diag in Hy by lia. injection Hy as <-. simpl in Hq. congruence.
  Qed.

  Lemma own_snoc_self h r o K :
    own_known h r K -> own_known (h ++ [{| op_origin := r; op_op := o; op_past := K |}]) r (K ∪ {[length h]}).
  Proof.
    intros H j y Hy Hq.
    destruct (decide (j < length h)) as [Hj|Hj].
    - rewrite lookup_app_l in Hy by lia. specialize (H j y Hy Hq). set_solver.
    - assert (j = length h).
      { apply lookup_lt_Some in Hy. rewrite app_length in Hy. simpl in Hy. lia. }
      set_solver.
  Qed.

  Lemma ginv_step g e : ginv g -> ginv (gstep g e).
  Proof.
    intros [W C Own Sn]. destruct e as [r o|r|r k]; simpl.
    - constructor; simpl.
      + apply wf_snoc; auto.
      + intros q. unfold upd. destruct (decide (q = r)) as [->|].
        * apply closed_snoc; auto.
        * apply closed_mono; auto.
      + intros q. unfold upd. destruct (decide (q = r)) as [->|].
        * apply own_snoc_self; auto.
        * apply own_snoc; auto.
      + intros k K Hk. apply closed_mono. eauto.
    - constructor; simpl; auto.
      intros k K Hk. apply lookup_app_Some in Hk as [Hk|[_ Hk]]; eauto.
      apply list_lookup_singleton_Some in Hk as [_ <-]. auto.
    - destruct (g_sent g !! k) as [K|] eqn:E; [|constructor; auto].
      constructor; simpl; auto.
      + intros q. unfold upd. destruct (decide (q = r)) as [->|]; auto.
        apply closed_union; eauto.
      + intros q. unfold upd. destruct (decide (q = r)) as [->|]; auto.
        intros j y Hy Hq. specialize (Own r j y Hy Hq). set_solver.
  Qed.

  Lemma ginv_exec evs : ginv (gexec evs).
  Proof.
    unfold gexec.
    assert (G : forall evs g, ginv g -> ginv (fold_left gstep evs g)).
    { clear evs. induction evs as [|e evs IH]; intros g Hg; simpl; [exact Hg|].
      apply IH. now apply ginv_step. }
    apply G. constructor; simpl.
    - intros i x Hx. rewrite lookup_nil in Hx. discriminate.
    - intros r. split; intros i; set_solver.
    - intros r j y Hy. rewrite lookup_nil in Hy. discriminate.
    - intros k K Hk. rewrite lookup_nil in Hk. discriminate.
  Qed.

  (** Causal delivery per origin: known operations of one replica form a prefix. *)
  Lemma closed_prefix h K i j x y :
    wf h -> closed h K -> i ∈ K -> h !! i = Some x -> h !! j = Some y ->
    op_origin x = op_origin y -> j < i -> j ∈ K.
  Proof.
    intros W C Hi Hx Hy E Hj.
    destruct (W i x Hx) as (_ & _ & D). pose proof (proj2 C i x Hi Hx).
    specialize (D j y Hj Hy (eq_sym E)). set_solver.
  Qed.
  (** The concrete side, for a data type given by its initial states, local
      operations and merge function. *)
  Context {S : Type} (init : N -> S) (apply : O -> S -> S) (merge : S -> S -> S).

  Record config := { c_st : N -> S; c_sent : list S }.
  Definition config0 : config := {| c_st := init; c_sent := [] |}.
  Definition cstep (c : config) (e : event) : config :=
    match e with
    | EOp r o => {| c_st := upd (c_st c) r (apply o (c_st c r)); c_sent := c_sent c |}
    | ESend r => {| c_st := c_st c; c_sent := c_sent c ++ [c_st c r] |}
    | ERecv r k =>
      match c_sent c !! k with
      | None => c
      | Some s => {| c_st := upd (c_st c) r (merge (c_st c r) s); c_sent := c_sent c |}
      end
    end.
  Definition cexec (evs : list event) : config := fold_left cstep evs config0.
  Definition state_at (evs : list event) (r : N) : S := c_st (cexec evs) r.

  (** The induction principle used for every data type: an invariant relating the
      history, a known set and a concrete state holds at every replica after every
      run, if it is established initially and preserved by each kind of step. *)
  Lemma replication_invariant (ident : S -> N) (I : history -> gset nat -> S -> Prop) :
    (forall r, ident (init r) = r) ->
    (forall o s, ident (apply o s) = ident s) ->
    (forall s t, ident (merge s t) = ident s) ->
    (forall r, I [] ∅ (init r)) ->
    (forall h x K s, wf h -> closed h K -> I h K s -> I (h ++ [x]) K s) ->
    (forall h o K s, wf h -> closed h K -> own_known h (ident s) K -> I h K s ->
       I (h ++ [{| op_origin := ident s; op_op := o; op_past := K |}]) (K ∪ {[length h]}) (apply o s)) ->
    (forall h K L s t, wf h -> closed h K -> closed h L -> I h K s -> I h L t ->
       I h (K ∪ L) (merge s t)) ->
    forall evs r, I (hist_of evs) (known_by evs r) (state_at evs r) /\ ident (state_at evs r) = r.
  Proof.
    intros Hid0 Hid1 Hid2 H0 Hm Ho Hg evs.
    set (Inv := fun (g : ghost) (c : config) =>
      ginv g /\ (forall r, I (g_hist g) (g_known g r) (c_st c r) /\ ident (c_st c r) = r) /\
      length (g_sent g) = length (c_sent c) /\
      (forall k K s, g_sent g !! k = Some K -> c_sent c !! k = Some s -> I (g_hist g) K s)).
    assert (G : forall evs g c, Inv g c -> Inv (fold_left gstep evs g) (fold_left cstep evs c)).
    { clear evs. induction evs as [|e evs IH]; intros g c Hgc; simpl; [exact Hgc|].
      apply IH. destruct Hgc as (GI & A & L & B).
      pose proof (ginv_step g e GI) as GI'. destruct GI as [W C Own Sn].
      split; [exact GI'|]. clear GI'.
      destruct e as [r o|r|r k]; simpl.
      - split; [|split; [exact L|]].
        + intros q. unfold upd. destruct (decide (q = r)) as [->|Hq].
          * destruct (A r) as [A1 A2]. split; [|rewrite Hid1; exact A2].
            rewrite <- A2 at 1. apply Ho; auto. rewrite A2. auto.
          * destruct (A q) as [A1 A2]. split; [|exact A2]. apply Hm; auto.
        + intros k K s Hk Hs. apply Hm; eauto.
      - split; [exact A|]. split; [rewrite !app_length, L; reflexivity|].
        intros k K s Hk Hs.
        apply lookup_app_Some in Hk as [Hk|[Hl Hk]].
        + apply lookup_app_Some in Hs as [Hs|[Hl Hs]]; [eauto|].
          apply lookup_lt_Some in Hk. lia.
        + apply lookup_app_Some in Hs as [Hs|[Hl' Hs]].
          { apply lookup_lt_Some in Hs. lia. }
          apply list_lookup_singleton_Some in Hk as [_ <-].
          apply list_lookup_singleton_Some in Hs as [_ <-]. apply A.
      - destruct (g_sent g !! k) as [K|] eqn:E1; destruct (c_sent c !! k) as [s|] eqn:E2.
        + simpl. split; [|split; [exact L|exact B]].
          intros q. unfold upd. destruct (decide (q = r)) as [->|Hq]; [|apply A].
          destruct (A r) as [A1 A2]. split; [|rewrite Hid2; exact A2].
          apply Hg; eauto.
        + apply lookup_lt_Some in E1. apply lookup_ge_None in E2. lia.
        + apply lookup_lt_Some in E2. apply lookup_ge_None in E1. lia.
        + auto. }
    assert (I0 : Inv ghost0 config0).
    { split; [apply (ginv_exec [])|]. split; [|split; [reflexivity|]].
      - intros r. split; [apply H0|apply Hid0].
      - intros k K s Hk. cbn [g_sent ghost0] in Hk. rewrite lookup_nil in Hk. discriminate. }
    intros r. apply (G evs ghost0 config0 I0).
  Qed.

End Replication.

Arguments event : clear implicits.
Arguments opinfo : clear implicits.
Notation history O := (list (opinfo O)).
