(** C10 (replicated sequences) and the sequence part of C12 (deltas).

    [seq_effects evs] lists, for every operation of a run, what it did where it was
    issued: [FIns id v p] created an element with value [v], [FDel id] removed the
    element created by the insertion carrying [id]. [live h K i]: operation [i] is a
    known insertion that no known operation removed. *)
From stdpp Require Import gmap.
From Verif Require Import CrdtModel SequenceModel SequenceProofs SequenceRuns SequenceMerge SequenceYata SequenceOrder
  Replication ReplicationEffects CrdtClockProofs.

Ltac decided := apply (bool_decide_unpack _); vm_compute; exact I.

Lemma sublist_NoDup {A} (l k : list A) : sublist l k -> NoDup k -> NoDup l.
Proof.
  intros S. induction S as [|x l k S IH|x l k S IH]; intros ND.
  - constructor.
  - apply NoDup_cons in ND as [Nx ND]. constructor; [|auto]. intros Hx. apply Nx.
    apply sublist_submseteq in S. eapply elem_of_submseteq; eauto.
  - apply NoDup_cons in ND as [_ ND]. auto.
Qed.
Lemma sublist_elem {A} (l k : list A) x : sublist l k -> x ∈ l -> x ∈ k.
Proof. intros S Hx. apply sublist_submseteq in S. eapply elem_of_submseteq; eauto. Qed.
Lemma sublist_by_members {A} (k a b : list A) :
  NoDup k -> sublist a k -> sublist b k -> (forall x, x ∈ a -> x ∈ b) -> sublist a b.
Proof.
  revert a b. induction k as [|x k IH]; intros a b ND Sa Sb Sub.
  - apply sublist_nil_r in Sa as ->. apply sublist_nil_l.
  - apply NoDup_cons in ND as [Nx ND]. inversion Sa as [|? a' ? Sa'|? ? ? Sa']; subst.
    + assert (Hx : x ∈ b) by (apply Sub; left). inversion Sb as [|? b' ? Sb'|? ? ? Sb']; subst.
      * constructor. apply IH; auto. intros y Hy. assert (Hy' : y ∈ x :: b') by (apply Sub; now right).
        apply elem_of_cons in Hy' as [->|?]; [|assumption]. exfalso. apply Nx. exact (sublist_elem _ _ x Sa' Hy).
      * exfalso. apply Nx. eapply sublist_elem; eauto.
    + inversion Sb as [|? b' ? Sb'|? ? ? Sb']; subst.
      * constructor. apply IH; auto. intros y Hy. assert (Hy' : y ∈ x :: b') by now apply Sub.
        apply elem_of_cons in Hy' as [->|?]; [|assumption]. exfalso. apply Nx. exact (sublist_elem _ _ x Sa' Hy).
      * apply IH; auto.
Qed.

(** Replicas knowing the same operations show the same list. *)
Theorem C10_rga_converges :
  forall (T : Type) (evs : list (event (seqop T))) (r r' : N),
  known_by evs r = known_by evs r' -> rg_to_vec (seq_state evs r) = rg_to_vec (seq_state evs r').
Proof.
  intros T evs r r' E. destruct (seq_run evs) as (_ & _ & C & I & _). unfold rg_to_vec. f_equal.
  eapply visible_det; [apply C|apply I|rewrite E; apply I].
Qed.

(** Merging any three states of a run: the order and grouping do not matter, and
    merging twice changes nothing. *)
Theorem C10_rga_merge_laws :
  forall (T : Type) (evs : list (event (seqop T))) (r1 r2 r3 : N),
  let s1 := seq_state evs r1 in let s2 := seq_state evs r2 in let s3 := seq_state evs r3 in
  rg_to_vec (rg_merge s1 s2) = rg_to_vec (rg_merge s2 s1) /\
  rg_to_vec (rg_merge (rg_merge s1 s2) s3) = rg_to_vec (rg_merge s1 (rg_merge s2 s3)) /\
  rg_to_vec (rg_merge s1 s1) = rg_to_vec s1 /\
  rg_to_vec (rg_merge (rg_merge s1 s2) s2) = rg_to_vec (rg_merge s1 s2).
Proof.
  intros T evs r1 r2 r3 s1 s2 s3. destruct (seq_run evs) as (_ & W & C & I & _).
  set (h := seq_effects evs) in *. set (K := known_by evs) in *.
  assert (U : forall A B, closed h A -> closed h B -> closed h (A ∪ B)).
  { intros A B [A1 A2] [B1 B2]. split; [set_solver|]. intros i x Hi Hx.
    apply elem_of_union in Hi as [Hi|Hi]; [pose proof (A2 i x Hi Hx)|pose proof (B2 i x Hi Hx)]; set_solver. }
  assert (M : forall A B s t, closed h A -> closed h B -> seq_inv h A s -> seq_inv h B t -> seq_inv h (A ∪ B) (rg_merge s t))
    by (intros; now apply seq_inv_merge).
  assert (D : forall A B s t, A = B -> closed h A -> seq_inv h A s -> seq_inv h B t -> rg_to_vec s = rg_to_vec t).
  { intros A B s t -> CB Is It. unfold rg_to_vec. f_equal. exact (visible_det h B s t CB Is It). }
  assert (I12 := M _ _ s1 s2 (C r1) (C r2) (I r1) (I r2)).
  assert (I23 := M _ _ s2 s3 (C r2) (C r3) (I r2) (I r3)).
  split; [|split; [|split]].
  - refine (D _ _ _ _ _ _ I12 (M _ _ s2 s1 (C r2) (C r1) (I r2) (I r1))); [set_solver|auto].
  - refine (D _ _ _ _ _ _ (M _ _ _ s3 (U _ _ (C r1) (C r2)) (C r3) I12 (I r3))
                           (M _ _ s1 _ (C r1) (U _ _ (C r2) (C r3)) (I r1) I23)); [set_solver|auto].
  - refine (D _ _ _ _ _ _ (M _ _ s1 s1 (C r1) (C r1) (I r1) (I r1)) (I r1)); [set_solver|auto].
  - refine (D _ _ _ _ _ _ (M _ _ _ s2 (U _ _ (C r1) (C r2)) (C r2) I12 (I r2)) I12); [set_solver|auto].
Qed.

(** One order for a whole run: there is a list of insertions, without repetition,
    such that at any point of the run any replica shows exactly the insertions live
    for it, each once, in that order. *)
Theorem C10_rga_one_order :
  forall (T : Type) (evs : list (event (seqop T))),
  exists order : list nat, NoDup order /\
    forall before after r, evs = before ++ after ->
    exists shown : list nat,
      sublist shown order /\
      (forall i, i ∈ shown <-> live (seq_effects evs) (known_by before r) i) /\
      Forall2 (inserts_value (seq_effects evs)) shown (rg_to_vec (seq_state before r)).
Proof.
  intros T evs. destruct (seq_run evs) as (_ & W & C & I & _).
  pose proof (si_hist _ _ _ (I 0%N)) as SH. exists (global_order (seq_effects evs)).
  split; [now apply global_nodup|]. intros before after r ->.
  destruct (effects_prefix before after) as [h' E].
  destruct (seq_run before) as (_ & _ & Cb & Ib & _). rewrite E in *.
  exists (shown (seq_effects before ++ h') (seq_state before r)).
  apply shown_spec; [exact W|apply seq_closed_prefix, Cb|].
  apply seq_inv_prefix; [apply Cb|exact SH|apply Ib].
Qed.

(** A replica at some point of a run shows exactly what is live for it. *)
Theorem C10_rga_shows_live_elements :
  forall (T : Type) (evs : list (event (seqop T))) (r : N),
  exists shown : list nat, NoDup shown /\
    (forall i, i ∈ shown <-> live (seq_effects evs) (known_by evs r) i) /\
    Forall2 (inserts_value (seq_effects evs)) shown (rg_to_vec (seq_state evs r)).
Proof.
  intros T evs r. destruct (C10_rga_one_order T evs) as (order & ND & H).
  destruct (H evs [] r) as (shown & S & L & F); [now rewrite app_nil_r|].
  exists shown. split; [eapply sublist_NoDup; eauto|auto].
Qed.

(** Once a removed element is gone from a list it never comes back at a replica that
    has that knowledge: what a later list shows of the insertions known earlier was
    already shown earlier, in the same order. *)
Theorem C10_rga_removed_stays_removed :
  forall (T : Type) (before after : list (event (seqop T))) (r r' : N),
  let h := seq_effects (before ++ after) in
  known_by before r ⊆ known_by (before ++ after) r' ->
  exists shown shown' : list nat,
    NoDup shown /\ NoDup shown' /\
    Forall2 (inserts_value h) shown (rg_to_vec (seq_state before r)) /\
    Forall2 (inserts_value h) shown' (rg_to_vec (seq_state (before ++ after) r')) /\
    (forall i, i ∈ shown -> i ∈ known_by before r) /\
    sublist (filter (fun i => i ∈ known_by before r) shown') shown.
Proof.
  intros T before after r r' h Sub. destruct (C10_rga_one_order T (before ++ after)) as (order & ND & H).
  destruct (H before after r eq_refl) as (s1 & S1 & L1 & F1).
  destruct (H (before ++ after) [] r') as (s2 & S2 & L2 & F2); [now rewrite app_nil_r|].
  exists s1, s2. split; [eapply sublist_NoDup; eauto|]. split; [eapply sublist_NoDup; eauto|].
  split; [exact F1|]. split; [exact F2|]. split; [intros i Hi; now apply L1 in Hi as [? _]|].
  apply (sublist_by_members order); [exact ND| |exact S1|].
  - etransitivity; [apply sublist_filtered|exact S2].
  - intros i Hi. apply elem_of_list_filter in Hi as [Hk Hi]. apply L1. apply L2 in Hi as (_ & x & id & v & p & Hx & Ex & NL).
    split; [exact Hk|]. exists x, id, v, p. split; [exact Hx|]. split; [exact Ex|].
    intros j y Hj. apply NL. now apply Sub.
Qed.

(** Local edits do what they say. *)
Theorem C10_rga_local_edits :
  forall (T : Type) (evs : list (event (seqop T))) (r : N),
  let s := seq_state evs r in let l := rg_to_vec s in
  (forall v, rg_to_vec (rg_append v s) = l ++ [v]) /\
  (forall i v, i <= length l -> rg_to_vec (rg_insert_before i v s) = take i l ++ v :: drop i l) /\
  (forall i v, i < length l -> rg_to_vec (rg_insert_after i v s) = take (S i) l ++ v :: drop (S i) l) /\
  (forall i, rg_to_vec (rg_remove i s) = delete i l) /\
  (forall i, rg_get s i = l !! i) /\ rg_len s = length l.
Proof.
  intros T evs r s l. pose proof (seq_ok_run evs r) as Ok.
  assert (Len : rg_len s = length l) by (unfold l, rg_to_vec, rg_len; now rewrite fmap_length).
  split; [intros; now apply append_vec|].
  split; [intros i v Hi; apply insert_before_vec; [exact Ok|now rewrite Len]|].
  split; [intros i v Hi; apply insert_after_vec; [exact Ok|now rewrite Len]|].
  split; [intros; now apply remove_vec|]. split; [|exact Len].
  intros i. unfold rg_get, l, rg_to_vec. now rewrite list_lookup_fmap.
Qed.

(** A position past the end does not fail and does not append: the new element
    becomes the first one. *)
Theorem C10_rga_insert_past_end_goes_first :
  forall (T : Type) (evs : list (event (seqop T))) (r : N) (i : nat) (v : T),
  let s := seq_state evs r in let l := rg_to_vec s in
  (length l <= i -> rg_to_vec (rg_insert_after i v s) = v :: l) /\
  (length l < i -> rg_to_vec (rg_insert_before i v s) = v :: l).
Proof.
  intros T evs r i v s l. pose proof (seq_ok_run evs r) as Ok.
  assert (Len : rg_len s = length l) by (unfold l, rg_to_vec, rg_len; now rewrite fmap_length).
  split; intros Hi; [apply insert_after_outside|apply insert_before_outside]; auto; now rewrite Len.
Qed.

(** Two replicas edit concurrently, one removes what the other inserts behind. *)
Definition C10_example_run : list (event (seqop N)) :=
  [EOp 1 (QAppend 10); EOp 1 (QAppend 20); ESend 1; ERecv 2 0;
   EOp 1 (QAfter 0 11); EOp 2 (QAfter 0 12); EOp 2 (QRemove 0); ESend 1; ESend 2; ERecv 1 2; ERecv 2 1]%N.
Example C10_example :
  known_by C10_example_run 1%N = known_by C10_example_run 2%N /\
  rg_to_vec (seq_state C10_example_run 1%N) = [12; 11; 20]%N /\
  rg_to_vec (seq_state C10_example_run 2%N) = [12; 11; 20]%N /\
  ya_to_vec (yata_state C10_example_run 2%N) = [12; 11; 20]%N /\
  rg_to_vec (rg_insert_after 9 5%N (seq_state C10_example_run 2%N)) = [5; 12; 11; 20]%N.
Proof. repeat split; decided. Qed.

(** ** The same for YATA *)

Theorem C10_yata_converges :
  forall (T : Type) (evs : list (event (seqop T))) (r r' : N),
  known_by evs r = known_by evs r' -> ya_to_vec (yata_state evs r) = ya_to_vec (yata_state evs r').
Proof. intros T evs r r' E. rewrite !yata_vec. now apply C10_rga_converges. Qed.

Lemma yata_merged_nodup {T} (evs : list (event (seqop T))) (s t : yata T) :
  NoDup (y_id <$> ya_items s) -> NoDup (y_id <$> ya_items (ya_merge s t)).
Proof.
  intros ND. rewrite <- fgi_ids in ND |- *. unfold ya_merge; simpl. rewrite ya_fold_rga. now apply fold_nodup.
Qed.

Theorem C10_yata_merge_laws :
  forall (T : Type) (evs : list (event (seqop T))) (r1 r2 r3 : N),
  let s1 := yata_state evs r1 in let s2 := yata_state evs r2 in let s3 := yata_state evs r3 in
  ya_to_vec (ya_merge s1 s2) = ya_to_vec (ya_merge s2 s1) /\
  ya_to_vec (ya_merge (ya_merge s1 s2) s3) = ya_to_vec (ya_merge s1 (ya_merge s2 s3)) /\
  ya_to_vec (ya_merge s1 s1) = ya_to_vec s1 /\
  ya_to_vec (ya_merge (ya_merge s1 s2) s2) = ya_to_vec (ya_merge s1 s2).
Proof.
  intros T evs r1 r2 r3 s1 s2 s3.
  assert (N0 : forall r, NoDup (y_id <$> ya_items (yata_state evs r))) by apply yata_nodup.
  rewrite !ya_to_vec_rga by (repeat apply (yata_merged_nodup evs); apply N0). rewrite !ya_merge_rga.
  unfold s1, s2, s3. rewrite !yata_run. apply C10_rga_merge_laws.
Qed.

Theorem C10_yata_one_order :
  forall (T : Type) (evs : list (event (seqop T))),
  exists order : list nat, NoDup order /\
    forall before after r, evs = before ++ after ->
    exists shown : list nat,
      sublist shown order /\
      (forall i, i ∈ shown <-> live (yata_effects evs) (known_by before r) i) /\
      Forall2 (inserts_value (yata_effects evs)) shown (ya_to_vec (yata_state before r)).
Proof.
  intros T evs. rewrite yata_effects_eq. destruct (C10_rga_one_order T evs) as (order & ND & H). exists order.
  split; [exact ND|]. intros before after r E. rewrite yata_vec. eauto.
Qed.

Theorem C10_yata_local_edits :
  forall (T : Type) (evs : list (event (seqop T))) (r : N),
  let s := yata_state evs r in let l := ya_to_vec s in
  (forall v, ya_to_vec (ya_append v s) = l ++ [v]) /\
  (forall i v, i <= length l -> ya_to_vec (ya_insert_before i v s) = take i l ++ v :: drop i l) /\
  (forall i v, i < length l -> ya_to_vec (ya_insert_after i v s) = take (S i) l ++ v :: drop (S i) l) /\
  (forall i, ya_to_vec (ya_remove i s) = delete i l) /\
  (forall i, ya_get s i = l !! i) /\ ya_len s = length l.
Proof.
  intros T evs r s l. assert (El : l = rg_to_vec (seq_state evs r)) by apply yata_vec.
  assert (A : forall o, ya_to_vec (ya_apply o s) = rg_to_vec (rg_apply o (seq_state evs r))).
  { intros o. pose proof (yata_vec (evs ++ [EOp r o]) r) as H.
    unfold yata_state, seq_state, state_at, cexec in H. rewrite !fold_left_app in H. simpl in H.
    unfold upd in H. rewrite !decide_True in H by reflexivity. exact H. }
  destruct (C10_rga_local_edits T evs r) as (H1 & H2 & H3 & H4 & _). rewrite <- El in H1, H2, H3, H4.
  split; [intros v; rewrite <- H1; apply (A (QAppend v))|].
  split; [intros i v Hi; rewrite <- H2 by exact Hi; apply (A (QBefore i v))|].
  split; [intros i v Hi; rewrite <- H3 by exact Hi; apply (A (QAfter i v))|].
  split; [intros i; rewrite <- H4; apply (A (QRemove i))|]. split.
  - intros i. unfold ya_get, l, ya_to_vec. now rewrite list_lookup_fmap.
  - unfold ya_len, l, ya_to_vec. now rewrite fmap_length.
Qed.

(** ** C12: deltas *)

(** The receiver of a delta for its own version does not learn of removals of
    elements it already has. Replica 0 appends, 1 copies, 0 removes: there is no
    delta for 1, while a full merge would remove the element. *)
Theorem C12_rga_delta_equals_merge_refuted :
  exists evs : list (event (seqop N)),
    let s := seq_state evs 0%N in let t := seq_state evs 1%N in
    rg_delta_since s (rg_version t) = None /\ rg_to_vec t = [7%N] /\ rg_to_vec (rg_merge t s) = [].
Proof.
  exists [EOp 0 (QAppend 7); ESend 0; ERecv 1 0; EOp 0 (QRemove 0)]%N. cbv zeta. repeat split; decided.
Qed.

(** Even when a delta is produced, it omits the removal. *)
Theorem C12_rga_sent_delta_equals_merge_refuted :
  exists (evs : list (event (seqop N))) d,
    let s := seq_state evs 0%N in let t := seq_state evs 1%N in
    rg_delta_since s (rg_version t) = Some d /\
    rg_to_vec (rg_apply_delta t d) = [8; 7]%N /\ rg_to_vec (rg_merge t s) = [8%N].
Proof.
  exists [EOp 0 (QAppend 7); ESend 0; ERecv 1 0; EOp 0 (QRemove 0); EOp 0 (QAppend 8)]%N.
  eexists. cbv zeta. split; [vm_compute; reflexivity|]. split; decided.
Qed.

(** What holds: the delta carries every element the full state carries, ... *)
Theorem C12_rga_delta_brings_all_elements_partial :
  forall (T : Type) (evs : list (event (seqop T))) (q r : N),
  let t := seq_state evs q in let s := seq_state evs r in
  forall id, id ∈ n_id <$> rg_nodes (recv_delta t s) <-> id ∈ n_id <$> rg_nodes (rg_merge t s).
Proof.
  intros T evs q r t s id. destruct (seq_run evs) as (_ & W & C & I & _).
  exact (recv_ids (seq_effects evs) (known_by evs q) (known_by evs r) t s W (C q) (I q) (I r) id).
Qed.

(** ... and gives the same list when every removal the sender knows is known to the
    receiver or concerns an element the receiver does not have yet. *)
Theorem C12_rga_delta_equals_merge_partial :
  forall (T : Type) (evs : list (event (seqop T))) (q r : N),
  let h := seq_effects evs in
  (forall j y id, j ∈ known_by evs r -> h !! j = Some y -> op_op y = FDel id ->
     (exists k z, k ∈ known_by evs q /\ h !! k = Some z /\ op_op z = FDel id) \/
     (forall k z v p, k ∈ known_by evs q -> h !! k = Some z -> op_op z <> FIns id v p)) ->
  let t := seq_state evs q in let s := seq_state evs r in
  rg_to_vec (recv_delta t s) = rg_to_vec (rg_merge t s).
Proof.
  intros T evs q r h ND t s. destruct (seq_run evs) as (_ & W & C & I & _).
  apply (recv_full_vec h (known_by evs q) (known_by evs r) t s W (C q) (C r) (I q) (I r)).
  intros id (j & y & Hj & Hy & E). destruct (ND j y id Hj Hy E) as [D|D]; [left; exact D|right].
  intros v p (k & z & Hk & Hz & Ez). exact (D k z v p Hk Hz Ez).
Qed.

Example C12_rga_example :
  let evs := [EOp 0 (QAppend 7); ESend 0; ERecv 1 0; EOp 0 (QAppend 8); EOp 0 (QAppend 9); EOp 0 (QRemove 1)]%N : list (event (seqop N)) in
  rg_to_vec (recv_delta (seq_state evs 1%N) (seq_state evs 0%N)) = [7; 9]%N /\
  rg_to_vec (seq_state evs 1%N) = [7%N].
Proof. cbv zeta. split; decided. Qed.

(** YATA sends its full state or nothing. A delta that is sent is a full merge ... *)
Theorem C12_yata_sent_delta_equals_merge :
  forall (T : Type) (s t : yata T) d, ya_delta_since s (ya_version t) = Some d -> ya_apply_delta t d = ya_merge t s.
Proof.
  intros T s t d E. unfold ya_delta_since in E. destruct (vc_dominates _ _); [discriminate|]. injection E as <-. reflexivity.
Qed.

(** ... but nothing is sent when only removals are new. *)
Theorem C12_yata_delta_equals_merge_refuted :
  exists evs : list (event (seqop N)),
    let s := yata_state evs 0%N in let t := yata_state evs 1%N in
    ya_delta_since s (ya_version t) = None /\ ya_to_vec t = [7%N] /\ ya_to_vec (ya_merge t s) = [].
Proof.
  exists [EOp 0 (QAppend 7); ESend 0; ERecv 1 0; EOp 0 (QRemove 0)]%N. cbv zeta. repeat split; decided.
Qed.

Example C12_yata_example :
  let evs := [EOp 0 (QAppend 7); ESend 0; ERecv 1 0; EOp 0 (QAppend 8); EOp 0 (QRemove 0)]%N : list (event (seqop N)) in
  match ya_delta_since (yata_state evs 0%N) (ya_version (yata_state evs 1%N)) with
  | Some d => ya_to_vec (ya_apply_delta (yata_state evs 1%N) d)
  | None => []
  end = [8%N].
Proof. cbv zeta. decided. Qed.
