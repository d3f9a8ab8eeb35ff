(** Registers and the delta buffer. *)
From stdpp Require Import gmap.
From Verif Require Import CrdtModel Replication ReplicationCount CrdtClockProofs CrdtCounterProofs
  ReplicationOrder.

(** ** Last-writer-wins *)

Section LWW.
  Context {T : Type}.
  Implicit Types a b c : lww T.

  Lemma lww_merge_assoc a b c : lww_merge a (lww_merge b c) = lww_merge (lww_merge a b) c.
  Proof.
    destruct a as [va ta], b as [vb tb], c as [vc tc]. unfold lww_merge; simpl.
    destruct (N.leb_spec tb tc), (N.leb_spec ta tb); simpl;
      repeat (match goal with |- context [(?x <=? ?y)%N] => destruct (N.leb_spec x y) end; simpl);
      try reflexivity; exfalso; lia.
  Qed.
  Lemma lww_merge_idemp a : lww_merge a a = a.
  Proof. unfold lww_merge. rewrite N.leb_refl. now destruct a. Qed.
  Lemma lww_merge_comm a b : lww_ts a <> lww_ts b -> lww_merge a b = lww_merge b a.
  Proof.
    intros H. destruct a as [va ta], b as [vb tb]. unfold lww_merge; simpl in *.
    destruct (N.leb_spec ta tb), (N.leb_spec tb ta); reflexivity || lia.
  Qed.
  Lemma lww_merge_greatest a b :
    (lww_merge a b = a \/ lww_merge a b = b) /\ lww_ts (lww_merge a b) = N.max (lww_ts a) (lww_ts b).
  Proof.
    destruct a as [va ta], b as [vb tb]. unfold lww_merge; simpl.
    destruct (N.leb_spec ta tb); simpl; split; auto; lia.
  Qed.

  (** A write is a value with the timestamp given to [set]; the state is paired with
      the replica's number, which the register itself does not store. *)
  Definition lww_init (v0 : T) (r : N) : N * lww T := (r, lww_new v0 0%N).
  Definition lww_apply (w : T * N) (s : N * lww T) : N * lww T := (s.1, lww_set w.1 w.2 s.2).
  Definition lww_join (s t : N * lww T) : N * lww T := (s.1, lww_merge s.2 t.2).

  (** Clocks behave: different writes have different timestamps, and a write is
      stamped later than everything its author had seen. *)
  Definition good_stamps (h : history (T * N)) : Prop :=
    (forall i j x y, h !! i = Some x -> h !! j = Some y -> (op_op x).2 = (op_op y).2 -> i = j) /\
    (forall i x, h !! i = Some x -> (0 < (op_op x).2)%N) /\
    (forall i x j y, h !! i = Some x -> j ∈ op_past x -> h !! j = Some y -> ((op_op y).2 < (op_op x).2)%N).

  Definition latest_known (v0 : T) (h : history (T * N)) (K : gset nat) (r : lww T) : Prop :=
    (K = ∅ /\ r = lww_new v0 0%N) \/
    (exists i x, i ∈ K /\ h !! i = Some x /\ r = lww_new (op_op x).1 (op_op x).2 /\
       forall j y, j ∈ K -> h !! j = Some y -> ((op_op y).2 <= (op_op x).2)%N).

  Lemma good_stamps_prefix h x : good_stamps (h ++ [x]) -> good_stamps h.
  Proof.
    intros (A & B & C). repeat split.
    - intros i j y z Hy Hz. apply A; apply lookup_app_l_Some; assumption.
    - intros i y Hy. apply (B i). now apply lookup_app_l_Some.
    - intros i y j z Hy Hj Hz. apply (C i y j z); auto using lookup_app_l_Some.
  Qed.

  Lemma lww_latest (v0 : T) evs r :
    good_stamps (hist_of evs) ->
    latest_known v0 (hist_of evs) (known_by evs r)
      (state_at (lww_init v0) lww_apply lww_join evs r).2.
  Proof.
    pose proof (replication_invariant (lww_init v0) lww_apply lww_join fst
      (fun h K s => good_stamps h -> latest_known v0 h K s.2)) as R.
    refine (fun G => proj1 (R _ _ _ _ _ _ _ evs r) G); clear R G evs r.
    - reflexivity.
    - reflexivity.
    - reflexivity.
    - intros r _. left. split; reflexivity.
    - intros h x K s W C IH G. destruct (IH (good_stamps_prefix h x G)) as [[-> E]|(i & y & Hi & Hy & E & M)].
      + left. auto.
      + right. exists i, y. split; [exact Hi|]. split; [now apply lookup_app_l_Some|]. split; [exact E|].
        intros j z Hj Hz. rewrite lookup_app_l in Hz by (apply (proj1 C); exact Hj). eauto.
    - intros h o K s W C Own IH G. right. set (x := {| op_origin := s.1; op_op := o; op_past := K |}).
      assert (Hx : (h ++ [x]) !! length h = Some x) by (rewrite lookup_app_r, Nat.sub_diag by lia; reflexivity).
      exists (length h), x. split; [set_solver|]. split; [exact Hx|]. split; [reflexivity|].
      intros j y Hj Hy. apply elem_of_union in Hj as [Hj|Hj].
      + apply N.lt_le_incl. destruct G as (_ & _ & G3). exact (G3 (length h) x j y Hx Hj Hy).
      + apply elem_of_singleton in Hj. subst j. assert (y = x) by congruence. subst. lia.
    - intros h K L s t W CK CL IHs IHt G. specialize (IHs G). specialize (IHt G).
      destruct IHs as [[-> Es]|(i & x & Hi & Hx & Es & M)]; destruct IHt as [[-> Et]|(j & y & Hj & Hy & Et & M')]; simpl.
      + left. split; [set_solver|]. rewrite Es, Et. reflexivity.
      + right. exists j, y. split; [set_solver|]. split; [exact Hy|]. rewrite Es, Et. split.
        { unfold lww_merge; simpl. destruct (N.leb_spec 0 (op_op y).2); [reflexivity|lia]. }
        intros k z Hk Hz. apply (M' k z); set_solver.
      + right. exists i, x. split; [set_solver|]. split; [exact Hx|]. rewrite Es, Et.
        destruct G as (_ & G2 & _). specialize (G2 i x Hx). split.
        * unfold lww_merge; simpl. destruct (N.leb_spec (op_op x).2 0); [lia|reflexivity].
        * intros k z Hk Hz. apply (M k z); set_solver.
      + right. rewrite Es, Et. unfold lww_merge; simpl.
        destruct (N.leb_spec (op_op x).2 (op_op y).2) as [Hle|Hlt].
        * exists j, y. split; [set_solver|]. split; [exact Hy|]. split; [reflexivity|].
          intros k z Hk Hz. apply elem_of_union in Hk as [Hk|Hk]; [|eauto].
          specialize (M k z Hk Hz). lia.
        * exists i, x. split; [set_solver|]. split; [exact Hx|]. split; [reflexivity|].
          intros k z Hk Hz. apply elem_of_union in Hk as [Hk|Hk]; [eauto|].
          specialize (M' k z Hk Hz). lia.
  Qed.

  Lemma latest_unique v0 h K r r' :
    good_stamps h -> latest_known v0 h K r -> latest_known v0 h K r' -> r = r'.
  Proof.
    intros (A & _) [[E Er]|(i & x & Hi & Hx & Er & M)] [[E' Er']|(j & y & Hj & Hy & Er' & M')]; subst.
    - reflexivity.
    - set_solver.
    - set_solver.
    - specialize (M j y Hj Hy). specialize (M' i x Hi Hx).
      assert (i = j) by (apply (A i j x y); auto; lia). subst. assert (x = y) by congruence. now subst.
  Qed.
End LWW.

(** ** Multi-value register *)

(** Writes that no known write has overwritten. *)
Definition not_overwritten {O} (h : history O) (K : gset nat) (i : nat) : Prop :=
  i ∈ K /\ forall j y, j ∈ K -> h !! j = Some y -> i ∉ op_past y.

Lemma exists_last (P : nat -> Prop) `{forall i, Decision (P i)} n :
  (forall i, i < n -> ~ P i) \/ (exists i, i < n /\ P i /\ forall j, j < n -> P j -> j <= i).
Proof.
  induction n as [|n [IH|(i & Hi & Pi & M)]].
  - left. intros i Hi. lia.
  - destruct (decide (P n)) as [Pn|Pn].
    + right. exists n. split; [lia|]. split; [exact Pn|]. intros j Hj Pj. lia.
    + left. intros i Hi. destruct (decide (i = n)) as [->|]; [exact Pn|]. apply IH. lia.
  - destruct (decide (P n)) as [Pn|Pn].
    + right. exists n. split; [lia|]. split; [exact Pn|]. intros j Hj Pj. lia.
    + right. exists i. split; [lia|]. split; [exact Pi|]. intros j Hj Pj.
      destruct (decide (j = n)) as [->|]; [tauto|]. apply M; [lia|exact Pj].
Qed.

Section Maximal.
  Context {O : Type}.
  Implicit Types (h : history O) (K L : gset nat).

  Lemma maximal_above h K i :
    wf h -> closed h K -> i ∈ K -> exists m, not_overwritten h K m /\ i ∈ upto h m.
  Proof.
    intros W C. remember (length h - i) as n eqn:En. revert i En.
    induction n as [n IH] using lt_wf_ind. intros i -> Hi.
    destruct (lookup_lt_is_Some_2 h i (proj1 C i Hi)) as [x Hx].
    destruct (decide (set_Exists (fun j => i ∈ default ∅ (op_past <$> h !! j)) K)) as [E|NE].
    - destruct E as (j & Hj & E). destruct (h !! j) as [y|] eqn:Hy; simpl in E; [|set_solver].
      destruct (W j y Hy) as (_ & B & _). specialize (B i E).
      pose proof (proj1 C j Hj) as Lj.
      assert (D : length h - j < length h - i) by lia.
      destruct (IH _ D j eq_refl Hj) as (m & Hm & Hjm). exists m. split; [exact Hm|].
      destruct Hm as [HmK _]. destruct (lookup_lt_is_Some_2 h m (proj1 C m HmK)) as [z Hz].
      pose proof (upto_closed h m z W Hz) as CU. apply (proj2 CU j y Hjm Hy). exact E.
    - exists i. split; [|now apply (upto_self h i x)]. split; [exact Hi|].
      intros j y Hj Hy Hp. apply NE. exists j. rewrite Hy. auto.
  Qed.
End Maximal.

Section MV.
  Context {T : Type} `{EqDecision T}.
  Implicit Types (h : history T) (K L : gset nat) (s t : mvreg T).

  Definition one_op (x : opinfo T) : N := 1.
  Definition counts_of h L (c : vclock) : Prop :=
    (forall q, c !! q <> Some 0%N) /\ (forall q, vc_get c q = sum_known (only q one_op) h L).

  Definition mv_inv h K (s : mvreg T) : Prop :=
    NoDup (mv_values s) /\
    forall e, e ∈ mv_values s <->
      exists i x, not_overwritten h K i /\ h !! i = Some x /\ e.1 = op_op x /\ counts_of h (upto h i) e.2.

  Lemma counts_unique h L c c' : counts_of h L c -> counts_of h L c' -> c = c'.
  Proof.
    intros [A B] [A' B']. apply map_eq. intros q. specialize (A q). specialize (A' q).
    specialize (B q). specialize (B' q). rewrite <- B' in B. unfold vc_get in B.
    destruct (c !! q), (c' !! q); simpl in *; congruence.
  Qed.

  Lemma counts_dominates h i j x y c c' :
    wf h -> h !! i = Some x -> h !! j = Some y ->
    counts_of h (upto h i) c -> counts_of h (upto h j) c' ->
    vc_dominates c' c = true <-> i ∈ upto h j.
  Proof.
    intros W Hx Hy [_ A] [_ B]. rewrite vc_dominates_spec. split.
    - intros D. specialize (D (op_origin x)). rewrite A, B in D.
      eapply (only_covered one_op h (upto h i) (upto h j) i x); eauto using upto_closed, upto_self.
    - intros Hi q. rewrite A, B. apply only_subset. apply upto_subset; eauto using upto_closed.
  Qed.

  Lemma counts_differ h i j x y c :
    wf h -> h !! i = Some x -> h !! j = Some y ->
    counts_of h (upto h i) c -> counts_of h (upto h j) c -> i = j.
  Proof.
    intros W Hx Hy A B.
    assert (C : i ∈ upto h j) by (apply (counts_dominates h i j x y c c W Hx Hy A B), vc_dominates_refl).
    assert (D : j ∈ upto h i) by (apply (counts_dominates h j i y x c c W Hy Hx B A), vc_dominates_refl).
    destruct (decide (i = j)) as [|Hne]; [assumption|]. exfalso.
    pose proof (upto_in_past h i j x y W Hx Hy C Hne) as A'.
    pose proof (upto_in_past h j i y x W Hy Hx D (not_eq_sym Hne)) as B'.
    destruct (W i x Hx) as (_ & P & _). destruct (W j y Hy) as (_ & Q & _).
    specialize (P j B'). specialize (Q i A'). lia.
  Qed.

  Lemma counts_mono h x i c :
    wf h -> i < length h -> counts_of (h ++ [x]) (upto (h ++ [x]) i) c <-> counts_of h (upto h i) c.
  Proof.
    intros W Hi. unfold counts_of. split; intros [A B]; split; try exact A; intros q; rewrite B;
      [|symmetry]; now apply sum_known_upto_hist.
  Qed.

  Lemma fold_vc_get (l : list (T * vclock)) (acc : vclock) q n :
    vc_get (fold_left (fun acc e => vc_merge acc e.2) l acc) q = n <->
    ((vc_get acc q <= n)%N /\ (forall e, e ∈ l -> (vc_get e.2 q <= n)%N) /\
     (vc_get acc q = n \/ exists e, e ∈ l /\ vc_get e.2 q = n)).
  Proof.
    revert acc. induction l as [|e l IH]; intros acc; simpl.
    - split.
      + intros <-. split; [lia|]. split; [|auto]. intros e He. inversion He.
      + intros (_ & _ & [E|(e & He & _)]); [exact E|inversion He].
    - rewrite IH, vc_get_merge. split.
      + intros (A & B & D). split; [lia|]. split.
        * intros f Hf. apply elem_of_cons in Hf as [->|Hf]; [lia|auto].
        * destruct D as [D|(f & Hf & D)].
          -- destruct (N.max_spec (vc_get acc q) (vc_get e.2 q)) as [[? E]|[? E]]; rewrite E in D.
             ++ right. exists e. split; [left|exact D].
             ++ left. exact D.
          -- right. exists f. split; [now right|exact D].
      + intros (A & B & D). assert (Ee : (vc_get e.2 q <= n)%N) by (apply B; left).
        split; [lia|]. split; [intros f Hf; apply B; now right|].
        destruct D as [D|(f & Hf & D)]; [left; lia|].
        apply elem_of_cons in Hf as [->|Hf]; [left; lia|]. right. eauto.
  Qed.

  Lemma fold_vc_nonzero (l : list (T * vclock)) (acc : vclock) :
    (forall q, acc !! q <> Some 0%N) -> (forall e, e ∈ l -> forall q, e.2 !! q <> Some 0%N) ->
    forall q, fold_left (fun acc e => vc_merge acc e.2) l acc !! q <> Some 0%N.
  Proof.
    revert acc. induction l as [|e l IH]; intros acc A B q; simpl; [apply A|].
    apply IH.
    - intros p. unfold vc_merge. rewrite max_merge_lookup.
      specialize (A p). assert (Be := B e (elem_of_list_here _ _) p).
      destruct (acc !! p), (e.2 !! p); simpl; try congruence.
      + intros E. injection E as E. apply A. f_equal. lia.
      + intros E. injection E as E. apply A. f_equal. lia.
      + intros E. injection E as E. apply Be. f_equal. lia.
    - intros f Hf. apply B. now right.
  Qed.

  Lemma mv_counts_exist h m z : wf h -> h !! m = Some z -> exists c, counts_of h (upto h m) c.
  Proof.
    intros W Hz.
 pose proof (upto_closed h m z W Hz) as CU.
            assert (Gen : forall l : list N, exists c : vclock, (forall q, c !! q <> Some 0%N) /\
               forall q, vc_get c q = if decide (q ∈ l) then sum_known (only q one_op) h (upto h m) else 0%N).
            { induction l as [|p l (c & A & B)].
              - exists ∅. split; [intros q'; rewrite lookup_empty; discriminate|].
                intros q'. rewrite vc_get_empty. case_decide as E; [inversion E|reflexivity].
              - destruct (decide (sum_known (only p one_op) h (upto h m) = 0%N)) as [Z|NZ].
                + exists (delete p c). split.
                  * intros q'. destruct (decide (q' = p)) as [->|Hne];
                      [rewrite lookup_delete; discriminate|rewrite lookup_delete_ne by auto; apply A].
                  * intros q'. unfold vc_get. destruct (decide (q' = p)) as [->|Hne].
                    -- rewrite lookup_delete. simpl. rewrite decide_True by left. auto.
                    -- rewrite lookup_delete_ne by auto. fold (vc_get c q'). rewrite B.
                       destruct (decide (q' ∈ l)); destruct (decide (q' ∈ p :: l)) as [E|E]; try reflexivity.
                       ++ exfalso. apply E. now right.
                       ++ apply elem_of_cons in E as [?|?]; tauto.
                + exists (<[p := sum_known (only p one_op) h (upto h m)]> c). split.
                  * intros q'. destruct (decide (q' = p)) as [->|Hne];
                      [rewrite lookup_insert; congruence|rewrite lookup_insert_ne by auto; apply A].
                  * intros q'. unfold vc_get. destruct (decide (q' = p)) as [->|Hne].
                    -- rewrite lookup_insert. simpl. rewrite decide_True by left. auto.
                    -- rewrite lookup_insert_ne by auto. fold (vc_get c q'). rewrite B.
                       destruct (decide (q' ∈ l)); destruct (decide (q' ∈ p :: l)) as [E|E]; try reflexivity.
                       ++ exfalso. apply E. now right.
                       ++ apply elem_of_cons in E as [?|?]; tauto. }
            destruct (Gen (op_origin <$> h)) as (c & A & B). exists c. split; [exact A|].
            intros q'. rewrite B. case_decide as E; [reflexivity|].
            assert (Z : forall (l : history T) n, (forall y, y ∈ l -> op_origin y <> q') ->
                        sum_from (only q' one_op) l n (upto h m) = 0%N).
            { clear. induction l as [|y l IH]; intros n H; simpl; [reflexivity|].
              rewrite IH by (intros; apply H; now right).
              unfold only. rewrite (decide_False (P := op_origin y = q')) by (apply H; left). now case_decide. }
            symmetry. apply Z. intros y Hy Eq. apply E. rewrite <- Eq. apply elem_of_list_fmap. eauto. 
  Qed.

  Lemma mv_combined h K s :
    wf h -> closed h K -> mv_inv h K s ->
    counts_of h K (fold_left (fun acc e => vc_merge acc e.2) (mv_values s) (∅ : vclock)).
  Proof.
    intros W C [ND M]. split.
    - apply fold_vc_nonzero.
      + intros q. rewrite lookup_empty. discriminate.
      + intros e He. apply M in He as (i & x & _ & _ & _ & [A _]). exact A.
    - intros q. apply fold_vc_get. rewrite vc_get_empty. split; [lia|]. split.
      + intros e He. apply M in He as (i & x & [Hi _] & _ & _ & [_ B]). rewrite B.
        apply only_subset. now apply upto_subset.
      + destruct (exists_last (fun i => i ∈ K /\ op_origin <$> (h !! i) = Some q) (length h)) as [No|(i & Hl & [Hi Hq] & Mx)].
        * left. symmetry. unfold sum_known.
          transitivity (sum_from (only q one_op) h 0 (∅ : gset nat)).
          -- apply sum_from_ext. simpl. intros j x Hx Hne. split; [|set_solver]. intros Hj. exfalso.
             apply (No j (proj1 C j Hj)). split; [exact Hj|]. rewrite Hx. simpl. f_equal.
             unfold only in Hne. case_decide; congruence.
          -- clear. generalize 0. induction h as [|x h IH]; intros n; simpl; [reflexivity|].
             rewrite decide_False by set_solver. rewrite IH. reflexivity.
        * right. destruct (h !! i) as [x|] eqn:Hx; [|discriminate]. injection Hq as Hq.
          destruct (maximal_above h K i W C Hi) as (m & Hm & Him).
          pose proof (proj1 Hm) as HmK. destruct (lookup_lt_is_Some_2 h m (proj1 C m HmK)) as [z Hz].
          pose proof (mv_counts_exist h m z W Hz) as Hex.
          destruct Hex as (c & Hc). exists (op_op z, c). split.
          -- apply M. exists m, z. auto.
          -- simpl. destruct Hc as [_ B]. rewrite B. apply N.le_antisymm.
             ++ apply only_subset. now apply upto_subset.
             ++ apply sum_from_mono. simpl. intros j y Hy Hne Hj.
                assert (Ey : op_origin y = q) by (unfold only in Hne; case_decide; congruence).
                assert (j <= i) by (apply Mx; [apply (proj1 C); exact Hj|split; [exact Hj|rewrite Hy; simpl; now f_equal]]).
                destruct (decide (j = i)) as [->|Hji]; [exact Him|].
                apply (closed_prefix h (upto h m) i j x y W (upto_closed h m z W Hz) Him Hx Hy); [congruence|lia].
  Qed.

  Lemma mv_inv_set h o K s :
    wf h -> closed h K -> mv_inv h K s ->
    mv_inv (h ++ [{| op_origin := mv_id s; op_op := o; op_past := K |}]) (K ∪ {[length h]}) (mv_set o s).
  Proof.
    intros W C I. pose proof (mv_combined h K s W C I) as [N0 Cb].
    set (x := {| op_origin := mv_id s; op_op := o; op_past := K |}).
    assert (Hx : (h ++ [x]) !! length h = Some x) by (rewrite lookup_app_r, Nat.sub_diag by lia; reflexivity).
    assert (Hu : upto (h ++ [x]) (length h) = K ∪ {[length h]}) by (now rewrite (upto_some _ _ x Hx)).
    assert (Hc : counts_of (h ++ [x]) (upto (h ++ [x]) (length h))
       (vc_increment (fold_left (fun acc e => vc_merge acc e.2) (mv_values s) (∅ : vclock)) (mv_id s))).
    { rewrite Hu. split.
      - intros q. unfold vc_increment. destruct (decide (q = mv_id s)) as [->|Hq].
        + rewrite lookup_insert. intros E. injection E as E. lia.
        + rewrite lookup_insert_ne by auto. apply N0.
      - intros q. rewrite vc_get_increment, sum_known_snoc, Cb by exact C.
        unfold only, one_op. subst x. simpl. repeat case_decide; congruence || reflexivity. }
    assert (Hnew : not_overwritten (h ++ [x]) (K ∪ {[length h]}) (length h)).
    { split; [set_solver|]. intros j y Hj Hy Hp.
      assert (W' : wf (h ++ [x]) \/ True) by auto.
      apply elem_of_union in Hj as [Hj|Hj].
      - pose proof (proj1 C j Hj). rewrite lookup_app_l in Hy by lia.
        destruct (W j y Hy) as (_ & B & _). specialize (B _ Hp). lia.
      - apply elem_of_singleton in Hj. subst j. assert (y = x) by congruence. subst y. simpl in Hp.
        apply (proj1 C) in Hp. lia. }
    split; simpl.
    - apply NoDup_singleton.
    - intros e. rewrite elem_of_list_singleton. split.
      + intros ->. exists (length h), x. auto.
      + intros (i & y & [Hi Hm] & Hy & E1 & E2).
        destruct (decide (i = length h)) as [->|Hne].
        * assert (y = x) by congruence. subst y. destruct e as [e1 e2]; simpl in *. subst e1.
          f_equal. eapply counts_unique; eauto.
        * exfalso. assert (i ∈ K) by set_solver.
          apply (Hm (length h) x); [set_solver|exact Hx|exact H].
  Qed.

  Lemma mv_filter_spec all l result e :
    e ∈ fold_left (mv_filter_step (T := T) all) l result <->
    e ∈ result \/ (e ∈ l /\ mv_is_dominated all e.2 = false).
  Proof.
    revert result. induction l as [|f l IH]; intros result; simpl.
    - split; [auto|]. intros [?|[H _]]; [assumption|inversion H].
    - rewrite IH. unfold mv_filter_step. destruct (mv_is_dominated all f.2) eqn:E.
      + split; [intros [?|[? ?]]; [auto|right; split; [now right|assumption]]|].
        intros [?|[H F]]; [auto|]. apply elem_of_cons in H as [->|H]; [congruence|auto].
      + destruct (existsb _ result) eqn:X.
        * apply existsb_exists in X as (g & Hg & G). apply andb_true_iff in G as [G1 G2].
          apply bool_decide_eq_true in G1, G2. apply elem_of_list_In in Hg.
          split; [intros [?|[? ?]]; [auto|right; split; [now right|assumption]]|].
          intros [?|[H F]]; [auto|]. apply elem_of_cons in H as [->|H]; [|auto].
          left. replace f with g; [assumption|]. destruct f, g; simpl in *; congruence.
        * rewrite elem_of_app, elem_of_list_singleton. split.
          -- intros [[?| ->]|[? ?]]; [auto|right; split; [now left|assumption]|right; split; [now right|assumption]].
          -- intros [?|[H F]]; [auto|]. apply elem_of_cons in H as [->|H]; auto.
  Qed.

  Lemma mv_filter_nodup all l result :
    NoDup result -> NoDup (fold_left (mv_filter_step (T := T) all) l result).
  Proof.
    revert result. induction l as [|f l IH]; intros result ND; simpl; [exact ND|].
    apply IH. unfold mv_filter_step. destruct (mv_is_dominated all f.2); [exact ND|].
    destruct (existsb _ result) eqn:X; [exact ND|].
    apply NoDup_app. split; [exact ND|]. split; [|apply NoDup_singleton].
    intros g Hg Hf. apply elem_of_list_singleton in Hf. subst g.
    assert (existsb (fun g => bool_decide (g.1 = f.1) && bool_decide (g.2 = f.2)) result = true); [|congruence].
    apply existsb_exists. exists f. split; [now apply elem_of_list_In|].
    rewrite !bool_decide_true by reflexivity. reflexivity.
  Qed.

  Lemma mv_dominated_spec all c :
    mv_is_dominated (T := T) all c = false <->
    forall e, e ∈ all -> vc_dominates e.2 c = true -> e.2 = c.
  Proof.
    unfold mv_is_dominated. rewrite <- not_true_iff_false, existsb_exists. split.
    - intros H e He D. destruct (decide (e.2 = c)) as [|Hne]; [assumption|]. exfalso. apply H.
      exists e. rewrite D, bool_decide_false by exact Hne. split; [now apply elem_of_list_In|reflexivity].
    - intros H (e & He & D). apply andb_true_iff in D as [D1 D2]. apply elem_of_list_In in He.
      rewrite bool_decide_true in D2 by (apply H; assumption). discriminate.
  Qed.

  Lemma mv_merge_spec s t e :
    e ∈ mv_values (mv_merge s t) <->
    (e ∈ mv_values s \/ e ∈ mv_values t) /\
    (forall f, f ∈ mv_values s \/ f ∈ mv_values t -> vc_dominates f.2 e.2 = true -> f.2 = e.2).
  Proof.
    unfold mv_merge; simpl. rewrite mv_filter_spec, mv_dominated_spec, elem_of_app. split.
    - intros [H|[H1 H2]]; [inversion H|]. split; [exact H1|]. intros f Hf. apply H2. now apply elem_of_app.
    - intros [H1 H2]. right. split; [exact H1|]. intros f Hf. apply H2. now apply elem_of_app.
  Qed.

  Lemma mv_inv_merge h K L s t :
    wf h -> closed h K -> closed h L -> mv_inv h K s -> mv_inv h L t -> mv_inv h (K ∪ L) (mv_merge s t).
  Proof.
    intros W CK CL [_ Ms] [_ Mt]. split; [unfold mv_merge; simpl; apply mv_filter_nodup; constructor|].
    intros e. rewrite mv_merge_spec.
    assert (All : forall f, f ∈ mv_values s \/ f ∈ mv_values t <->
      exists i x, (not_overwritten h K i \/ not_overwritten h L i) /\ h !! i = Some x /\
                  f.1 = op_op x /\ counts_of h (upto h i) f.2).
    { intros f. rewrite Ms, Mt. split.
      - intros [(i & x & A & B)|(i & x & A & B)]; exists i, x; tauto.
      - intros (i & x & [A|A] & B); [left|right]; exists i, x; tauto. }
    (* a write overwritten on one side is dominated by an entry held there *)
    assert (Dom : forall K', (K' = K \/ K' = L) -> closed h K' -> forall i x j y c,
       h !! i = Some x -> counts_of h (upto h i) c -> j ∈ K' -> h !! j = Some y -> i ∈ op_past y ->
       (forall f, f ∈ mv_values s \/ f ∈ mv_values t -> vc_dominates f.2 c = true -> f.2 = c) -> False).
    { intros K' HK' C' i x j y c Hx Hc Hj Hy Hp ND.
      destruct (maximal_above h K' j W C' Hj) as (m & Hm & Hjm).
      pose proof (proj1 Hm) as HmK. destruct (lookup_lt_is_Some_2 h m (proj1 C' m HmK)) as [z Hz].
      assert (Him : i ∈ upto h m).
      { pose proof (upto_closed h m z W Hz) as CU. apply (proj2 CU j y Hjm Hy). exact Hp. }
      assert (Hne : i <> m).
      { intros ->. destruct (W j y Hy) as (_ & B & _). specialize (B m Hp).
        destruct (decide (j = m)) as [->|Hjm']; [lia|].
        pose proof (upto_in_past h j m y z W Hy Hz Hjm Hjm') as Hp'.
        destruct (W m z Hz) as (_ & B' & _). specialize (B' j Hp'). lia. }
      assert (Hentry : exists f, (f ∈ mv_values s \/ f ∈ mv_values t) /\ counts_of h (upto h m) f.2).
      { destruct (mv_counts_exist h m z W Hz) as (cm & Hcm).
        exists (op_op z, cm). split; [|exact Hcm]. apply All. exists m, z. simpl.
        destruct HK' as [->| ->]; tauto. }
      destruct Hentry as (f & Hf & Hfc).
      assert (D : vc_dominates f.2 c = true) by (apply (counts_dominates h i m x z c f.2 W Hx Hz Hc Hfc); exact Him).
      specialize (ND f Hf D). rewrite ND in Hfc. apply Hne. eapply counts_differ; eauto. }
    split.
    - intros [He ND]. apply All in He as (i & x & Hi & Hx & E1 & E2).
      exists i, x. split; [|auto]. split.
      + destruct Hi as [[? _]|[? _]]; set_solver.
      + intros j y Hj Hy Hp. apply elem_of_union in Hj as [Hj|Hj].
        * exact (Dom K (or_introl eq_refl) CK i x j y e.2 Hx E2 Hj Hy Hp ND).
        * exact (Dom L (or_intror eq_refl) CL i x j y e.2 Hx E2 Hj Hy Hp ND).
    - intros (i & x & [Hi Hm] & Hx & E1 & E2). split.
      + apply All. exists i, x. split; [|auto].
        apply elem_of_union in Hi as [Hi|Hi]; [left|right]; (split; [exact Hi|]);
          intros j y Hj Hy; apply (Hm j y); set_solver.
      + intros f Hf D. apply All in Hf as (j & y & Hj & Hy & F1 & F2).
        apply (counts_dominates h i j x y e.2 f.2 W Hx Hy E2 F2) in D.
        destruct (decide (i = j)) as [->|Hne]; [eapply counts_unique; eauto|].
        exfalso. apply (Hm j y); [destruct Hj as [[? _]|[? _]]; set_solver|exact Hy|].
        exact (upto_in_past h i j x y W Hx Hy D Hne).
  Qed.
End MV.

Section MVRun.
  Context {T : Type} `{EqDecision T}.

  Lemma mv_inv_det (h : history T) K (s t : mvreg T) :
    mv_inv h K s -> mv_inv h K t -> mv_values s ≡ₚ mv_values t.
  Proof.
    intros [N1 M1] [N2 M2]. apply NoDup_Permutation; [exact N1|exact N2|].
    intros e. now rewrite M1, M2.
  Qed.

  Lemma mv_run (evs : list (event T)) r :
    mv_inv (hist_of evs) (known_by evs r) (state_at mv_new mv_set mv_merge evs r).
  Proof.
    pose proof (replication_invariant (S := mvreg T) mv_new mv_set mv_merge mv_id (fun h K s => mv_inv h K s)) as R.
    apply R; clear R.
    - reflexivity.
    - reflexivity.
    - reflexivity.
    - intros q. split; [constructor|]. intros e. split; [intros He; inversion He|].
      intros (i & x & _ & Hx & _). rewrite lookup_nil in Hx. discriminate.
    - intros h x K s W C [ND M]. split; [exact ND|]. intros e. rewrite M. split.
      + intros (i & y & [Hi Hm] & Hy & E1 & E2). pose proof (proj1 C i Hi) as Hl.
        exists i, y. split; [split; [exact Hi|]|].
        * intros j z Hj Hz. rewrite lookup_app_l in Hz by (apply (proj1 C); exact Hj). exact (Hm j z Hj Hz).
        * split; [now apply lookup_app_l_Some|]. split; [exact E1|]. now apply counts_mono.
      + intros (i & y & [Hi Hm] & Hy & E1 & E2). pose proof (proj1 C i Hi) as Hl.
        rewrite lookup_app_l in Hy by exact Hl.
        exists i, y. split; [split; [exact Hi|]|].
        * intros j z Hj Hz. apply (Hm j z Hj (lookup_app_l_Some _ _ _ _ Hz)).
        * split; [exact Hy|]. split; [exact E1|]. now apply counts_mono in E2.
    - intros h o K s W C _ I. now apply mv_inv_set.
    - intros h K L s t W CK CL I J. now apply mv_inv_merge.
  Qed.

  Lemma mv_read_known (evs : list (event T)) r v :
    v ∈ mv_read (state_at mv_new mv_set mv_merge evs r) <->
    exists i x, i ∈ known_by evs r /\ hist_of evs !! i = Some x /\ op_op x = v /\
      (forall j y, j ∈ known_by evs r -> hist_of evs !! j = Some y -> i ∉ op_past y).
  Proof.
    destruct (mv_run evs r) as [_ M]. unfold mv_read. rewrite elem_of_list_fmap. split.
    - intros (e & -> & He). apply M in He as (i & x & [A B] & Hx & E & _). exists i, x. auto.
    - intros (i & x & Hi & Hx & <- & Hm).
      pose proof (ginv_exec evs) as [W C _ _].
      destruct (mv_counts_exist (hist_of evs) i x W Hx) as (c & Hc).
      exists (op_op x, c). split; [reflexivity|]. apply M. exists i, x. repeat split; try assumption; apply Hc.
  Qed.

  (** Every held write is read once: as many values as surviving writes. *)
  Lemma mv_values_once (evs : list (event T)) r i j x y c c' v :
    let s := state_at mv_new mv_set mv_merge evs r in
    (v, c) ∈ mv_values s -> (v, c') ∈ mv_values s ->
    hist_of evs !! i = Some x -> hist_of evs !! j = Some y ->
    counts_of (hist_of evs) (upto (hist_of evs) i) c -> counts_of (hist_of evs) (upto (hist_of evs) j) c' ->
    c = c' -> i = j.
  Proof.
    intros s _ _ Hx Hy A B <-. pose proof (ginv_exec evs) as [W _ _ _].
    eapply counts_differ; eauto.
  Qed.

  Lemma mv_version_known (evs : list (event T)) r :
    counts_of (hist_of evs) (known_by evs r) (mv_version (state_at mv_new mv_set mv_merge evs r)).
  Proof.
    pose proof (ginv_exec evs) as [W C _ _]. apply mv_combined; [exact W|apply C|apply mv_run].
  Qed.

  (** mvregister.rs:123-134 and 136-158. *)
  Definition mv_delta_since (m : mvreg T) (since : vclock) : option (list (T * vclock)) :=
    if vc_dominates since (mv_version m) then None else Some (mv_values m).
  Definition mv_apply_delta (m : mvreg T) (d : list (T * vclock)) : mvreg T :=
    mv_merge m {| mv_values := d; mv_id := 0%N |}.

  Lemma mv_delta_equiv (evs : list (event T)) r r' :
    let s := state_at mv_new mv_set mv_merge evs r in
    let p := state_at mv_new mv_set mv_merge evs r' in
    mv_read (match mv_delta_since s (mv_version p) with Some d => mv_apply_delta p d | None => p end)
    ≡ₚ mv_read (mv_merge p s).
  Proof.
    intros s p. unfold mv_delta_since. destruct (vc_dominates (mv_version p) (mv_version s)) eqn:D.
    - pose proof (ginv_exec evs) as [W C _ _].
      assert (S1 : known_by evs r ⊆ known_by evs r').
      { intros i Hi. destruct (lookup_lt_is_Some_2 _ i (proj1 (C r) i Hi)) as [x Hx].
        apply (only_covered one_op (hist_of evs) (known_by evs r) (known_by evs r') i x W (C r) (C r') Hi Hx); [discriminate|].
        { rewrite vc_dominates_spec in D. specialize (D (op_origin x)). unfold s, p in D.
          destruct (mv_version_known evs r) as [_ A]. destruct (mv_version_known evs r') as [_ B].
          rewrite A, B in D. exact D. } }
      unfold mv_read. apply fmap_Permutation. apply (mv_inv_det (hist_of evs) (known_by evs r')).
      + apply mv_run.
      + replace (known_by evs r') with (known_by evs r' ∪ known_by evs r) by set_solver.
        apply mv_inv_merge; [exact W|apply C|apply C|apply mv_run|apply mv_run].
    - reflexivity.
  Qed.
End MVRun.

(** ** Delta buffer *)

Definition db_pushes {D} (max_size : nat) (ps : list (vclock * D)) : dbuf D :=
  fold_left (fun b p => db_push b p.1 p.2) ps (db_new max_size).

Lemma db_pushes_state {D} max_size (ps : list (vclock * D)) :
  exists k, k <= length ps /\ db_deltas (db_pushes max_size ps) = drop k ps /\
    db_max (db_pushes max_size ps) = max_size /\
    length (db_deltas (db_pushes max_size ps)) <= Nat.max 1 max_size /\
    db_oldest (db_pushes max_size ps) =
      match k with 0 => ∅ | S k' => match ps !! k' with Some p => p.1 | None => ∅ end end.
Proof.
  unfold db_pushes. induction ps as [|p ps IH] using rev_ind.
  - exists 0. simpl. repeat split; lia.
  - destruct p as [pv pd]. rewrite fold_left_app. simpl.
    destruct IH as (k & Hk & E1 & E2 & E3 & E4). set (b := fold_left _ ps _) in *.
    unfold db_push. rewrite E2. destruct (Nat.leb_spec max_size (length (db_deltas b))) as [L|L].
    + destruct (db_deltas b) as [|[ov od] rest] eqn:Eb.
      * exists k. assert (length ps <= k).
        { assert (length (drop k ps) = 0) by (rewrite <- E1; reflexivity). rewrite drop_length in H. lia. }
        assert (k = length ps) by lia. rewrite Eb. simpl.
        split; [rewrite app_length; lia|]. split; [rewrite drop_app_le, <- E1 by lia; reflexivity|].
        split; [exact E2|]. split; [simpl; lia|]. rewrite E4. destruct k as [|k']; [reflexivity|].
        rewrite lookup_app_l by lia. reflexivity.
      * exists (S k). simpl in *.
        assert (Hlt : k < length ps).
        { assert (length (drop k ps) = S (length rest)) by (rewrite <- E1; reflexivity). rewrite drop_length in H. lia. }
        assert (Hd : drop (S k) ps = rest).
        { replace (S k) with (k + 1) by lia. rewrite <- drop_drop, <- E1. reflexivity. }
        split; [rewrite app_length; simpl; lia|].
        split; [rewrite drop_app_le, Hd by lia; reflexivity|].
        split; [reflexivity|]. split; [rewrite app_length; simpl; lia|].
        rewrite lookup_app_l by lia.
        assert (Hh : ps !! k = Some (ov, od)).
        { rewrite <- (Nat.add_0_r k), <- lookup_drop, <- E1. reflexivity. }
        now rewrite Hh.
    + exists k. split; [rewrite app_length; lia|].
      split; [rewrite drop_app_le, <- E1 by lia; reflexivity|]. simpl.
      split; [exact E2|]. split; [rewrite app_length; simpl; lia|].
      rewrite E4. destruct k as [|k']; [reflexivity|]. rewrite lookup_app_l by lia. reflexivity.
Qed.

Lemma filter_drop_covered {A} (P : A -> Prop) `{forall x, Decision (P x)} l k :
  (forall i x, i < k -> l !! i = Some x -> ~ P x) -> filter P (drop k l) = filter P l.
Proof.
  revert k. induction l as [|x l IH]; intros k Hk; [now rewrite drop_nil|].
  destruct k as [|k]; [reflexivity|]. simpl.
  rewrite filter_cons_False.
  - apply IH. intros i y Hi Hy. apply (Hk (S i) y); [lia|exact Hy].
  - apply (Hk 0 x); [lia|reflexivity].
Qed.

Lemma db_since_complete {D} max_size (ps : list (vclock * D)) (v : vclock) l :
  (forall i j p q, i < j -> ps !! i = Some p -> ps !! j = Some q -> vc_dominates q.1 p.1 = true) ->
  (forall p, p ∈ ps -> vc_dominates v p.1 = true \/ vc_dominates p.1 v = true) ->
  db_since (db_pushes max_size ps) v = Some l ->
  l = (filter (fun e => negb (vc_dominates v e.1)) ps).*2.
Proof.
  intros Chain Cmp H. destruct (db_pushes_state max_size ps) as (k & Hk & E1 & _ & _ & E4).
  unfold db_since in H. rewrite E1 in H.
  destruct (negb (bool_decide (db_oldest (db_pushes max_size ps) = ∅)) &&
            vc_dominates (db_oldest (db_pushes max_size ps)) v) eqn:B; [discriminate|].
  injection H as <-. f_equal. apply filter_drop_covered.
  intros i x Hi Hx. destruct k as [|k']; [lia|].
  destruct (lookup_lt_is_Some_2 ps k' ltac:(lia)) as [p Hp]. rewrite Hp in E4. rewrite E4 in B.
  assert (Vp : vc_dominates v p.1 = true).
  { apply andb_false_iff in B as [B|B].
    - apply negb_false_iff, bool_decide_eq_true in B. rewrite B.
      apply vc_dominates_spec. intros r. rewrite vc_get_empty. lia.
    - destruct (Cmp p) as [?|?]; [|assumption|congruence]. apply elem_of_list_lookup; eauto. }
  assert (Vx : vc_dominates v x.1 = true).
  { destruct (decide (i = k')) as [->|Hne]; [congruence|].
    eapply vc_dominates_trans; [exact Vp|]. apply (Chain i k' x p); [lia|exact Hx|exact Hp]. }
  rewrite Vx. simpl. intros [].
Qed.
