(** Observed-remove maps, and deltas of sets and maps. *)
From stdpp Require Import gmap.
From Verif Require Import CrdtModel CrdtSetModel Replication ReplicationCount ReplicationEffects CrdtClockProofs
  CrdtCounterProofs ReplicationOrder CrdtSetProofs.

Section MapMerge.
  Context {K : Type} `{Countable K} {V : Type} (vdef : N -> V) (vmerge : V -> V -> V).
  Implicit Types s t : ormap K V.
  Notation om_merge := (om_merge vdef vmerge).

  Lemma om_merge_value s t k :
    om_values (om_merge s t) !! k =
    match om_values t !! k with
    | Some b => Some (vmerge (default (vdef (om_id s)) (om_values s !! k)) b)
    | None => om_values s !! k
    end.
  Proof.
    apply (fold_insert_map_lookup (fun k o b => vmerge (default (vdef (om_id s)) o) b)).
  Qed.

  Lemma om_added_lookup (c : dotctx) (o m : gmap K (gset dot)) k :
    fold_left (om_add_step c) (map_to_list o) m !! k =
    match o !! k with
    | Some ds => Some (dots_of m k ∪ filter (fun d => dc_has_seen c d = false) ds)
    | None => m !! k
    end.
  Proof.
    apply (fold_insert_map_lookup (fun k a ds => default ∅ a ∪ filter (fun d => dc_has_seen c d = false) ds)).
  Qed.

  Lemma dots_of_filter (m : gmap K (gset dot)) k :
    dots_of (filter (fun kv => (kv.2 : gset dot) <> ∅) m) k = dots_of m k.
  Proof.
    unfold dots_of. rewrite map_filter_lookup. destruct (m !! k) as [D|]; [|reflexivity]. simpl.
    destruct (decide (D = ∅)) as [->|E].
    - rewrite option_guard_False; [reflexivity|]. intros F. now apply F.
    - rewrite option_guard_True; [reflexivity|exact E].
  Qed.

  Lemma filter_ne (m : gmap K (gset dot)) k :
    filter (fun kv => (kv.2 : gset dot) <> ∅) m !! k <> Some ∅.
  Proof. intros E. apply map_filter_lookup_Some in E as [_ E]. now apply E. Qed.

  Lemma om_merge_dots s t k d :
    d ∈ dots_of (om_keys (om_merge s t)) k <->
      (d ∈ dots_of (om_keys s) k /\ (~ seen (om_ctx t) d \/ d ∈ dots_of (om_keys t) k)) \/
      (d ∈ dots_of (om_keys t) k /\ (~ seen (om_ctx s) d \/ d ∈ dots_of (om_keys s) k)).
  Proof.
    unfold CrdtSetModel.om_merge. cbn [om_keys]. rewrite dots_of_filter.
    unfold dots_of at 1. rewrite map_lookup_imap, om_added_lookup. unfold om_retain.
    destruct (om_keys t !! k) as [T|] eqn:Et; simpl.
    - rewrite elem_of_filter, elem_of_union, elem_of_filter, !not_seen.
      assert (dots_of (om_keys t) k = T) as -> by (unfold dots_of; now rewrite Et).
      destruct (decide (d ∈ T)); tauto.
    - assert (dots_of (om_keys t) k = ∅) as -> by (unfold dots_of; now rewrite Et).
      destruct (om_keys s !! k) as [S|] eqn:Es; simpl.
      + rewrite elem_of_filter, not_seen.
        assert (dots_of (om_keys s) k = S) as -> by (unfold dots_of; now rewrite Es). set_solver.
      + assert (dots_of (om_keys s) k = ∅) as -> by (unfold dots_of; now rewrite Es). set_solver.
  Qed.

  Lemma om_merge_ne s t k : om_keys (om_merge s t) !! k <> Some ∅.
  Proof. apply filter_ne. Qed.

  (** Laws of values, up to an observation [obs] of the value type. *)
  Section Laws.
    Context {X : Type} (obs : V -> X).
    Hypothesis obs_cong : forall a a' b b', obs a = obs a' -> obs b = obs b' -> obs (vmerge a b) = obs (vmerge a' b').
    Hypothesis obs_comm : forall a b, obs (vmerge a b) = obs (vmerge b a).
    Hypothesis obs_assoc : forall a b c, obs (vmerge a (vmerge b c)) = obs (vmerge (vmerge a b) c).
    Hypothesis obs_idemp : forall a, obs (vmerge a a) = obs a.
    Hypothesis obs_default : forall r a, obs (vmerge (vdef r) a) = obs a.

    Definition value_obs s k : option X := obs <$> (om_values s !! k).

    Lemma value_obs_merge s t k :
      value_obs (om_merge s t) k =
      match om_values s !! k, om_values t !! k with
      | Some a, Some b => Some (obs (vmerge a b))
      | Some a, None => Some (obs a)
      | None, Some b => Some (obs b)
      | None, None => None
      end.
    Proof.
      unfold value_obs. rewrite om_merge_value.
      destruct (om_values s !! k) as [a|], (om_values t !! k) as [b|]; simpl; try reflexivity.
      now rewrite obs_default.
    Qed.

    Lemma value_comm s t k : value_obs (om_merge s t) k = value_obs (om_merge t s) k.
    Proof.
      rewrite !value_obs_merge.
      destruct (om_values s !! k) as [a|], (om_values t !! k) as [b|]; simpl; try reflexivity.
      now rewrite obs_comm.
    Qed.
    Lemma value_idemp s k : value_obs (om_merge s s) k = value_obs s k.
    Proof.
      rewrite value_obs_merge. unfold value_obs. destruct (om_values s !! k) as [a|]; simpl; [|reflexivity].
      now rewrite obs_idemp.
    Qed.
    Lemma value_assoc s t u k :
      value_obs (om_merge s (om_merge t u)) k = value_obs (om_merge (om_merge s t) u) k.
    Proof.
      unfold value_obs. rewrite !om_merge_value.
      destruct (om_values s !! k) as [a|], (om_values t !! k) as [b|], (om_values u !! k) as [c|]; simpl;
        try reflexivity.
      - now rewrite obs_assoc.
      - f_equal. apply obs_cong; [reflexivity|apply obs_default].
      - f_equal. rewrite obs_default. apply obs_cong; [|reflexivity]. now rewrite obs_default.
      - f_equal. rewrite !obs_default. reflexivity.
    Qed.
  End Laws.
End MapMerge.

(** ** Runs of a map of counters *)

Section CounterMap.
  Context {K : Type} `{Countable K}.
  Notation cmap := (ormap K pncounter).

  (** What a caller does with a map of up/down counters. *)
  Inductive cmop :=
  | MUpdate (k : K) (o : pnop)   (** [get_or_insert(k)], then change the counter *)
  | MMutate (k : K) (o : pnop)   (** [get_mut(k)], then change the counter if there is one *)
  | MRemove (k : K).
  Definition cm_apply (o : cmop) (m : cmap) : cmap :=
    match o with
    | MUpdate k o => om_update pn_new k (pn_apply o) m
    | MMutate k o => om_get_mut k (pn_apply o) m
    | MRemove k => om_remove k m
    end.
  Definition cm_merge := om_merge (K := K) pn_new pn_merge.

  (** What the operation turns out to do. *)
  Inductive cmeff := XAdd (k : K) (o : pnop) | XChange (k : K) (o : pnop) | XRemove (k : K) | XNothing.
  Definition cm_eff (o : cmop) (m : cmap) : cmeff :=
    match o with
    | MUpdate k o => XAdd k o
    | MMutate k o => if om_contains m k then XChange k o else XNothing
    | MRemove k => XRemove k
    end.

  Definition x_add (x : cmeff) : option K := match x with XAdd k _ => Some k | _ => None end.
  Definition x_rem (x : cmeff) : option K := match x with XRemove k => Some k | _ => None end.
  (** The change made to the counter at [k], if any. *)
  Definition x_change (k : K) (x : cmeff) : option pnop :=
    match x with
    | XAdd k' o | XChange k' o => if decide (k' = k) then Some o else None
    | _ => None
    end.
  Definition inc_at (k : K) (x : opinfo cmeff) : N :=
    match x_change k (op_op x) with Some (PInc n) => n | _ => 0 end.
  Definition dec_at (k : K) (x : opinfo cmeff) : N :=
    match x_change k (op_op x) with Some (PDec n) => n | _ => 0 end.

  Record cm_inv (h : history cmeff) (Kn : gset nat) (m : cmap) : Prop := {
    ci_keys : oinv x_add x_rem h Kn (om_keys m) (om_ctx m);
    ci_id : forall k c, om_values m !! k = Some c -> pn_id c = om_id m;
    ci_some : forall k i x, i ∈ Kn -> h !! i = Some x -> x_add (op_op x) = Some k -> is_Some (om_values m !! k);
    ci_inc : forall k q, default 0%N (pn_inc (default (pn_new 0) (om_values m !! k)) !! q) = sum_known (only q (inc_at k)) h Kn;
    ci_dec : forall k q, default 0%N (pn_dec (default (pn_new 0) (om_values m !! k)) !! q) = sum_known (only q (dec_at k)) h Kn }.

  Lemma pn_new_any r r' : pn_inc (pn_new r) = pn_inc (pn_new r') /\ pn_dec (pn_new r) = pn_dec (pn_new r').
  Proof. split; reflexivity. Qed.

  Lemma cm_inv_merge h Kn Ln s t :
    wf h -> closed h Kn -> closed h Ln -> cm_inv h Kn s -> cm_inv h Ln t -> cm_inv h (Kn ∪ Ln) (cm_merge s t).
  Proof.
    intros W CK CL I J. split.
    - change (om_ctx (cm_merge s t)) with (dc_merge (om_ctx s) (om_ctx t)).
      eapply oinv_merge; [exact W|exact CK|exact CL|apply I|apply J|apply om_merge_ne|].
      intros; apply om_merge_dots.
    - intros k c. change (om_id (cm_merge s t)) with (om_id s). unfold cm_merge. rewrite om_merge_value.
      pose proof (ci_id _ _ _ I k) as A.
      destruct (om_values t !! k) as [b|], (om_values s !! k) as [a|]; simpl; intros E; try discriminate;
        injection E as <-; simpl; auto.
    - intros k i x Hi Hx Ha. unfold cm_merge. rewrite om_merge_value.
      apply elem_of_union in Hi as [Hi|Hi].
      + destruct (ci_some _ _ _ I k i x Hi Hx Ha) as [a ->]. destruct (om_values t !! k); eauto.
      + destruct (ci_some _ _ _ J k i x Hi Hx Ha) as [a ->]. eauto.
    - intros k q.
      rewrite (sum_known_union h Kn Ln (only q (inc_at k)) q W CK CL)
        by (intros x Hx; unfold only; now rewrite decide_False).
      rewrite <- (ci_inc _ _ _ I k q), <- (ci_inc _ _ _ J k q). unfold cm_merge. rewrite om_merge_value.
      destruct (om_values t !! k) as [b|], (om_values s !! k) as [a|]; simpl;
        rewrite ?max_merge_lookup, ?default_maxo, ?lookup_empty; simpl; lia.
    - intros k q.
      rewrite (sum_known_union h Kn Ln (only q (dec_at k)) q W CK CL)
        by (intros x Hx; unfold only; now rewrite decide_False).
      rewrite <- (ci_dec _ _ _ I k q), <- (ci_dec _ _ _ J k q). unfold cm_merge. rewrite om_merge_value.
      destruct (om_values t !! k) as [b|], (om_values s !! k) as [a|]; simpl;
        rewrite ?max_merge_lookup, ?default_maxo, ?lookup_empty; simpl; lia.
  Qed.

  Lemma cm_inv_mono h x Kn m : wf h -> closed h Kn -> cm_inv h Kn m -> cm_inv (h ++ [x]) Kn m.
  Proof.
    intros W C I. split.
    - apply oinv_mono; [exact W|exact C|apply I].
    - apply I.
    - intros k i y Hi Hy. rewrite lookup_app_l in Hy by (apply (proj1 C); exact Hi). eapply ci_some; eauto.
    - intros k q. rewrite sum_known_mono_hist by exact C. apply I.
    - intros k q. rewrite sum_known_mono_hist by exact C. apply I.
  Qed.

  (** One change [o] of the counter at [k]. *)
  Lemma pn_apply_entries o c q :
    default 0%N (pn_inc (pn_apply o c) !! q) =
      (default 0%N (pn_inc c !! q) + if decide (q = pn_id c) then pn_amount_inc {| op_origin := q; op_op := o; op_past := ∅ |} else 0)%N /\
    default 0%N (pn_dec (pn_apply o c) !! q) =
      (default 0%N (pn_dec c !! q) + if decide (q = pn_id c) then pn_amount_dec {| op_origin := q; op_op := o; op_past := ∅ |} else 0)%N /\
    pn_id (pn_apply o c) = pn_id c.
  Proof.
    destruct o as [n|n]; simpl; unfold pn_amount_inc, pn_amount_dec; simpl;
      (destruct (decide (q = pn_id c)) as [->|Hq];
       [rewrite lookup_insert; simpl|rewrite lookup_insert_ne by auto]); repeat split; lia.
  Qed.

  Lemma cm_run (evs : list (event cmop)) :
    let eh := effects_of om_new cm_apply cm_merge cm_eff evs in
    Forall2 same_shape eh (hist_of evs) /\ wf eh /\
    (forall r, closed eh (known_by evs r)) /\
    (forall r, cm_inv eh (known_by evs r) (state_at om_new cm_apply cm_merge evs r)) /\
    (forall r, om_id (state_at om_new cm_apply cm_merge evs r) = r).
  Proof.
    apply (replication_invariant_eff (S := cmap) om_new cm_apply cm_merge cm_eff om_id cm_inv).
    - reflexivity.
    - intros [k o|k o|k] m; simpl; [reflexivity| |reflexivity].
      unfold om_get_mut. now destruct (om_contains m k).
    - reflexivity.
    - intros r. split.
      + apply oinv_init.
      + intros k c. simpl. rewrite lookup_empty. discriminate.
      + intros k i x Hi. set_solver.
      + intros k q. simpl. rewrite lookup_empty. reflexivity.
      + intros k q. simpl. rewrite lookup_empty. reflexivity.
    - intros h o Kn K' s s' W C _ _ I _. now apply cm_inv_mono.
    - intros h o Kn m W C Own I.
      assert (Hlast : forall x : opinfo cmeff, (h ++ [x]) !! length h = Some x)
        by (intros; rewrite lookup_app_r, Nat.sub_diag by lia; reflexivity).
      (* values after changing key k by o, with history entry x *)
      assert (Val : forall k po x, x_change k (op_op x) = Some po -> op_origin x = om_id m ->
        (forall k', k' <> k -> x_change k' (op_op x) = None) ->
        forall c, (om_values m !! k = Some c \/ (om_values m !! k = None /\ c = pn_new (om_id m))) ->
        forall k' q,
          default 0%N (pn_inc (default (pn_new 0) (<[k := pn_apply po c]> (om_values m) !! k')) !! q) =
            sum_known (only q (inc_at k')) (h ++ [x]) (Kn ∪ {[length h]}) /\
          default 0%N (pn_dec (default (pn_new 0) (<[k := pn_apply po c]> (om_values m) !! k')) !! q) =
            sum_known (only q (dec_at k')) (h ++ [x]) (Kn ∪ {[length h]})).
      { intros k po x Hx Ho Hne c Hc k' q. rewrite !sum_known_snoc by exact C.
        pose proof (ci_inc _ _ _ I k' q) as A. pose proof (ci_dec _ _ _ I k' q) as B.
        destruct (decide (k' = k)) as [->|Hk].
        - rewrite lookup_insert. simpl. destruct (pn_apply_entries po c q) as (E1 & E2 & _).
          rewrite E1, E2, <- A, <- B. clear E1 E2.
          assert (Hid : pn_id c = om_id m) by (destruct Hc as [Hc|[_ ->]]; [eapply ci_id; eauto|reflexivity]).
          rewrite Hid. unfold only, inc_at, dec_at, pn_amount_inc, pn_amount_dec. simpl. rewrite Ho, Hx.
          destruct Hc as [->|[-> ->]]; simpl; rewrite ?lookup_empty;
            destruct (decide (q = om_id m)) as [->|Hq];
            [rewrite !decide_True by reflexivity| rewrite !decide_False by auto
            |rewrite !decide_True by reflexivity| rewrite !decide_False by auto];
            destruct po; simpl; split; lia.
        - rewrite lookup_insert_ne by auto. rewrite A, B.
          unfold only, inc_at, dec_at. rewrite (Hne k' Hk). case_decide; split; lia. }
      destruct o as [k po|k po|k]; simpl.
      + (* update *)
        set (x := {| op_origin := om_id m; op_op := XAdd k po; op_past := Kn |}).
        unfold om_update. destruct (dc_next (om_ctx m) (om_id m)) as [c d] eqn:En.
        set (c0 := default (pn_new (om_id m)) (om_values m !! k)).
        assert (Hc0 : om_values m !! k = Some c0 \/ (om_values m !! k = None /\ c0 = pn_new (om_id m))).
        { unfold c0. destruct (om_values m !! k); simpl; auto. }
        assert (V := Val k po x). simpl in V. rewrite decide_True in V by reflexivity.
        specialize (V eq_refl eq_refl).
        assert (Vne : forall k', k' <> k -> (if decide (k = k') then Some po else None) = None)
          by (intros; now rewrite decide_False by auto).
        specialize (V Vne c0 Hc0). split; simpl.
        * pose proof (oinv_add x_add x_rem h Kn (om_keys m) (om_ctx m) (om_id m) (XAdd k po) k W C
            (ci_keys _ _ _ I) eq_refl eq_refl) as A. rewrite En in A. exact A.
        * intros k' c'. destruct (decide (k' = k)) as [->|Hk].
          -- rewrite lookup_insert. intros E. injection E as <-.
             destruct (pn_apply_entries po c0 0%N) as (_ & _ & ->).
             destruct Hc0 as [Hc|[_ ->]]; [eapply ci_id; eauto|reflexivity].
          -- rewrite lookup_insert_ne by auto. apply I.
        * intros k' i y Hi Hy Ha. destruct (decide (k' = k)) as [->|Hk]; [rewrite lookup_insert; eauto|].
          rewrite lookup_insert_ne by auto. apply elem_of_union in Hi as [Hi|Hi].
          -- rewrite lookup_app_l in Hy by (apply (proj1 C); exact Hi). eapply ci_some; eauto.
          -- apply elem_of_singleton in Hi. subst i. fold x in Hy. rewrite Hlast in Hy. injection Hy as <-.
             simpl in Ha. congruence.
        * intros k' q. apply V.
        * intros k' q. apply V.
      + (* get_mut *)
        unfold om_get_mut. destruct (om_contains m k) eqn:Ec.
        * set (x := {| op_origin := om_id m; op_op := XChange k po; op_past := Kn |}).
          assert (Hs : exists c0, om_values m !! k = Some c0).
          { apply (oinv_contains x_add x_rem h Kn (om_keys m) (om_ctx m) k (ci_keys _ _ _ I)) in Ec as (i & y & Hi & Hy & Ha & _).
            destruct (ci_some _ _ _ I k i y Hi Hy Ha) as [c0 E]. eauto. }
          destruct Hs as [c0 Hc0].
          assert (V := Val k po x). simpl in V. rewrite decide_True in V by reflexivity.
          specialize (V eq_refl eq_refl).
          assert (Vne : forall k', k' <> k -> (if decide (k = k') then Some po else None) = None)
            by (intros; now rewrite decide_False by auto).
          specialize (V Vne c0 (or_introl Hc0)).
          assert (Ealt : alter (pn_apply po) k (om_values m) = <[k := pn_apply po c0]> (om_values m)).
          { apply map_eq. intros k'. destruct (decide (k' = k)) as [->|Hk].
            - now rewrite lookup_alter, lookup_insert, Hc0.
            - now rewrite lookup_alter_ne, lookup_insert_ne by auto. }
          split; simpl; rewrite ?Ealt.
          -- apply (oinv_neither x_add x_rem h Kn (om_keys m) (om_ctx m) (om_id m) (XChange k po) W C
              (ci_keys _ _ _ I) eq_refl eq_refl).
          -- intros k' c'. destruct (decide (k' = k)) as [->|Hk].
             ++ rewrite lookup_insert. intros E. injection E as <-.
                destruct (pn_apply_entries po c0 0%N) as (_ & _ & ->). eapply ci_id; eauto.
             ++ rewrite lookup_insert_ne by auto. apply I.
          -- intros k' i y Hi Hy Ha. destruct (decide (k' = k)) as [->|Hk]; [rewrite lookup_insert; eauto|].
             rewrite lookup_insert_ne by auto. apply elem_of_union in Hi as [Hi|Hi].
             ++ rewrite lookup_app_l in Hy by (apply (proj1 C); exact Hi). eapply ci_some; eauto.
             ++ apply elem_of_singleton in Hi. subst i. fold x in Hy. rewrite Hlast in Hy. injection Hy as <-.
                simpl in Ha. congruence.
          -- intros k' q. apply V.
          -- intros k' q. apply V.
        * split; simpl.
          -- apply (oinv_neither x_add x_rem h Kn (om_keys m) (om_ctx m) (om_id m) XNothing W C
              (ci_keys _ _ _ I) eq_refl eq_refl).
          -- apply I.
          -- intros k' i y Hi Hy Ha. apply elem_of_union in Hi as [Hi|Hi].
             ++ rewrite lookup_app_l in Hy by (apply (proj1 C); exact Hi). eapply ci_some; eauto.
             ++ apply elem_of_singleton in Hi. subst i. rewrite Hlast in Hy. injection Hy as <-. discriminate.
          -- intros k' q. rewrite sum_known_snoc, (ci_inc _ _ _ I) by exact C.
             unfold only, inc_at; simpl. case_decide; lia.
          -- intros k' q. rewrite sum_known_snoc, (ci_dec _ _ _ I) by exact C.
             unfold only, dec_at; simpl. case_decide; lia.
      + (* remove *)
        split; simpl.
        * apply (oinv_remove x_add x_rem h Kn (om_keys m) (om_ctx m) (om_id m) (XRemove k) k W C
              (ci_keys _ _ _ I) eq_refl eq_refl).
        * apply I.
        * intros k' i y Hi Hy Ha. apply elem_of_union in Hi as [Hi|Hi].
          -- rewrite lookup_app_l in Hy by (apply (proj1 C); exact Hi). eapply ci_some; eauto.
          -- apply elem_of_singleton in Hi. subst i. rewrite Hlast in Hy. injection Hy as <-. discriminate.
        * intros k' q. rewrite sum_known_snoc, (ci_inc _ _ _ I) by exact C.
          unfold only, inc_at; simpl. case_decide; lia.
        * intros k' q. rewrite sum_known_snoc, (ci_dec _ _ _ I) by exact C.
          unfold only, dec_at; simpl. case_decide; lia.
    - intros h Kn Ln s t W CK CL I J. now apply cm_inv_merge.
  Qed.

  Lemma cm_inv_contains h Kn m k :
    cm_inv h Kn m -> om_contains m k = true <->
      exists i x po, i ∈ Kn /\ h !! i = Some x /\ op_op x = XAdd k po /\
        forall j y, j ∈ Kn -> h !! j = Some y -> op_op y = XRemove k -> i ∉ op_past y.
  Proof.
    intros I. unfold om_contains. rewrite (oinv_contains x_add x_rem h Kn _ _ k (ci_keys _ _ _ I)). split.
    - intros (i & x & Hi & Hx & Ha & Hr). destruct (op_op x) as [k' po| | |] eqn:Eo; try discriminate.
      injection Ha as ->. exists i, x, po. repeat split; try assumption.
      intros j y Hj Hy E. apply (Hr j y Hj Hy). now rewrite E.
    - intros (i & x & po & Hi & Hx & Ha & Hr). exists i, x. repeat split; try assumption; [now rewrite Ha|].
      intros j y Hj Hy E. apply (Hr j y Hj Hy). destruct (op_op y); simpl in E; congruence.
  Qed.

  Lemma cm_inv_get h Kn m k :
    cm_inv h Kn m ->
    pn_value <$> om_get m k =
      if om_contains m k then Some (Z.of_N (sum_known (inc_at k) h Kn) - Z.of_N (sum_known (dec_at k) h Kn))%Z
      else None.
  Proof.
    intros I. unfold om_get. destruct (om_contains m k) eqn:Ec; [|reflexivity].
    apply (cm_inv_contains h Kn m k I) in Ec as (i & x & po & Hi & Hx & Ha & _).
    destruct (ci_some _ _ _ I k i x Hi Hx) as [c E]; [now rewrite Ha|]. rewrite E. simpl.
    pose proof (ci_inc _ _ _ I k) as A. pose proof (ci_dec _ _ _ I k) as B. rewrite E in A, B. simpl in A, B.
    unfold pn_value.
    now rewrite (map_sum_by_origin (inc_at k) h 0 Kn (pn_inc c) A), (map_sum_by_origin (dec_at k) h 0 Kn (pn_dec c) B).
  Qed.
End CounterMap.

(** ** Deltas of sets *)

Section SetDeltas.
  Context {T : Type} `{Countable T}.

  Lemma fold_add_seen (l : list dot) (c : dotctx) (d : dot) : seen (fold_left dc_add l c) d <-> seen c d \/ d ∈ l.
  Proof.
    revert c. induction l as [|x l IH]; intros c; simpl; [set_solver|].
    rewrite IH, add_seen. set_solver.
  Qed.

  Lemma delta_fold (since : vclock) (l : list (T * gset dot)) (m : gmap T (gset dot)) (c : dotctx) :
    NoDup l.*1 -> (forall v, v ∈ l.*1 -> m !! v = None) ->
    let r := fold_left (os_delta_step since) l (m, c) in
    (forall v d, d ∈ dots_of r.1 v <-> d ∈ dots_of m v \/ exists D, (v, D) ∈ l /\ d ∈ fresh_dots since D) /\
    (forall d, seen r.2 d <-> seen c d \/ exists v D, (v, D) ∈ l /\ d ∈ fresh_dots since D).
  Proof.
    revert m c. induction l as [|[w W] l IH]; intros m c ND Hm; simpl.
    - split; intros; set_solver.
    - simpl in ND. apply NoDup_cons in ND as [Hw ND].
      assert (Hm' : forall v, v ∈ l.*1 -> m !! v = None) by (intros; apply Hm; now right).
      unfold os_delta_step at 2 4. simpl.
      destruct (bool_decide (fresh_dots since W = ∅)) eqn:E.
      + apply bool_decide_eq_true in E. destruct (IH m c ND Hm') as [A B]. split.
        * intros v d. rewrite A. split.
          -- intros [?|(D & HD & Hd)]; [auto|]. right. exists D. split; [now right|exact Hd].
          -- intros [?|(D & HD & Hd)]; [auto|]. apply elem_of_cons in HD as [HD|HD].
             ++ injection HD as -> ->. rewrite E in Hd. set_solver.
             ++ right. eauto.
        * intros d. rewrite B. split.
          -- intros [?|(v & D & HD & Hd)]; [auto|]. right. exists v, D. split; [now right|exact Hd].
          -- intros [?|(v & D & HD & Hd)]; [auto|]. apply elem_of_cons in HD as [HD|HD].
             ++ injection HD as -> ->. rewrite E in Hd. set_solver.
             ++ right. eauto.
      + destruct (IH (<[w := fresh_dots since W]> m) (fold_left dc_add (elements (fresh_dots since W)) c) ND) as [A B].
        { intros v Hv. rewrite lookup_insert_ne; [auto|]. intros ->. tauto. }
        split.
        * intros v d. rewrite A. unfold dots_of at 1. destruct (decide (v = w)) as [->|Hv].
          -- rewrite lookup_insert. simpl. unfold dots_of. rewrite (Hm w) by left. simpl. split.
             ++ intros [Hd|(D & HD & Hd)]; right; [exists W; split; [left|exact Hd]|].
                exists D. split; [now right|exact Hd].
             ++ intros [Hd|(D & HD & Hd)]; [set_solver|]. apply elem_of_cons in HD as [HD|HD].
                ** injection HD as ->. left. exact Hd.
                ** right. eauto.
          -- rewrite lookup_insert_ne by auto. fold (dots_of m v). split.
             ++ intros [Hd|(D & HD & Hd)]; [auto|]. right. exists D. split; [now right|exact Hd].
             ++ intros [Hd|(D & HD & Hd)]; [auto|]. apply elem_of_cons in HD as [HD|HD]; [congruence|]. right. eauto.
        * intros d. rewrite B, fold_add_seen, elem_of_elements. split.
          -- intros [[?|Hd]|(v & D & HD & Hd)]; [auto| |].
             ++ right. exists w, W. split; [left|exact Hd].
             ++ right. exists v, D. split; [now right|exact Hd].
          -- intros [?|(v & D & HD & Hd)]; [auto|]. apply elem_of_cons in HD as [HD|HD].
             ++ injection HD as -> ->. auto.
             ++ right. eauto.
  Qed.

  Lemma os_delta_spec (s : orset T) (since : vclock) (dl : gmap T (gset dot) * dotctx) :
    os_delta_since s since = Some dl ->
    (forall v d, d ∈ dots_of dl.1 v <-> d ∈ dots_of (os_entries s) v /\ (vc_get since d.1 < d.2)%N) /\
    (forall d, seen dl.2 d <-> d.2 = 0%N \/ ((vc_get since d.1 < d.2)%N /\ exists v, d ∈ dots_of (os_entries s) v)).
  Proof.
    unfold os_delta_since. destruct (vc_dominates since (os_version s)); [discriminate|].
    intros E. injection E as <-.
    destruct (delta_fold since (map_to_list (os_entries s)) ∅ dc_empty) as [A B].
    { apply NoDup_fst_map_to_list. }
    { intros v _. apply lookup_empty. }
    split.
    - intros v d. rewrite A. unfold dots_of at 1. rewrite lookup_empty. simpl. unfold dots_of. split.
      + intros [?|(D & HD & Hd)]; [set_solver|]. apply elem_of_map_to_list in HD. rewrite HD. simpl.
        unfold fresh_dots in Hd. apply elem_of_filter in Hd. tauto.
      + intros [Hd Hf]. destruct (os_entries s !! v) as [D|] eqn:HD; simpl in Hd; [|set_solver].
        right. exists D. split; [now apply elem_of_map_to_list|]. unfold fresh_dots. apply elem_of_filter. tauto.
    - intros d. rewrite B, empty_seen. split.
      + intros [?|(v & D & HD & Hd)]; [auto|]. right. apply elem_of_map_to_list in HD.
        unfold fresh_dots in Hd. apply elem_of_filter in Hd as [Hf Hd]. split; [exact Hf|].
        exists v. unfold dots_of. now rewrite HD.
      + intros [?|[Hf (v & Hd)]]; [auto|]. right. unfold dots_of in Hd.
        destruct (os_entries s !! v) as [D|] eqn:HD; simpl in Hd; [|set_solver].
        exists v, D. split; [now apply elem_of_map_to_list|]. unfold fresh_dots. apply elem_of_filter. tauto.
  Qed.

  Lemma contains_dots (s : orset T) v : os_contains s v = true <-> exists d, d ∈ dots_of (os_entries s) v.
  Proof.
    unfold os_contains, dots_of. destruct (os_entries s !! v) as [D|]; simpl.
    - rewrite negb_true_iff, bool_decide_eq_false. split.
      + intros Hne. now apply set_choose_L in Hne.
      + intros [d Hd] ->. set_solver.
    - split; [discriminate|]. intros [d Hd]. set_solver.
  Qed.

  (** Applying a delta adds what the full merge would add, but removes nothing. *)
  Lemma os_delta_contains (evs : list (event (setop T))) sender peer v :
    let s := state_at os_new os_apply (os_merge add_wins) evs sender in
    let p := state_at os_new os_apply (os_merge add_wins) evs peer in
    let p' := match os_delta_since s (os_version p) with Some d => os_apply_delta add_wins p d | None => p end in
    os_contains p' v = true <-> os_contains p v = true \/ os_contains (os_merge add_wins p s) v = true.
  Proof.
    intros s p p'. pose proof (os_run evs sender) as I. pose proof (os_run evs peer) as J.
    fold s in I. fold p in J. pose proof (ginv_exec evs) as [W C _ _].
    assert (SeenP : forall d w, d ∈ dots_of (os_entries p) w -> (d.2 <= vc_get (os_version p) d.1)%N /\ d.2 <> 0%N).
    { intros d w Hd. apply (oi_dots _ _ _ _ _ _ J) in Hd as (i & (x & Hi & Hx & Ha & _) & ->).
      pose proof (proj2 (oinv_seen s_add s_rem _ _ _ _ i x w W (C peer) J Hx Ha) Hi) as S1.
      unfold seen in S1. rewrite (oi_cloud _ _ _ _ _ _ J) in S1. split; [destruct S1; [assumption|set_solver]|].
      unfold dot_at. rewrite Hx. cbn [snd]. apply N.neq_0_lt_0.
      exact (rank_pos (isadd s_add) _ i x W Hx (isadd_some s_add x w Ha)). }
    assert (Cloud : dc_cloud (os_ctx p) = ∅) by apply J.
    rewrite !contains_dots. setoid_rewrite add_wins_merge.
    unfold p'. destruct (os_delta_since s (os_version p)) as [dl|] eqn:Ed.
    - destruct (os_delta_spec s (os_version p) dl Ed) as [A B].
      unfold os_apply_delta. setoid_rewrite add_wins_merge. cbn [os_entries os_ctx].
      setoid_rewrite A. setoid_rewrite B. split.
      + intros (d & [[Hd _]|[[Hd Hf] _]]); [eauto|]. right. exists d. right. split; [exact Hd|]. left.
        unfold seen. rewrite Cloud. fold (os_version p). intros [?|?]; [lia|set_solver].
      + intros [(d & Hd)|(d & [[Hd _]|[Hd Hn]])].
        * exists d. left. split; [exact Hd|]. left. destruct (SeenP d v Hd). intros [?|[? _]]; lia.
        * exists d. left. split; [exact Hd|]. left. destruct (SeenP d v Hd). intros [?|[? _]]; lia.
        * destruct Hn as [Hn|Hn].
          -- exists d. right. split; [split; [exact Hd|]|left; exact Hn].
             destruct (N.lt_ge_cases (vc_get (os_version p) d.1) d.2) as [?|Hge]; [assumption|].
             exfalso. apply Hn. left. exact Hge.
          -- exists d. left. split; [exact Hn|]. left. destruct (SeenP d v Hn). intros [?|[? _]]; lia.
    - split; [eauto|]. intros [?|(d & [[Hd _]|[Hd Hn]])]; [assumption|eauto|].
      destruct Hn as [Hn|Hn]; [|eauto]. exfalso. apply Hn.
      unfold os_delta_since in Ed. destruct (vc_dominates (os_version p) (os_version s)) eqn:D; [|discriminate].
      rewrite vc_dominates_spec in D.
      apply (oi_dots _ _ _ _ _ _ I) in Hd as (i & (x & Hi & Hx & Ha & _) & ->).
      pose proof (proj2 (oinv_seen s_add s_rem _ _ _ _ i x v W (C sender) I Hx Ha) Hi) as S1.
      unfold seen in S1 |- *. rewrite (oi_cloud _ _ _ _ _ _ I) in S1. left.
      destruct S1 as [S1|S1]; [|set_solver]. etransitivity; [exact S1|]. apply D.
  Qed.
End SetDeltas.

(** ** Keys of maps with any value type *)

Section KeyRuns.
  Context {K : Type} `{Countable K} {V : Type} (vdef : N -> V) (vmerge : V -> V -> V).

  (** Operations of a caller; the [f]s are what it does to the value. *)
  Inductive mapop := KUpdate (k : K) (f : V -> V) | KMutate (k : K) (f : V -> V) | KRemove (k : K).
  Definition om_apply (o : mapop) (m : ormap K V) : ormap K V :=
    match o with
    | KUpdate k f => om_update vdef k f m
    | KMutate k f => om_get_mut k f m
    | KRemove k => om_remove k m
    end.
  Definition m_add (o : mapop) : option K := match o with KUpdate k _ => Some k | _ => None end.
  Definition m_rem (o : mapop) : option K := match o with KRemove k => Some k | _ => None end.
  Definition om_inv (h : history mapop) (Kn : gset nat) (m : ormap K V) : Prop :=
    oinv m_add m_rem h Kn (om_keys m) (om_ctx m).

  Lemma om_inv_merge h Kn Ln s t :
    wf h -> closed h Kn -> closed h Ln -> om_inv h Kn s -> om_inv h Ln t ->
    om_inv h (Kn ∪ Ln) (om_merge vdef vmerge s t).
  Proof.
    intros W CK CL I J. unfold om_inv.
    change (om_ctx (om_merge vdef vmerge s t)) with (dc_merge (om_ctx s) (om_ctx t)).
    eapply oinv_merge; [exact W|exact CK|exact CL|exact I|exact J|apply om_merge_ne|].
    intros; apply om_merge_dots.
  Qed.

  Lemma om_run (evs : list (event mapop)) r :
    om_inv (hist_of evs) (known_by evs r) (state_at om_new om_apply (om_merge vdef vmerge) evs r).
  Proof.
    pose proof (replication_invariant (S := ormap K V) om_new om_apply (om_merge vdef vmerge) om_id om_inv) as R.
    apply R; clear R.
    - reflexivity.
    - intros [k f|k f|k] s; simpl; [reflexivity| |reflexivity].
      unfold om_get_mut. now destruct (om_contains s k).
    - reflexivity.
    - intros r0. apply oinv_init.
    - intros h x Kn s W C I. now apply oinv_mono.
    - intros h o Kn s W C _ I. destruct o as [k f|k f|k].
      + pose proof (oinv_add m_add m_rem h Kn (om_keys s) (om_ctx s) (om_id s) (KUpdate k f) k W C I eq_refl eq_refl) as A.
        simpl. unfold om_update, om_inv. destruct (dc_next (om_ctx s) (om_id s)) as [c d]. exact A.
      + pose proof (oinv_neither m_add m_rem h Kn (om_keys s) (om_ctx s) (om_id s) (KMutate k f) W C I eq_refl eq_refl) as A.
        simpl. unfold om_get_mut, om_inv. destruct (om_contains s k); exact A.
      + apply (oinv_remove m_add m_rem h Kn (om_keys s) (om_ctx s) (om_id s) (KRemove k) k W C I eq_refl eq_refl).
    - intros. now apply om_inv_merge.
  Qed.

  Lemma om_contains_known (evs : list (event mapop)) r k :
    om_contains (state_at om_new om_apply (om_merge vdef vmerge) evs r) k = true <->
    exists i x f, i ∈ known_by evs r /\ hist_of evs !! i = Some x /\ op_op x = KUpdate k f /\
      forall j y, j ∈ known_by evs r -> hist_of evs !! j = Some y -> op_op y = KRemove k -> i ∉ op_past y.
  Proof.
    unfold om_contains. rewrite (oinv_contains m_add m_rem _ _ _ _ k (om_run evs r)). split.
    - intros (i & x & Hi & Hx & Ha & Hr). destruct (op_op x) as [k' f| |] eqn:Eo; try discriminate.
      injection Ha as ->. exists i, x, f. repeat split; try assumption.
      intros j y Hj Hy E. apply (Hr j y Hj Hy). now rewrite E.
    - intros (i & x & f & Hi & Hx & Ha & Hr). exists i, x. repeat split; try assumption; [now rewrite Ha|].
      intros j y Hj Hy E. apply (Hr j y Hj Hy). destruct (op_op y); simpl in E; congruence.
  Qed.

  Lemma om_inv_contains_det h Kn (s t : ormap K V) k :
    om_inv h Kn s -> om_inv h Kn t -> om_contains s k = om_contains t k.
  Proof.
    intros I J. pose proof (oinv_contains m_add m_rem h Kn _ _ k I) as A.
    pose proof (oinv_contains m_add m_rem h Kn _ _ k J) as B.
    apply Bool.eq_true_iff_eq. unfold om_contains. rewrite A, B. tauto.
  Qed.

  (** The keys a delta brings, and what it leaves. *)
  Lemma om_delta_dots (s : ormap K V) dk dv dc k d :
    d ∈ dots_of (om_keys (om_apply_delta vdef vmerge s (dk, dv, dc))) k <->
    d ∈ dots_of (om_keys s) k \/ (d ∈ dots_of dk k /\ ~ seen (om_ctx s) d).
  Proof.
    unfold om_apply_delta. cbn [om_keys]. rewrite dots_of_filter. unfold dots_of at 1.
    rewrite om_added_lookup.
    assert (X : dots_of dk k = default ∅ (dk !! k)) by reflexivity. rewrite X. clear X.
    destruct (dk !! k) as [D|] eqn:E; simpl.
    - rewrite elem_of_union, elem_of_filter, not_seen. tauto.
    - fold (dots_of (om_keys s) k). set_solver.
  Qed.

  Lemma om_contains_dots (s : ormap K V) k : om_contains s k = true <-> exists d, d ∈ dots_of (om_keys s) k.
  Proof.
    unfold om_contains, dots_of. destruct (om_keys s !! k) as [D|]; simpl.
    - rewrite negb_true_iff, bool_decide_eq_false. split.
      + intros Hne. now apply set_choose_L in Hne.
      + intros [d Hd] ->. set_solver.
    - split; [discriminate|]. intros [d Hd]. set_solver.
  Qed.

  Lemma om_delta_contains (evs : list (event mapop)) sender peer k :
    let s := state_at om_new om_apply (om_merge vdef vmerge) evs sender in
    let p := state_at om_new om_apply (om_merge vdef vmerge) evs peer in
    let p' := match om_delta_since s (dc_clock (om_ctx p)) with
              | Some d => om_apply_delta vdef vmerge p d | None => p end in
    om_contains p' k = true <-> om_contains p k = true \/ om_contains (om_merge vdef vmerge p s) k = true.
  Proof.
    intros s p p'. pose proof (om_run evs sender) as I. pose proof (om_run evs peer) as J.
    fold s in I. fold p in J. pose proof (ginv_exec evs) as [W C _ _].
    assert (Em : forall d, d ∈ dots_of (om_keys (om_merge vdef vmerge p s)) k <->
      (d ∈ dots_of (om_keys p) k /\ (~ seen (om_ctx s) d \/ d ∈ dots_of (om_keys s) k)) \/
      (d ∈ dots_of (om_keys s) k /\ (~ seen (om_ctx p) d \/ d ∈ dots_of (om_keys p) k)))
      by (intros; apply om_merge_dots).
    rewrite !om_contains_dots. setoid_rewrite Em.
    unfold p', om_delta_since. destruct (vc_dominates _ _) eqn:D.
    - split; [eauto|]. intros [?|(d & [[Hd _]|[Hd Hn]])]; [assumption|eauto|].
      destruct Hn as [Hn|Hn]; [|eauto]. exfalso. apply Hn.
      rewrite vc_dominates_spec in D.
      apply (oi_dots _ _ _ _ _ _ I) in Hd as (i & (x & Hi & Hx & Ha & _) & ->).
      pose proof (proj2 (oinv_seen m_add m_rem _ _ _ _ i x k W (C sender) I Hx Ha) Hi) as S1.
      unfold seen in S1 |- *. rewrite (oi_cloud _ _ _ _ _ _ I) in S1. left.
      destruct S1 as [S1|S1]; [|set_solver]. etransitivity; [exact S1|]. apply D.
    - assert (Ed : forall d, d ∈ dots_of (om_keys (om_apply_delta vdef vmerge p (om_keys s, om_values s, om_ctx s))) k <->
        d ∈ dots_of (om_keys p) k \/ (d ∈ dots_of (om_keys s) k /\ ~ seen (om_ctx p) d))
        by (intros; apply om_delta_dots).
      setoid_rewrite Ed. split.
      + intros (d & [Hd|[Hd Hn]]); [eauto|]. right. exists d. tauto.
      + intros [(d & Hd)|(d & [[Hd _]|[Hd [Hn|Hn]]])]; exists d; tauto.
  Qed.

  Lemma om_delta_values (s p : ormap K V) d :
    om_delta_since s (dc_clock (om_ctx p)) = Some d ->
    om_values (om_apply_delta vdef vmerge p d) = om_values (om_merge vdef vmerge p s).
  Proof.
    unfold om_delta_since. destruct (vc_dominates _ _); [discriminate|]. intros E. now injection E as <-.
  Qed.
End KeyRuns.
