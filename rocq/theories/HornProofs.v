(** Lemmas on the Horn solver. *)
From Coq Require Import List Arith Bool Lia.
From stdpp Require Import list sets gmap.
From Verif Require Import HornModel.

(** ** Specification: truth of Horn clauses under an assignment of all variables. *)
Definition horn_true (f : nat -> bool) (c : horn) : Prop :=
  (forall b, b ∈ h_body c -> f b = true) -> match h_head c with Some h => f h = true | None => False end.
Definition horn_model (f : nat -> bool) (cs : list horn) : Prop := forall c, c ∈ cs -> horn_true f c.
Definition bodies_in (n : nat) (cs : list horn) : Prop := forall c b, c ∈ cs -> b ∈ h_body c -> (b < n)%nat.
Definition heads_in (n : nat) (cs : list horn) : Prop := forall c h, c ∈ cs -> h_head c = Some h -> (h < n)%nat.

(** ** Counting *)
Definition occ (b : nat) (body : list nat) : nat := length (List.filter (Nat.eqb b) body).
Definition pend (n : nat) (val : list bool) (body : list nat) : nat :=
  length (List.filter (fun b => Nat.ltb b n && negb (h_var_true val b)) body).

Lemma var_true_iff val b : h_var_true val b = true <-> val !! b = Some true.
Proof. unfold h_var_true. destruct (val !! b) as [[]|]; cbn; intuition congruence. Qed.

Lemma var_true_insert val h b : (h < length val)%nat -> h_var_true (<[h := true]> val) b = Nat.eqb h b || h_var_true val b.
Proof.
  intros L. unfold h_var_true. destruct (Nat.eqb_spec h b) as [<-|N].
  - now rewrite list_lookup_insert.
  - now rewrite list_lookup_insert_ne.
Qed.

Lemma pend_insert n val h body : length val = n -> (h < n)%nat -> h_var_true val h = false ->
  (pend n (<[h := true]> val) body + occ h body = pend n val body)%nat.
Proof.
  intros L Hn Hf. unfold pend, occ. induction body as [|b body IH]; [done|]. cbn [List.filter].
  rewrite var_true_insert by lia. destruct (Nat.eqb_spec h b) as [<-|N].
  - rewrite Hf. cbn [orb negb]. rewrite andb_false_r, andb_true_r. apply Nat.ltb_lt in Hn. rewrite Hn. cbn [length]. lia.
  - cbn [orb]. destruct (Nat.ltb b n && negb (h_var_true val b)); cbn [length]; lia.
Qed.

Lemma pend_zero n val body : pend n val body = 0%nat <-> forall b, b ∈ body -> (b < n)%nat -> val !! b = Some true.
Proof.
  unfold pend. induction body as [|b body IH]; cbn [List.filter].
  - split; [|done]. intros _ b H. now apply elem_of_nil in H.
  - destruct (Nat.ltb_spec b n) as [L|L]; [destruct (h_var_true val b) eqn:V|]; cbn [andb negb length].
    + rewrite IH. apply var_true_iff in V. split; intros H x; [rewrite elem_of_cons; intros [->|?]; auto|]. intros ?. apply H. now right.
    + split; [lia|]. intros H. specialize (H b (elem_of_list_here _ _) L). apply var_true_iff in H. congruence.
    + rewrite IH. split; intros H x; [rewrite elem_of_cons; intros [->|?]; auto; lia|]. intros ?. apply H. now right.
Qed.

Lemma count_repeat i k j : count_occ Nat.eq_dec (repeat i k) j = (if Nat.eqb i j then k else 0)%nat.
Proof. induction k as [|k IH]; cbn; [now destruct (i =? j)|]. destruct (Nat.eq_dec i j) as [->|N]; rewrite IH; [now rewrite Nat.eqb_refl|]. apply Nat.eqb_neq in N. now rewrite N. Qed.

Lemma count_in_body_from b cs : forall i j, count_occ Nat.eq_dec (h_in_body_from i b cs) (i + j) =
  match cs !! j with Some c => occ b (h_body c) | None => 0%nat end.
Proof.
  induction cs as [|c cs IH]; intros i j; cbn [h_in_body_from]; [done|]. rewrite count_occ_app, count_repeat. destruct j as [|j].
  - rewrite Nat.add_0_r, Nat.eqb_refl. cbn. fold (occ b (h_body c)).
    assert (Z : count_occ Nat.eq_dec (h_in_body_from (S i) b cs) i = 0%nat); [|lia].
    clear IH. assert (G : forall k, (i < k)%nat -> count_occ Nat.eq_dec (h_in_body_from k b cs) i = 0%nat); [|apply G; lia].
    induction cs as [|d cs IH]; intros k Hk; cbn; [done|]. rewrite count_occ_app, count_repeat, IH by lia.
    destruct (Nat.eqb_spec k i); lia.
  - destruct (Nat.eqb_spec i (i + S j)); [lia|]. replace (i + S j)%nat with (S i + j)%nat by lia. rewrite IH. cbn. done.
Qed.
Lemma count_in_body b cs j : count_occ Nat.eq_dec (h_in_body cs b) j = match cs !! j with Some c => occ b (h_body c) | None => 0%nat end.
Proof. exact (count_in_body_from b cs 0 j). Qed.

(** ** The decrement loop *)
Lemma h_dec_ok js : forall rem ready,
  (forall j, (0 < count_occ Nat.eq_dec js j)%nat -> exists k, rem !! j = Some k /\ (count_occ Nat.eq_dec js j <= k)%nat) ->
  exists rem' new, h_dec js rem ready = Some (rem', ready ++ new) /\ length rem' = length rem /\
    (forall j k, rem !! j = Some k -> rem' !! j = Some (k - count_occ Nat.eq_dec js j)%nat) /\
    NoDup new /\ (forall j, j ∈ new <-> (0 < count_occ Nat.eq_dec js j)%nat /\ rem' !! j = Some 0%nat).
Proof.
  induction js as [|i js IH]; intros rem ready H; cbn [h_dec].
  - exists rem, []. rewrite app_nil_r. split; [done|]. split; [done|]. split; [|split; [constructor|]].
    + intros j k Hj. cbn. rewrite Hj. f_equal. lia.
    + intros j. rewrite elem_of_nil. cbn. lia.
  - destruct (H i) as (k & Hk & Lk). { cbn. destruct (Nat.eq_dec i i); [lia|done]. }
    cbn in Lk. destruct (Nat.eq_dec i i) as [_|]; [|done]. rewrite Hk. destruct k as [|k]; [lia|].
    assert (Li : (i < length rem)%nat) by now apply lookup_lt_Some in Hk.
    destruct (IH (<[i := k]> rem) (if Nat.eqb k 0 then ready ++ [i] else ready)) as (rem' & new & E & Ll & R & Nd & Nw).
    { intros j Hj. destruct (decide (i = j)) as [<-|N].
      - exists k. rewrite list_lookup_insert by done. split; [done|lia].
      - destruct (H j) as (kj & Hkj & Lkj); [cbn; destruct (Nat.eq_dec i j); [done|lia]|]. exists kj. rewrite list_lookup_insert_ne by done.
        split; [done|]. cbn in Lkj. destruct (Nat.eq_dec i j); [done|lia]. }
    rewrite E. exists rem', (if Nat.eqb k 0 then i :: new else new). split; [|split; [|split; [|split]]].
    + destruct (Nat.eqb k 0); [now rewrite <- app_assoc|done].
    + rewrite Ll. apply insert_length.
    + intros j kj Hj. cbn. destruct (Nat.eq_dec i j) as [<-|N].
      * rewrite (R i k); [|now apply list_lookup_insert]. f_equal. rewrite Hk in Hj. injection Hj as <-. lia.
      * rewrite (R j kj); [done|]. now rewrite list_lookup_insert_ne.
    + destruct (Nat.eqb_spec k 0) as [->|]; [|done]. apply NoDup_cons. split; [|done]. rewrite Nw. intros [C _]. lia.
    + intros j. cbn. destruct (Nat.eq_dec i j) as [<-|N].
      * pose proof (R i k ltac:(now apply list_lookup_insert)) as Ri. destruct (Nat.eqb_spec k 0) as [->|Nk].
        -- rewrite elem_of_cons. split; [|auto]. intros _. split; [lia|]. rewrite Ri. f_equal.
        -- rewrite Nw. split; [intros [? ?]; split; [lia|done]|]. intros [_ Hz]. split; [|done]. rewrite Ri in Hz. injection Hz. lia.
      * destruct (Nat.eqb_spec k 0); [rewrite elem_of_cons|]; rewrite Nw; split; intuition congruence.
Qed.

(** ** The loop invariant *)
Record hinv (n : nat) (cs : list horn) (popped trail : list nat) (st : hstate) : Prop := {
  hi_val : length (hs_val st) = n;
  hi_forced : length (hs_forced st) = n;
  hi_rem : length (hs_rem st) = length cs;
  hi_pend : forall i c, cs !! i = Some c -> hs_rem st !! i = Some (pend n (hs_val st) (h_body c));
  hi_nodup : NoDup (popped ++ hs_ready st);
  hi_ready : forall i, i ∈ popped ++ hs_ready st <-> hs_rem st !! i = Some 0%nat;
  hi_popped : forall i, i ∈ popped -> exists c h, cs !! i = Some c /\ h_head c = Some h /\ ((h < n)%nat -> hs_val st !! h = Some true);
  hi_trail : forall b, hs_val st !! b = Some true <-> b ∈ trail;
  hi_cause : forall t1 b t2, trail = t1 ++ b :: t2 -> exists ci c, hs_forced st !! b = Some (Some ci) /\ cs !! ci = Some c /\
    h_head c = Some b /\ forall x, x ∈ h_body c -> (x < n)%nat -> x ∈ t1;
  hi_tnodup : NoDup trail
}.

Lemma ready0_ok rem i : i ∈ h_ready0 rem <-> rem !! i = Some 0%nat.
Proof.
  unfold h_ready0. rewrite elem_of_list_In, filter_In, in_seq. split.
  - intros [_ H]. destruct (rem !! i) as [[]|]; done.
  - intros H. rewrite H. split; [|done]. apply lookup_lt_Some in H. lia.
Qed.
Lemma ready0_nodup rem : NoDup (h_ready0 rem).
Proof. apply NoDup_ListNoDup. unfold h_ready0. apply List.NoDup_filter, seq_NoDup. Qed.

Lemma remaining_pend n cs i c : cs !! i = Some c -> h_remaining n cs !! i = Some (pend n (replicate n false) (h_body c)).
Proof.
  intros H. unfold h_remaining. change (map ?f cs) with (f <$> cs). rewrite list_lookup_fmap, H. cbn [fmap option_fmap option_map]. f_equal. unfold pend. f_equal.
  apply List.filter_ext. intros b. destruct (Nat.ltb_spec b n); [|done]. unfold h_var_true. now rewrite lookup_replicate_2.
Qed.

Lemma hinv_start n cs : hinv n cs [] [] (HState (replicate n false) (replicate n None) (h_remaining n cs) (h_ready0 (h_remaining n cs))).
Proof.
  constructor; cbn [hs_val hs_forced hs_rem hs_ready].
  - apply replicate_length.
  - apply replicate_length.
  - apply map_length.
  - apply remaining_pend.
  - apply ready0_nodup.
  - intros i. apply ready0_ok.
  - intros i H. now apply elem_of_nil in H.
  - intros b. rewrite lookup_replicate. split; [intros [Hd _]; discriminate Hd|]. intros H. now apply elem_of_nil in H.
  - intros [] ? ? H; discriminate H.
  - constructor.
Qed.

Lemma hinv_set n cs popped trail st ci c h ready rem' new :
  hinv n cs popped trail st -> hs_ready st = ci :: ready -> cs !! ci = Some c -> h_head c = Some h ->
  (h < n)%nat -> hs_val st !! h = Some false ->
  h_dec (h_in_body cs h) (hs_rem st) ready = Some (rem', ready ++ new) -> length rem' = length (hs_rem st) ->
  (forall j k, hs_rem st !! j = Some k -> rem' !! j = Some (k - count_occ Nat.eq_dec (h_in_body cs h) j)%nat) ->
  NoDup new -> (forall j, j ∈ new <-> (0 < count_occ Nat.eq_dec (h_in_body cs h) j)%nat /\ rem' !! j = Some 0%nat) ->
  hinv n cs (popped ++ [ci]) (trail ++ [h]) (HState (<[h := true]> (hs_val st)) (<[h := Some ci]> (hs_forced st)) rem' (ready ++ new)).
Proof.
  intros [V F R P N Rd Pp T C Tn] Er Ec Eh Hn Hf _ Lr Rm Nn Nw.
  assert (Vf : h_var_true (hs_val st) h = false) by (unfold h_var_true; now rewrite Hf).
  assert (Cnt : forall i d, cs !! i = Some d -> count_occ Nat.eq_dec (h_in_body cs h) i = occ h (h_body d)) by (intros i d Hd; rewrite count_in_body, Hd; done).
  assert (Pz : forall i, hs_rem st !! i = Some 0%nat -> count_occ Nat.eq_dec (h_in_body cs h) i = 0%nat).
  { intros i Hi. destruct (lookup_lt_is_Some_2 cs i) as [d Hd]; [rewrite <- R; now apply lookup_lt_Some in Hi|].
    rewrite (Cnt i d Hd). rewrite (P i d Hd) in Hi. injection Hi as Hi. pose proof (pend_insert n (hs_val st) h (h_body d) V Hn Vf). lia. }
  constructor; cbn [hs_val hs_forced hs_rem hs_ready].
  - now rewrite insert_length.
  - now rewrite insert_length.
  - congruence.
  - intros i d Hd. rewrite (Rm i _ (P i d Hd)), (Cnt i d Hd). f_equal. pose proof (pend_insert n (hs_val st) h (h_body d) V Hn Vf). lia.
  - rewrite <- app_assoc. cbn. rewrite Er in N. change (ci :: ready ++ new) with ((ci :: ready) ++ new). rewrite app_assoc.
    apply NoDup_app. split; [done|]. split; [|done]. intros x Hx Hnew. apply Nw in Hnew. destruct Hnew as [Hc _].
    rewrite <- Er in Hx. apply Rd, Pz in Hx. lia.
  - intros i. rewrite <- app_assoc. cbn. change (ci :: ready ++ new) with ((ci :: ready) ++ new). rewrite app_assoc, <- Er, elem_of_app, Rd, Nw. split.
    + intros [H|[_ H]]; [|done]. rewrite (Rm i 0%nat H). f_equal.
    + intros H. destruct (count_occ Nat.eq_dec (h_in_body cs h) i) eqn:Ei.
      * left. destruct (lookup_lt_is_Some_2 (hs_rem st) i) as [k Hk]; [rewrite <- Lr; now apply lookup_lt_Some in H|].
        pose proof (Rm i k Hk) as Hr. rewrite Ei, H in Hr. injection Hr as Hr. rewrite Hk. f_equal. lia.
      * right. split; [lia|done].
  - intros i. rewrite elem_of_app, elem_of_list_singleton. intros [Hi| ->].
    + destruct (Pp i Hi) as (d & h' & Hd & Hh & Hv). exists d, h'. split; [done|]. split; [done|]. intros Hl.
      destruct (decide (h = h')) as [<-|]; [apply list_lookup_insert; lia|]. rewrite list_lookup_insert_ne by done. auto.
    + exists c, h. split; [done|]. split; [done|]. intros _. apply list_lookup_insert. lia.
  - intros b. rewrite elem_of_app, elem_of_list_singleton, <- T. destruct (decide (h = b)) as [<-|Nb].
    + rewrite list_lookup_insert by lia. tauto.
    + rewrite list_lookup_insert_ne by done. intuition congruence.
  - intros t1 b t2 E. destruct t2 as [|x t2 _] using rev_ind.
    + apply app_inj_tail in E as [<- <-]. exists ci, c. rewrite list_lookup_insert by lia. split; [done|]. split; [done|]. split; [done|].
      intros x Hx Hl. apply T. assert (Z : hs_rem st !! ci = Some 0%nat) by (apply Rd; rewrite elem_of_app, Er; right; left).
      rewrite (P ci c Ec) in Z. injection Z as Z. now apply (proj1 (pend_zero _ _ _) Z).
    + rewrite app_comm_cons, app_assoc in E. apply app_inj_tail in E as [E <-].
      destruct (C t1 b t2 E) as (cj & d & Hf' & Hd & Hh & Hb). exists cj, d.
      rewrite list_lookup_insert_ne; [auto|]. intros <-. assert (h ∈ trail) as Ht by (rewrite E, elem_of_app; right; left). apply T in Ht. congruence.
  - apply NoDup_app. split; [done|]. split; [|apply NoDup_singleton]. intros x Hx Hh%elem_of_list_singleton. subst x. apply T in Hx. congruence.
Qed.

Lemma hinv_skip n cs popped trail st ci c h ready :
  hinv n cs popped trail st -> hs_ready st = ci :: ready -> cs !! ci = Some c -> h_head c = Some h ->
  ((h < n)%nat -> hs_val st !! h = Some true) ->
  hinv n cs (popped ++ [ci]) trail (HState (hs_val st) (hs_forced st) (hs_rem st) ready).
Proof.
  intros [V F R P N Rd Pp T C Tn] Er Ec Eh Hv. constructor; cbn [hs_val hs_forced hs_rem hs_ready]; try done.
  - rewrite <- app_assoc. cbn. now rewrite <- Er.
  - intros i. rewrite <- app_assoc. cbn. rewrite <- Er. apply Rd.
  - intros i. rewrite elem_of_app, elem_of_list_singleton. intros [Hi| ->]; [auto|]. exists c, h. auto.
Qed.

(** ** The derivation *)
Fixpoint unused (used : gset nat) (i : nat) (cs : list horn) : nat :=
  match cs with [] => 0 | c :: cs => (if bool_decide (i ∈ used) then 0 else length (h_body c)) + unused used (S i) cs end.
Lemma unused_add cs : forall used i fc c, cs !! fc = Some c -> (i + fc)%nat ∉ used ->
  (unused ({[(i + fc)%nat]} ∪ used) i cs + length (h_body c) = unused used i cs)%nat.
Proof.
  assert (S0 : forall cs used i j, (j < i)%nat -> unused ({[j]} ∪ used) i cs = unused used i cs).
  { clear. induction cs as [|c cs IH]; intros used i j L; cbn; [done|]. rewrite IH by lia. f_equal.
    rewrite (bool_decide_ext (i ∈ {[j]} ∪ used) (i ∈ used)); [done|]. set_unfold. intuition lia. }
  induction cs as [|d cs IH]; intros used i [|fc] c E N; cbn in E; try discriminate; cbn [unused].
  - injection E as ->. rewrite Nat.add_0_r in *. rewrite bool_decide_true by set_solver. rewrite bool_decide_false by done. rewrite S0 by lia. lia.
  - replace (i + S fc)%nat with (S i + fc)%nat in * by lia. specialize (IH used (S i) fc c E N).
    rewrite (bool_decide_ext (i ∈ {[(S i + fc)%nat]} ∪ used) (i ∈ used)) by (set_unfold; intuition lia). cbn [unused] in *. lia.
Qed.
Lemma unused_le cs : forall used i, (unused used i cs <= h_size cs)%nat.
Proof.
  unfold h_size. induction cs as [|c cs IH]; intros used i; cbn [unused map]; [cbn; lia|]. specialize (IH used (S i)). change (list_sum (length (h_body c) :: map (fun c => length (h_body c)) cs)) with (length (h_body c) + list_sum (map (fun c => length (h_body c)) cs))%nat. destruct (bool_decide (i ∈ used)); lia.
Qed.

Lemma h_deriv_ok cs forced goal : (forall v fc, forced !! v = Some (Some fc) -> is_Some (cs !! fc)) ->
  forall steps used (sc sv : gset nat) stack,
  (length stack + unused sc 0 cs < steps)%nat -> (forall x, x ∈ sc <-> x ∈ used) -> goal ∈ used ->
  (forall u, u ∈ used -> exists c, cs !! u = Some c /\ forall v, v ∈ h_body c -> v ∈ sv \/ v ∈ stack) ->
  (forall v fc, v ∈ sv -> forced !! v = Some (Some fc) -> fc ∈ used) ->
  exists d, h_deriv steps cs forced used sc sv stack = Some d /\ goal ∈ d /\
    forall u, u ∈ d -> exists c, cs !! u = Some c /\ forall v fc, v ∈ h_body c -> forced !! v = Some (Some fc) -> fc ∈ d.
Proof.
  intros Wf. induction steps as [|steps IH]; intros used sc sv stack L Sc G U Sv; [lia|]. cbn [h_deriv]. destruct stack as [|v stack].
  - exists used. split; [done|]. split; [done|]. intros u Hu. destruct (U u Hu) as (c & Hc & Hb). exists c. split; [done|]. intros v fc Hv Hf.
    destruct (Hb v Hv) as [?|H]; [eauto|now apply elem_of_nil in H].
  - cbn [length] in L. case_bool_decide as B.
    + apply IH; auto; [lia|]. intros u Hu. destruct (U u Hu) as (c & Hc & Hb). exists c. split; [done|]. intros w Hw.
      destruct (Hb w Hw) as [?|[->|?]%elem_of_cons]; auto.
    + destruct (mjoin (forced !! v)) as [fc|] eqn:E.
      * assert (Ef : forced !! v = Some (Some fc)) by (destruct (forced !! v) as [[]|]; cbn in E; congruence).
        case_bool_decide as B2.
        -- apply IH; auto; [lia| |].
           ++ intros u Hu. destruct (U u Hu) as (c & Hc & Hb). exists c. split; [done|]. intros w Hw.
              destruct (Hb w Hw) as [?|[->|?]%elem_of_cons]; set_solver.
           ++ intros w fw Hw Hfw. apply elem_of_union in Hw as [->%elem_of_singleton|Hw]; [|eauto]. rewrite Ef in Hfw. injection Hfw as <-. now apply Sc.
        -- destruct (Wf v fc Ef) as [c Hc]. rewrite Hc.
           pose proof (unused_add cs sc 0 fc c Hc B2) as Un. cbn in Un.
           apply IH.
           ++ rewrite app_length, rev_length. lia.
           ++ intros x. rewrite elem_of_union, elem_of_singleton, Sc, elem_of_app, elem_of_list_singleton. tauto.
           ++ apply elem_of_app. auto.
           ++ intros u. rewrite elem_of_app, elem_of_list_singleton. intros [Hu| ->].
              ** destruct (U u Hu) as (c' & Hc' & Hb). exists c'. split; [done|]. intros w Hw. rewrite elem_of_app.
                 destruct (Hb w Hw) as [?|[->|?]%elem_of_cons]; set_solver.
              ** exists c. split; [done|]. intros w Hw. right. rewrite elem_of_app. left. now apply elem_of_list_In, in_rev; rewrite rev_involutive; apply elem_of_list_In.
           ++ intros w fw Hw Hfw. rewrite elem_of_app, elem_of_list_singleton. apply elem_of_union in Hw as [->%elem_of_singleton|Hw]; [|left; eauto].
              right. congruence.
      * apply IH; auto; [lia| |].
        ++ intros u Hu. destruct (U u Hu) as (c & Hc & Hb). exists c. split; [done|]. intros w Hw.
           destruct (Hb w Hw) as [?|[->|?]%elem_of_cons]; set_solver.
        ++ intros w fw Hw Hfw. apply elem_of_union in Hw as [->%elem_of_singleton|Hw]; [|eauto]. rewrite Hfw in E. discriminate.
Qed.

Lemma h_derivation_ok cs goal c forced : cs !! goal = Some c -> (forall v fc, forced !! v = Some (Some fc) -> is_Some (cs !! fc)) ->
  exists d, h_derivation cs goal forced = Some d /\ goal ∈ d /\
    forall u, u ∈ d -> exists c, cs !! u = Some c /\ forall v fc, v ∈ h_body c -> forced !! v = Some (Some fc) -> fc ∈ d.
Proof.
  intros Hc Wf. unfold h_derivation. rewrite Hc. apply h_deriv_ok; try done.
  - rewrite rev_length. pose proof (unused_add cs ∅ 0 goal c Hc ltac:(set_solver)) as Un. cbn in Un.
    rewrite union_empty_r_L in Un. pose proof (unused_le cs ∅ 0). lia.
  - intros x. rewrite elem_of_singleton, elem_of_list_singleton. done.
  - left.
  - intros u ->%elem_of_list_singleton. exists c. split; [done|]. intros v Hv. right. apply elem_of_list_In, in_rev. rewrite rev_involutive. now apply elem_of_list_In.
Qed.

(** ** The main loop *)
Definition final_sat (n : nat) (cs : list horn) (v : list bool) : Prop :=
  exists popped trail st, hinv n cs popped trail st /\ hs_ready st = [] /\ hs_val st = v.
Definition final_unsat (n : nat) (cs : list horn) (d : list nat) : Prop :=
  exists popped trail st ci c, hinv n cs popped trail st /\ ci ∈ hs_ready st /\ cs !! ci = Some c /\ h_head c = None /\ ci ∈ d /\
    forall u, u ∈ d -> exists c, cs !! u = Some c /\ forall v fc, v ∈ h_body c -> hs_forced st !! v = Some (Some fc) -> fc ∈ d.

Lemma h_loop_ok n cs : forall steps popped trail st, hinv n cs popped trail st ->
  (forall v fc, hs_forced st !! v = Some (Some fc) -> is_Some (cs !! fc)) ->
  (length cs < steps + length popped)%nat ->
  exists o, h_loop steps n cs st = Some o /\ match o with HSat v => final_sat n cs v | HUnsat d => final_unsat n cs d end.
Proof.
  assert (Bd : forall popped trail st, hinv n cs popped trail st -> (length (popped ++ hs_ready st) <= length cs)%nat).
  { intros popped trail st [V F R P N Rd Pp T C Tn]. rewrite <- (seq_length (length cs) 0). apply submseteq_length, NoDup_submseteq; [done|].
    intros x Hx. apply elem_of_list_In, in_seq. apply Rd in Hx. apply lookup_lt_Some in Hx. lia. }
  induction steps as [|steps IH]; intros popped trail st I Wf L.
  { pose proof (Bd _ _ _ I) as B. rewrite app_length in B. lia. }
  pose proof (Bd _ _ _ I) as B. cbn [h_loop]. destruct (hs_ready st) as [|ci ready] eqn:Er.
  { eexists. split; [reflexivity|]. exists popped, trail, st. auto. }
  pose proof I as [V F R P N Rd Pp T C Tn].
  assert (Z : hs_rem st !! ci = Some 0%nat) by (apply Rd; rewrite elem_of_app, Er; right; left).
  destruct (lookup_lt_is_Some_2 cs ci) as [c Hc]; [rewrite <- R; now apply lookup_lt_Some in Z|]. rewrite Hc.
  destruct (h_head c) as [h|] eqn:Eh.
  - destruct (Nat.ltb_spec h n) as [Hn|Hn]; cbn [andb].
    + destruct (lookup_lt_is_Some_2 (hs_val st) h) as [b Hb]; [lia|]. rewrite Hb. cbn. destruct b; cbn.
      * apply (IH (popped ++ [ci]) trail); [|done|rewrite app_length; cbn; lia].
        apply (hinv_skip n cs popped trail st ci c h ready); auto.
      * destruct (h_dec_ok (h_in_body cs h) (hs_rem st) ready) as (rem' & new & E & Lr & Rm & Nn & Nw).
        { intros j Hj. rewrite count_in_body in *. destruct (cs !! j) as [d|] eqn:Hd; [|lia]. exists (pend n (hs_val st) (h_body d)). split; [auto|].
          assert (Vf : h_var_true (hs_val st) h = false) by (unfold h_var_true; now rewrite Hb).
          pose proof (pend_insert n (hs_val st) h (h_body d) V Hn Vf). lia. }
        rewrite E. apply (IH (popped ++ [ci]) (trail ++ [h])).
        -- exact (hinv_set n cs popped trail st ci c h ready rem' new I Er Hc Eh Hn Hb E Lr Rm Nn Nw).
        -- cbn. intros v fc. destruct (decide (h = v)) as [<-|].
           ++ rewrite list_lookup_insert by lia. intros [= <-]. eauto.
           ++ rewrite list_lookup_insert_ne by done. apply Wf.
        -- rewrite app_length. cbn. lia.
    + apply (IH (popped ++ [ci]) trail); [|done|rewrite app_length; cbn; lia].
      apply (hinv_skip n cs popped trail st ci c h ready); auto. lia.
  - destruct (h_derivation_ok cs ci c (hs_forced st) Hc Wf) as (d & E & Gd & Dd). rewrite E. eexists. split; [reflexivity|].
    exists popped, trail, st, ci, c. split; [done|]. rewrite Er. split; [left|]. auto.
Qed.

Lemma h_solve_ok n cs : exists o, h_solve cs n = Some o /\ match o with HSat v => final_sat n cs v | HUnsat d => final_unsat n cs d end.
Proof.
  unfold h_solve. apply (h_loop_ok n cs _ [] []); [apply hinv_start| |cbn; lia].
  cbn. intros v fc H. apply lookup_replicate in H as [? _]. discriminate.
Qed.

(** ** Consequences *)
Lemma trail_forced n cs popped trail st f : hinv n cs popped trail st -> bodies_in n cs ->
  horn_model f cs -> forall b, b ∈ trail -> f b = true.
Proof.
  intros I Bi M. pose proof I as [V F R P N Rd Pp T C Tn].
  assert (G : forall k b, trail !! k = Some b -> f b = true).
  { intros k. induction (lt_wf k) as [k _ IH]. intros b Hb. pose proof (take_drop_middle trail k b Hb) as E. symmetry in E.
    destruct (C _ _ _ E) as (ci & c & _ & Hc & Hh & Hx).
    assert (Hm : c ∈ cs) by (apply elem_of_list_lookup; eauto).
    specialize (M c Hm). unfold horn_true in M. rewrite Hh in M. apply M. intros x Hxb.
    assert (Hin : x ∈ take k trail) by (apply Hx; [done|exact (Bi c x Hm Hxb)]).
    apply elem_of_list_lookup in Hin as [j Hj]. apply lookup_take_Some in Hj as [Hj Lj]. eauto. }
  intros b [k Hk]%elem_of_list_lookup. eauto.
Qed.

Lemma sat_least n cs v f : final_sat n cs v -> bodies_in n cs -> horn_model f cs -> forall b, v !! b = Some true -> f b = true.
Proof.
  intros (popped & trail & st & I & _ & <-) Bi M b Hb. apply (trail_forced n cs popped trail st f I Bi M). now apply (hi_trail _ _ _ _ _ I).
Qed.

Lemma sat_model n cs v : final_sat n cs v -> bodies_in n cs -> heads_in n cs -> length v = n /\ horn_model (h_var_true v) cs.
Proof.
  intros (popped & trail & st & [V F R P N Rd Pp T C Tn] & Er & <-) Bi Hi. split; [done|]. intros c Hc Hb.
  apply elem_of_list_lookup in Hc as Hc'. destruct Hc' as [i Hci].
  assert (Z : hs_rem st !! i = Some 0%nat).
  { rewrite (P i c Hci). f_equal. apply pend_zero. intros b Hbb _. apply var_true_iff. auto. }
  apply Rd in Z. rewrite Er, app_nil_r in Z. destruct (Pp i Z) as (c' & h & Hc' & Hh & Hv). rewrite Hci in Hc'. injection Hc' as <-.
  rewrite Hh. apply var_true_iff, Hv. exact (Hi c h Hc Hh).
Qed.

Lemma unsat_no_model n cs d f : final_unsat n cs d -> bodies_in n cs -> ~ horn_model f cs.
Proof.
  intros (popped & trail & st & ci & c & I & Hr & Hc & Hh & _) Bi M. pose proof I as [V F R P N Rd Pp T C Tn].
  assert (Z : hs_rem st !! ci = Some 0%nat) by (apply Rd, elem_of_app; auto).
  rewrite (P ci c Hc) in Z. injection Z as Z.
  assert (Hm : c ∈ cs) by (apply elem_of_list_lookup; eauto).
  specialize (M c Hm) as Mc. unfold horn_true in Mc. rewrite Hh in Mc. apply Mc. intros b Hb.
  apply (trail_forced n cs popped trail st f I Bi M), T. apply (proj1 (pend_zero _ _ _) Z b Hb). exact (Bi c b Hm Hb).
Qed.

(** The clauses listed by the derivation are unsatisfiable by themselves. *)
Definition listed (cs : list horn) (d : list nat) (c : horn) : Prop := exists i, i ∈ d /\ cs !! i = Some c.
Lemma unsat_listed n cs d f : final_unsat n cs d -> bodies_in n cs -> (forall i, i ∈ d -> is_Some (cs !! i)) /\ ~ (forall c, listed cs d c -> horn_true f c).
Proof.
  intros (popped & trail & st & ci & c & I & Hr & Hc & Hh & Hd & Cl) Bi. pose proof I as [V F R P N Rd Pp T C Tn].
  split. { intros i Hi. destruct (Cl i Hi) as (c' & -> & _). eauto. }
  intros M.
  assert (G : forall k b, trail !! k = Some b -> (forall fc, hs_forced st !! b = Some (Some fc) -> fc ∈ d) -> f b = true).
  { intros k. induction (lt_wf k) as [k _ IH]. intros b Hb Hfd. pose proof (take_drop_middle trail k b Hb) as E. symmetry in E.
    destruct (C _ _ _ E) as (cj & c' & Hf & Hc' & Hh' & Hx). specialize (Hfd cj Hf).
    assert (Ht : horn_true f c') by (apply M; exists cj; auto). unfold horn_true in Ht. rewrite Hh' in Ht. apply Ht. intros x Hxb.
    assert (Hm : c' ∈ cs) by (apply elem_of_list_lookup; eauto).
    assert (Hin : x ∈ take k trail) by (apply Hx; [done|exact (Bi c' x Hm Hxb)]).
    apply elem_of_list_lookup in Hin as [j Hj]. apply lookup_take_Some in Hj as [Hj Lj].
    apply (IH j Lj x Hj). intros fc Hfc. destruct (Cl cj Hfd) as (c2 & Hc2 & Hall). rewrite Hc' in Hc2. injection Hc2 as <-. eauto. }
  assert (Z : hs_rem st !! ci = Some 0%nat) by (apply Rd, elem_of_app; auto).
  rewrite (P ci c Hc) in Z. injection Z as Z.
  assert (Hm : c ∈ cs) by (apply elem_of_list_lookup; eauto).
  assert (Ht : horn_true f c) by (apply M; exists ci; auto). unfold horn_true in Ht. rewrite Hh in Ht. apply Ht. intros b Hb.
  assert (Hbt : b ∈ trail) by (apply T, (proj1 (pend_zero _ _ _) Z b Hb), (Bi c b Hm Hb)).
  apply elem_of_list_lookup in Hbt as [k Hk]. apply (G k b Hk). intros fc Hfc.
  destruct (Cl ci Hd) as (c2 & Hc2 & Hall). rewrite Hc in Hc2. injection Hc2 as <-. eauto.
Qed.

(** ** The certificate checker *)
Definition falses (val : list bool) : nat := length (List.filter negb val).
Lemma falses_insert val h : val !! h = Some false -> (S (falses (<[h := true]> val)) = falses val)%nat.
Proof.
  unfold falses. revert h. induction val as [|b val IH]; intros [|h] H; cbn in H; try discriminate.
  - injection H as ->. done.
  - change (<[S h := true]> (b :: val)) with (b :: <[h := true]> val). cbn [List.filter]. specialize (IH h H). destruct (negb b); cbn [length]; lia.
Qed.

Definition body_ok (n : nat) (val : list bool) (c : horn) : bool := forallb (fun b => Nat.ltb b n && h_var_true val b) (h_body c).
Lemma body_ok_iff n val c : length val = n -> body_ok n val c = true <-> forall b, b ∈ h_body c -> val !! b = Some true.
Proof.
  intros L. unfold body_ok. rewrite forallb_forall. split; intros H b Hb.
  - apply elem_of_list_In in Hb. specialize (H b Hb). apply andb_true_iff in H as [_ H]. now apply var_true_iff.
  - apply elem_of_list_In in Hb. specialize (H b Hb). rewrite (proj2 (var_true_iff _ _) H), andb_true_r. apply Nat.ltb_lt. apply lookup_lt_Some in H. lia.
Qed.

Lemma replay_pass_ok cs n refn : forall val ch, length val = n -> (forall i, i ∈ refn -> is_Some (cs !! i)) ->
  exists val' ch', h_replay_pass cs n refn val ch = Some (val', ch') /\ length val' = n /\
    (forall b, val !! b = Some true -> val' !! b = Some true) /\
    (forall f, (forall c, listed cs refn c -> horn_true f c) -> (forall b, val !! b = Some true -> f b = true) -> forall b, val' !! b = Some true -> f b = true) /\
    (ch = true -> ch' = true) /\ (falses val' <= falses val)%nat /\ (ch = false -> ch' = true -> falses val' < falses val)%nat /\
    (ch' = false -> val' = val /\ forall c h, listed cs refn c -> h_head c = Some h -> (h < n)%nat -> (forall b, b ∈ h_body c -> val !! b = Some true) -> val !! h = Some true).
Proof.
  induction refn as [|ci refn IH]; intros val ch L Ok; cbn [h_replay_pass].
  - exists val, ch. repeat split; auto; [congruence|]. intros c h (i & Hi & _). now apply elem_of_nil in Hi.
  - destruct (Ok ci (elem_of_list_here _ _)) as [c Hc]. rewrite Hc.
    assert (Ok' : forall i, i ∈ refn -> is_Some (cs !! i)) by (intros i Hi; apply Ok; now right).
    assert (Ls : forall d, listed cs (ci :: refn) d <-> d = c \/ listed cs refn d).
    { intros d. split.
      - intros (i & [->|Hi]%elem_of_cons & Hd); [left; congruence|right; exists i; auto].
      - intros [->|(i & Hi & Hd)]; [exists ci; split; [left|done]|exists i; split; [now right|done]]. }
    assert (Skip : (ch = ch) -> (forall h, h_head c = Some h -> (h < n)%nat -> (forall b, b ∈ h_body c -> val !! b = Some true) -> val !! h = Some true) ->
      exists val' ch', h_replay_pass cs n refn val ch = Some (val', ch') /\ length val' = n /\
      (forall b, val !! b = Some true -> val' !! b = Some true) /\
      (forall f, (forall c, listed cs (ci :: refn) c -> horn_true f c) -> (forall b, val !! b = Some true -> f b = true) -> forall b, val' !! b = Some true -> f b = true) /\
      (ch = true -> ch' = true) /\ (falses val' <= falses val)%nat /\ (ch = false -> ch' = true -> falses val' < falses val)%nat /\
      (ch' = false -> val' = val /\ forall d h, listed cs (ci :: refn) d -> h_head d = Some h -> (h < n)%nat -> (forall b, b ∈ h_body d -> val !! b = Some true) -> val !! h = Some true)).
    { intros _ Hskip. destruct (IH val ch L Ok') as (val' & ch' & E & A1 & A2 & A3 & A4 & A5 & A6 & A7). exists val', ch'.
      split; [done|]. split; [done|]. split; [done|]. split; [|split; [done|split; [done|split; [done|]]]].
      - intros f M. apply A3. intros d Hd. apply M, Ls. auto.
      - intros Hch. destruct (A7 Hch) as [-> A8]. split; [done|]. intros d h [->|Hd]%Ls; eauto. }
    destruct (h_head c) as [h|] eqn:Eh; [|apply Skip; [done|intros; discriminate]].
    fold (body_ok n val c). destruct (body_ok n val c && Nat.ltb h n && negb (h_var_true val h)) eqn:Cond.
    + apply andb_true_iff in Cond as [Cond Nf]. apply andb_true_iff in Cond as [Bo Hl]. apply Nat.ltb_lt in Hl.
      apply negb_true_iff in Nf. pose proof (proj1 (body_ok_iff n val c L) Bo) as Bo'.
      assert (Vh : val !! h = Some false).
      { destruct (lookup_lt_is_Some_2 val h) as [[] Hb]; [lia| |done]. apply var_true_iff in Hb. congruence. }
      pose proof (falses_insert val h Vh) as Fi.
      destruct (IH (<[h := true]> val) true) as (val' & ch' & E & A1 & A2 & A3 & A4 & A5 & A6 & A7); [now rewrite insert_length|done|].
      exists val', ch'. split; [done|]. split; [done|]. split; [|split; [|split; [auto|split; [lia|split; [lia|]]]]].
      * intros b Hb. apply A2. destruct (decide (h = b)) as [<-|]; [apply list_lookup_insert; lia|now rewrite list_lookup_insert_ne].
      * intros f M Hv. apply A3; [intros d Hd; apply M, Ls; auto|]. intros b. destruct (decide (h = b)) as [<-|].
        -- intros _. assert (Mc : horn_true f c) by (apply M, Ls; auto). unfold horn_true in Mc. rewrite Eh in Mc. apply Mc. auto.
        -- rewrite list_lookup_insert_ne by done. apply Hv.
      * intros Hch. rewrite (A4 eq_refl) in Hch. discriminate.
    + apply Skip; [done|]. intros h' [= <-] Hl Hb. apply (body_ok_iff n val c L) in Hb. rewrite Hb in Cond.
      apply Nat.ltb_lt in Hl. rewrite Hl in Cond. cbn in Cond. apply negb_false_iff in Cond. now apply var_true_iff.
Qed.

Lemma replay_ok cs n refn : (forall i, i ∈ refn -> is_Some (cs !! i)) ->
  forall steps val, length val = n -> (falses val < steps)%nat ->
  exists val', h_replay steps cs n refn val = Some (Some val') /\ length val' = n /\
    (forall f, (forall c, listed cs refn c -> horn_true f c) -> (forall b, val !! b = Some true -> f b = true) -> forall b, val' !! b = Some true -> f b = true) /\
    (forall c h, listed cs refn c -> h_head c = Some h -> (h < n)%nat -> (forall b, b ∈ h_body c -> val' !! b = Some true) -> val' !! h = Some true).
Proof.
  intros Ok. induction steps as [|steps IH]; intros val L Fl; [lia|]. cbn [h_replay].
  destruct (replay_pass_ok cs n refn val false L Ok) as (val' & ch' & E & A1 & A2 & A3 & A4 & A5 & A6 & A7). rewrite E. destruct ch'.
  - specialize (A6 eq_refl eq_refl). destruct (IH val' A1 ltac:(lia)) as (v & Ev & B1 & B2 & B3). exists v. split; [done|]. split; [done|]. split; [|done].
    intros f M Hv. apply B2; auto.
  - destruct (A7 eq_refl) as [-> A8]. exists val. auto.
Qed.

Lemma replay_bad cs n refn i : i ∈ refn -> cs !! i = None -> forall val ch, h_replay_pass cs n refn val ch = None.
Proof.
  intros Hi Hn. induction refn as [|ci refn IH]; [now apply elem_of_nil in Hi|]. intros val ch. cbn.
  apply elem_of_cons in Hi as [<-|Hi]; [now rewrite Hn|]. destruct (cs !! ci) as [c|]; [|done]. destruct (h_head c); [|auto].
  destruct (_ && _ && _); auto.
Qed.

Lemma falses_replicate n : falses (replicate n false) = n.
Proof. unfold falses. induction n as [|n IH]; cbn; [done|]. now rewrite IH. Qed.

Lemma horn_truth_dec f c : horn_true f c \/ ~ horn_true f c.
Proof.
  unfold horn_true. destruct (forallb f (h_body c)) eqn:E.
  - rewrite forallb_forall in E. destruct (h_head c) as [h|].
    + destruct (f h) eqn:Eh; [auto|]. right. intros H. specialize (H ltac:(intros b Hb; apply E, elem_of_list_In, Hb)). congruence.
    + right. intros H. apply H. intros b Hb. apply E, elem_of_list_In, Hb.
  - left. intros H. exfalso. apply not_true_iff_false in E. apply E, forallb_forall. intros b Hb. apply H, elem_of_list_In, Hb.
Qed.

Lemma is_refutation_exact cs n refn :
  heads_in n cs ->
  exists r, h_is_refutation cs n refn = Some r /\
    (r = true <-> (forall i, i ∈ refn -> is_Some (cs !! i)) /\ (forall f, ~ (forall c, listed cs refn c -> horn_true f c))).
Proof.
  intros Hi. unfold h_is_refutation.
  destruct (List.Forall_dec (fun i => is_Some (cs !! i)) (fun i => decide (is_Some (cs !! i))) refn) as [Ok|Bad].
  - rewrite List.Forall_forall in Ok.
    assert (Ok' : forall i, i ∈ refn -> is_Some (cs !! i)) by (intros i Hin; apply Ok, elem_of_list_In, Hin).
    destruct (replay_ok cs n refn Ok' (S n) (replicate n false)) as (val & E & L & Snd & Cl).
    { apply replicate_length. } { rewrite falses_replicate. lia. }
    rewrite E. eexists. split; [reflexivity|]. rewrite existsb_exists. split.
    + intros (ci & Hci & H). split; [done|]. intros f M. destruct (cs !! ci) as [c|] eqn:Hc; [|done]. destruct (h_head c) as [|] eqn:Hh; [done|].
  fold (body_ok n val c) in H. pose proof (proj1 (body_ok_iff n val c L) H) as H0. clear H. rename H0 into H.
      assert (Lc : listed cs refn c) by (exists ci; split; [now apply elem_of_list_In|done]).
      specialize (M c Lc) as Mc. unfold horn_true in Mc. rewrite Hh in Mc. apply Mc. intros b Hb. apply (Snd f M); [|auto].
      intros x Hx. apply lookup_replicate in Hx as [? _]. discriminate.
    + intros [_ H].
      assert (G : ~ forall ci c, In ci refn -> cs !! ci = Some c -> h_head c = None -> body_ok n val c = false).
      { intros G. apply (H (h_var_true val)). intros c (ci & Hci & Hc) Hb.
        assert (Hb' : forall b, b ∈ h_body c -> val !! b = Some true) by (intros b Hbb; apply var_true_iff; auto).
        destruct (h_head c) as [h|] eqn:Hh.
        - apply var_true_iff, (Cl c h); [exists ci; auto|done| |done]. apply (Hi c h); [apply elem_of_list_lookup; eauto|done].
        - apply (body_ok_iff n val c L) in Hb'. rewrite (G ci c) in Hb'; [discriminate|now apply elem_of_list_In|done|done]. }
      assert (Dec : existsb (fun ci => match cs !! ci with Some c => match h_head c with None => body_ok n val c | Some _ => false end | None => false end) refn = true).
      { apply not_false_iff_true. intros Ex. apply G. intros ci c Hci Hc Hh.
        apply not_true_iff_false. intros B. apply not_true_iff_false in Ex. apply Ex, existsb_exists. exists ci. split; [done|]. now rewrite Hc, Hh. }
      apply existsb_exists in Dec. exact Dec.
  - assert (Bx : exists i, i ∈ refn /\ cs !! i = None).
    { apply neg_Forall_Exists_neg in Bad; [|intros x; destruct (decide (is_Some (cs !! x))); [left|right]; done].
      apply List.Exists_exists in Bad as (i & Hin & Hn). exists i. split; [now apply elem_of_list_In|]. destruct (cs !! i); [exfalso; apply Hn; eauto|done]. }
    destruct Bx as (i & Hin & Hn). cbn [h_replay]. rewrite (replay_bad cs n refn i Hin Hn). exists false. split; [done|]. split; [discriminate|].
    intros [H _]. destruct (H i Hin) as [c Hc]. congruence.
Qed.

Lemma h_satisfies_iff cs a : h_satisfies cs a = true <-> horn_model (h_var_true a) cs.
Proof.
  unfold h_satisfies, horn_model. rewrite forallb_forall. split; intros H c Hc.
  - apply elem_of_list_In in Hc. specialize (H c Hc). cbv beta zeta in H. intros Hb.
    assert (E : forallb (h_var_true a) (h_body c) = true) by (apply forallb_forall; intros b Hbb; apply Hb, elem_of_list_In, Hbb).
    rewrite E in H. destruct (h_head c); [exact H|discriminate].
  - apply elem_of_list_In in Hc. specialize (H c Hc). unfold horn_true in H. destruct (forallb (h_var_true a) (h_body c)) eqn:E.
    + rewrite forallb_forall in E. specialize (H ltac:(intros b Hb; apply E, elem_of_list_In, Hb)). destruct (h_head c); [exact H|done].
    + destruct (h_head c); done.
Qed.
