(** Hopcroft-Karp: searches never fail, keep a matching, and every phase enlarges it. *)
From Coq Require Import List Arith Bool Lia.
From stdpp Require Import list list_numbers.
From Verif Require Import MatchModel.
Local Open Scope list_scope.

Lemma lookup_seq0 n i : i < n -> seq 0 n !! i = Some i.
Proof. intros H. apply (proj2 (lookup_seq 0 n i i)). lia. Qed.
Lemma nodup_length_le (l l' : list nat) : NoDup l -> l ⊆ l' -> length l <= length l'.
Proof. intros N H. apply submseteq_length. apply NoDup_submseteq; assumption. Qed.
Lemma filter_seq_in (P : nat -> bool) n x : x ∈ List.filter P (seq 0 n) <-> x < n /\ P x = true.
Proof. rewrite elem_of_list_In, filter_In, in_seq. split; intros [A B]; split; auto; lia. Qed.
Lemma filter_seq_nodup (P : nat -> bool) n : NoDup (List.filter P (seq 0 n)).
Proof. apply NoDup_ListNoDup, List.NoDup_filter, seq_NoDup. Qed.
Lemma free_items_in im x : x ∈ free_items im <-> im !! x = Some None.
Proof.
  unfold free_items. rewrite filter_seq_in. split.
  - intros [_ H]. destruct (im !! x) as [[v |] |]; congruence.
  - intros E. split; [apply lookup_lt_Some in E; exact E | rewrite E; reflexivity].
Qed.
Lemma marked_in l x : x ∈ marked l <-> l !! x = Some true.
Proof.
  unfold marked. rewrite filter_seq_in. split.
  - intros [_ H]. destruct (l !! x) as [[] |]; congruence.
  - intros E. split; [apply lookup_lt_Some in E; exact E | rewrite E; reflexivity].
Qed.

Section proofs.
Context (adj : list (list nat)) (ns : nat).
Notation n := (length adj).
Notation allowed x v := (exists vs, adj !! x = Some vs /\ v ∈ vs).

(** The two arrays describe one matching, save a stale entry of the slot array. *)
Record match_ok (sm im : matches) (ex : option nat) : Prop := MatchOk {
  m_sl : length sm = ns;
  m_il : length im = n;
  m_in : forall x v, im !! x = Some (Some v) -> allowed x v /\ sm !! v = Some (Some x);
  m_out : forall v x, sm !! v = Some (Some x) -> x < n /\ (im !! x = Some (Some v) \/ ex = Some v) }.

(** A path of increasing distances to a free slot. *)
Inductive layered (sm : matches) (ds : list (option nat)) : nat -> Prop :=
| lay_free u v d : allowed u v -> sm !! v = Some None -> ds !! u = Some (Some d) -> layered sm ds u
| lay_step u v w d : allowed u v -> sm !! v = Some (Some w) -> ds !! u = Some (Some d) -> ds !! w = Some (Some (S d)) -> layered sm ds w -> layered sm ds u.
Lemma layered_mono sm ds ds' u : (forall x, ds' !! x = ds !! x \/ ~ layered sm ds x) -> layered sm ds u -> layered sm ds' u.
Proof.
  intros H L. induction L as [u v d A Ev Ed | u v w d A Ev Ed Ew L IH].
  - apply (lay_free _ _ u v d); [exact A | exact Ev |]. destruct (H u) as [-> | N]; [exact Ed |]. exfalso. apply N. eapply lay_free; eassumption.
  - apply (lay_step _ _ u v w d); [exact A | exact Ev | | | exact IH].
    + destruct (H u) as [-> | N]; [exact Ed |]. exfalso. apply N. eapply lay_step; eassumption.
    + destruct (H w) as [-> | N]; [exact Ew |]. contradiction.
Qed.

(** What a search from [u] at distance [d] may change. *)
Definition above (ds : list (option nat)) (d x : nat) : Prop := exists dx, ds !! x = Some (Some dx) /\ d < dx.
Definition outcome_ok (u d : nat) (st : hk) (r : bool * hk) : Prop :=
  let old := match item_match st !! u with Some o => o | None => None end in
  let st' := snd r in
  length (dist st') = n /\
  (forall x, dist st' !! x = dist st !! x \/ (dist st' !! x = Some None /\ (x = u \/ above (dist st) d x))) /\
  if fst r then
    match_ok (slot_match st') (item_match st') old /\
    (forall x, item_match st' !! x = item_match st !! x \/ (exists v, item_match st' !! x = Some (Some v)) /\ (x = u \/ above (dist st) d x)) /\
    (exists v, item_match st' !! u = Some (Some v) /\ old <> Some v) /\
    (forall v, old = Some v -> slot_match st' !! v = Some (Some u))
  else
    slot_match st' = slot_match st /\ item_match st' = item_match st /\ ~ layered (slot_match st) (dist st) u /\
    (forall x, dist st' !! x = dist st !! x \/ ~ layered (slot_match st) (dist st) x).

Lemma place_ok st u v d : match_ok (slot_match st) (item_match st) None -> length (dist st) = n -> dist st !! u = Some (Some d) -> allowed u v -> slot_match st !! v = Some None ->
  outcome_ok u d st (true, place st u v).
Proof.
  intros M Ld Ed A Ev. assert (Lu : u < n) by (apply lookup_lt_Some in Ed; lia). assert (Lv : v < ns) by (rewrite <- (m_sl _ _ _ M); apply lookup_lt_Some in Ev; exact Ev).
  unfold outcome_ok. cbn [fst snd place dist slot_match item_match]. destruct (lookup_lt_is_Some_2 (item_match st) u) as [o Eo]; [rewrite (m_il _ _ _ M); exact Lu |]. rewrite Eo.
  assert (Ho : o <> Some v). { intros ->. apply (m_in _ _ _ M) in Eo as [_ Eo]. congruence. }
  split; [exact Ld |]. split; [auto |]. split; [| split; [| split]].
  - split; [rewrite insert_length; apply M | rewrite insert_length; apply M | |].
    + intros x w Ex. destruct (decide (x = u)) as [-> | D].
      * rewrite list_lookup_insert in Ex by (rewrite (m_il _ _ _ M); exact Lu). injection Ex as <-. split; [exact A |]. apply list_lookup_insert. rewrite (m_sl _ _ _ M). exact Lv.
      * rewrite list_lookup_insert_ne in Ex by congruence. apply (m_in _ _ _ M) in Ex as [Ax Ex]. split; [exact Ax |]. rewrite list_lookup_insert_ne; [exact Ex | congruence].
    + intros w x Ew. destruct (decide (w = v)) as [-> | D].
      * rewrite list_lookup_insert in Ew by (rewrite (m_sl _ _ _ M); exact Lv). injection Ew as <-. split; [exact Lu |]. left. apply list_lookup_insert. rewrite (m_il _ _ _ M). exact Lu.
      * rewrite list_lookup_insert_ne in Ew by congruence. apply (m_out _ _ _ M) in Ew as [Lx [Ex | Ex]]; [| discriminate]. split; [exact Lx |]. destruct (decide (x = u)) as [-> | D']; [right; congruence |]. left. rewrite list_lookup_insert_ne by congruence. exact Ex.
  - intros x. destruct (decide (x = u)) as [-> | D]; [right; split; [exists v; apply list_lookup_insert; rewrite (m_il _ _ _ M); exact Lu | left; reflexivity] |]. left. apply list_lookup_insert_ne. congruence.
  - exists v. split; [apply list_lookup_insert; rewrite (m_il _ _ _ M); exact Lu | exact Ho].
  - intros w ->. apply (m_in _ _ _ M) in Eo as [_ Eo]. rewrite list_lookup_insert_ne; [exact Eo |]. intros ->. congruence.
Qed.

(** After the search from the item in slot [v] has moved it, slot [v] is given to [u]. *)
Lemma shift_ok st st' u v w d : match_ok (slot_match st) (item_match st) None -> length (dist st) = n -> dist st !! u = Some (Some d) -> allowed u v ->
  slot_match st !! v = Some (Some w) -> dist st !! w = Some (Some (S d)) -> outcome_ok w (S d) st (true, st') -> outcome_ok u d st (true, place st' u v).
Proof.
  intros M Ld Ed A Ev Ew (Ld' & D' & M' & I' & (v1 & Ev1 & N1) & O'). cbn [fst snd] in *.
  destruct (m_out _ _ _ M v w Ev) as [Lw [Iw | Iw]]; [| discriminate]. rewrite Iw in *. specialize (O' v eq_refl).
  assert (Lu : u < n) by (apply lookup_lt_Some in Ed; lia). assert (Lv : v < ns) by (rewrite <- (m_sl _ _ _ M); apply lookup_lt_Some in Ev; exact Ev).
  assert (Dw : u <> w) by (intros ->; rewrite Ed in Ew; injection Ew; lia).
  assert (Iu : item_match st' !! u = item_match st !! u). { destruct (I' u) as [E | [_ [E | (dx & E & L)]]]; [exact E | contradiction | rewrite Ed in E; injection E as <-; lia]. }
  unfold outcome_ok. cbn [fst snd place dist slot_match item_match]. destruct (lookup_lt_is_Some_2 (item_match st) u) as [o Eo]; [rewrite (m_il _ _ _ M); exact Lu |]. rewrite Eo in *.
  assert (Ho : o <> Some v). { intros ->. apply (m_in _ _ _ M) in Eo as [_ Eo]. congruence. }
  split; [exact Ld' |]. split.
  { intros x. destruct (D' x) as [E | [E [-> | (dx & Ex & L)]]]; [left; exact E | right; split; [exact E |]; right; exists (S d); split; [exact Ew | lia] | right; split; [exact E |]; right; exists dx; split; [exact Ex | lia]]. }
  split; [| split; [| split]].
  - split; [rewrite insert_length; apply M' | rewrite insert_length; apply M' | |].
    + intros x y Ex. destruct (decide (x = u)) as [-> | D].
      * rewrite list_lookup_insert in Ex by (rewrite (m_il _ _ _ M'); exact Lu). injection Ex as <-. split; [exact A |]. apply list_lookup_insert. rewrite (m_sl _ _ _ M'). exact Lv.
      * rewrite list_lookup_insert_ne in Ex by congruence. destruct (m_in _ _ _ M' _ _ Ex) as [Ax Sx]. split; [exact Ax |]. rewrite list_lookup_insert_ne; [exact Sx |]. intros <-.
        assert (x = w) by congruence. subst x. congruence.
    + intros y x Ey. destruct (decide (y = v)) as [-> | D].
      * rewrite list_lookup_insert in Ey by (rewrite (m_sl _ _ _ M'); exact Lv). injection Ey as <-. split; [exact Lu |]. left. apply list_lookup_insert. rewrite (m_il _ _ _ M'). exact Lu.
      * rewrite list_lookup_insert_ne in Ey by congruence. apply (m_out _ _ _ M') in Ey as [Lx [Ex | Ex]]; [| congruence]. split; [exact Lx |]. destruct (decide (x = u)) as [-> | Du]; [right; congruence |]. left. rewrite list_lookup_insert_ne by congruence. exact Ex.
  - intros x. destruct (decide (x = u)) as [-> | D]; [right; split; [exists v; apply list_lookup_insert; rewrite (m_il _ _ _ M'); exact Lu | left; reflexivity] |]. rewrite list_lookup_insert_ne by congruence.
    destruct (I' x) as [E | [E [-> | (dx & Ex & L)]]]; [left; exact E | right; split; [exact E |]; right; exists (S d); split; [exact Ew | lia] | right; split; [exact E |]; right; exists dx; split; [exact Ex | lia]].
  - exists v. split; [apply list_lookup_insert; rewrite (m_il _ _ _ M'); exact Lu | exact Ho].
  - intros y ->. rewrite list_lookup_insert_ne by congruence. apply (m_in _ _ _ M') in Iu as [_ Iu]. exact Iu.
Qed.

Definition dist_bound (ds : list (option nat)) : Prop := forall x d, ds !! x = Some (Some d) -> d < n.
Lemma dist_shrinks ds ds' : (forall x, ds' !! x = ds !! x \/ ds' !! x = Some None) -> dist_bound ds -> dist_bound ds'.
Proof. intros H B x d E. destruct (H x) as [K | K]; [apply (B x); congruence | congruence]. Qed.

Lemma hk_dfs_ok : forall fuel u d st, match_ok (slot_match st) (item_match st) None -> length (dist st) = n -> dist_bound (dist st) -> dist st !! u = Some (Some d) -> n <= fuel + d ->
  exists r, hk_dfs adj fuel u st = Some r /\ outcome_ok u d st r.
Proof.
  induction fuel as [| fuel IH]; intros u d st M Ld B Ed F; [apply B in Ed; lia |]. cbn [hk_dfs].
  assert (Lu : u < n) by (apply lookup_lt_Some in Ed; lia). destruct (lookup_lt_is_Some_2 adj u Lu) as [row Er]. rewrite Er. cbn [mbind option_bind].
  assert (K : forall vs cur, (forall v, v ∈ vs -> v ∈ row) -> slot_match cur = slot_match st -> item_match cur = item_match st -> length (dist cur) = n ->
    (forall x, dist cur !! x = dist st !! x \/ (dist cur !! x = Some None /\ ~ layered (slot_match st) (dist st) x /\ above (dist st) d x)) ->
    (forall v, v ∈ row -> v ∈ vs \/ (slot_match st !! v <> Some None /\ forall w, slot_match st !! v = Some (Some w) -> dist st !! w = Some (Some (S d)) -> ~ layered (slot_match st) (dist st) w)) ->
    exists r, hk_slots (hk_dfs adj fuel) u vs cur = Some r /\ outcome_ok u d st r).
  { induction vs as [| v vs IHv]; intros cur Hr Es Ei Lc Dc Done; cbn [hk_slots].
    - eexists. split; [reflexivity |]. unfold outcome_ok. cbn [fst snd dead dist slot_match item_match]. split; [rewrite insert_length; exact Lc |].
      assert (Ul : ~ layered (slot_match st) (dist st) u).
      { intros L. destruct L as [u v d0 (vs & Evs & Iv) Ev Ed0 | u v w d0 (vs & Evs & Iv) Ev Ed0 Ew L]; (rewrite Evs in Er; injection Er as ->; destruct (Done v Iv) as [K | [K1 K2]]; [apply elem_of_nil in K as [] |]).
        - contradiction.
        - rewrite Ed0 in Ed. injection Ed as ->. exact (K2 w Ev Ew L). }
      split; [| split; [exact Es | split; [exact Ei | split; [exact Ul |]]]].
      + intros x. destruct (decide (x = u)) as [-> | D]; [right; split; [apply list_lookup_insert; lia | left; reflexivity] |]. rewrite list_lookup_insert_ne by congruence.
        destruct (Dc x) as [E | (E & _ & Ab)]; [left; exact E | right; split; [exact E | right; exact Ab]].
      + intros x. destruct (decide (x = u)) as [-> | D]; [right; exact Ul |]. rewrite list_lookup_insert_ne by congruence. destruct (Dc x) as [E | (_ & E & _)]; auto.
    - assert (Iv : v ∈ row) by (apply Hr; left). assert (Hr' : forall v, v ∈ vs -> v ∈ row) by (intros x Ix; apply Hr; right; exact Ix). rewrite Es.
      assert (Au : allowed u v) by (exists row; auto).
      assert (Mc : match_ok (slot_match cur) (item_match cur) None) by (rewrite Es, Ei; exact M).
      assert (Ec : dist cur !! u = Some (Some d)). { destruct (Dc u) as [E | (_ & _ & dx & Ex & L)]; [congruence |]. rewrite Ed in Ex. injection Ex as <-. lia. }
      assert (Bc : dist_bound (dist cur)). { apply (dist_shrinks (dist st)); [| exact B]. intros x. destruct (Dc x) as [E | (E & _)]; auto. }
      destruct (Nat.leb_spec (length (slot_match st)) v) as [Hl | Hl].
      { apply IHv; try assumption. intros y Iy. destruct (Done y Iy) as [Dn | Dn]; [| right; exact Dn]. apply elem_of_cons in Dn as [-> | Dn]; [right | left; exact Dn]. rewrite lookup_ge_None_2 by exact Hl. split; congruence. }
      destruct (lookup_lt_is_Some_2 (slot_match st) v Hl) as [[w |] Ev]; rewrite Ev.
      + destruct (m_out _ _ _ M v w Ev) as [Lw _]. destruct (lookup_lt_is_Some_2 (dist cur) w) as [dw Edw]; [lia |]. rewrite Edw, Ec. destruct (bool_decide_reflect (dw = Some (S d))) as [-> | Dw].
        * destruct (IH w (S d) cur Mc Lc Bc Edw ltac:(lia)) as ([[] st'] & Er' & Ok); rewrite Er'.
          -- eexists. split; [reflexivity |].
             assert (Ok' : outcome_ok u d cur (true, place st' u v)) by (apply (shift_ok cur st' u v w d); try assumption; rewrite Es; exact Ev).
             destruct Ok' as (A1 & A2 & A3 & A4 & A5 & A6). cbn [fst snd] in *. rewrite Ei in *. unfold outcome_ok. cbn [fst snd].
             assert (Ab : forall x, above (dist cur) d x -> above (dist st) d x). { intros x (dx & Ex & L). destruct (Dc x) as [E | (E & _)]; [exists dx; split; congruence | congruence]. }
             split; [exact A1 |]. split; [| split; [exact A3 | split; [| split; [exact A5 | exact A6]]]].
             ++ intros x. destruct (A2 x) as [E | [E [-> | E']]].
                ** rewrite E. destruct (Dc x) as [E' | (E' & _ & E3)]; [left; exact E' | right; split; [exact E' | right; exact E3]].
                ** right. split; [exact E | left; reflexivity].
                ** right. split; [exact E | right; apply Ab, E'].
             ++ intros x. destruct (A4 x) as [E | [E [-> | E']]]; [left; exact E | right; split; [exact E | left; reflexivity] | right; split; [exact E | right; apply Ab, E']].
          -- destruct Ok as (A1 & A2 & A3 & A4 & A5 & A6). cbn [fst snd] in *. rewrite Es in *.
             assert (Lm : forall x, ~ layered (slot_match st) (dist cur) x -> ~ layered (slot_match st) (dist st) x). { intros x Hx L. apply Hx. eapply layered_mono; [| exact L]. intros y. destruct (Dc y) as [E | (_ & E & _)]; auto. }
             apply IHv; try assumption; [congruence | | ].
             ++ intros x. destruct (A6 x) as [E | E].
                ** rewrite E. apply Dc.
                ** destruct (Dc x) as [E1 | (E1 & E2 & E3)].
                   --- destruct (A2 x) as [E2 | [E2 E3]]; [left; congruence |]. right. split; [exact E2 |]. split; [apply Lm, E |]. destruct E3 as [-> | (dx & Ex & L)]; [exists (S d); split; [congruence | lia] | exists dx; split; [congruence | lia]].
                   --- right. split; [| auto]. destruct (A2 x) as [E4 | [E4 _]]; congruence.
             ++ intros y Iy. destruct (Done y Iy) as [Dn | Dn]; [| right; exact Dn]. apply elem_of_cons in Dn as [-> | Dn]; [right | left; exact Dn]. split; [congruence |]. intros w' Ew' _. assert (w' = w) by congruence. subst w'. apply Lm, A5.
        * apply IHv; try assumption. intros y Iy. destruct (Done y Iy) as [Dn | Dn]; [| right; exact Dn]. apply elem_of_cons in Dn as [-> | Dn]; [right | left; exact Dn]. split; [congruence |]. intros w' Ew' Ed'. assert (w' = w) by congruence. subst w'.
          destruct (Dc w) as [E | (_ & E & _)]; [congruence | exact E].
      + eexists. split; [reflexivity |].
        assert (Ok' : outcome_ok u d cur (true, place cur u v)) by (apply (place_ok cur u v d); try assumption; rewrite Es; exact Ev).
        destruct Ok' as (A1 & A2 & A3 & A4 & A5 & A6). cbn [fst snd] in *. rewrite Ei in *. unfold outcome_ok. cbn [fst snd].
        assert (Ab : forall x, above (dist cur) d x -> above (dist st) d x). { intros x (dx & Ex & L). destruct (Dc x) as [E | (E & _)]; [exists dx; split; congruence | congruence]. }
        split; [exact A1 |]. split; [| split; [exact A3 | split; [| split; [exact A5 | exact A6]]]].
        * intros x. destruct (A2 x) as [E | [E [-> | E']]].
          -- rewrite E. destruct (Dc x) as [E' | (E' & _ & E3)]; [left; exact E' | right; split; [exact E' | right; exact E3]].
          -- right. split; [exact E | left; reflexivity].
          -- right. split; [exact E | right; apply Ab, E'].
        * intros x. destruct (A4 x) as [E | [E [-> | E']]]; [left; exact E | right; split; [exact E | left; reflexivity] | right; split; [exact E | right; apply Ab, E']]. }
  apply (K row st); auto.
Qed.

(** ** A phase *)
Definition covered (im im' : matches) : Prop := forall x, im' !! x = Some None -> im !! x = Some None.
Lemma phase_ok l : NoDup l -> forall st, (forall x, x ∈ l -> x < n) -> match_ok (slot_match st) (item_match st) None -> length (dist st) = n -> dist_bound (dist st) ->
  (forall x, x ∈ l -> item_match st !! x = Some None -> dist st !! x = Some (Some 0)) ->
  exists st', foldM (hk_item adj) l st = Some st' /\ match_ok (slot_match st') (item_match st') None /\ covered (item_match st) (item_match st') /\
    ((exists x, x ∈ l /\ item_match st !! x = Some None /\ layered (slot_match st) (dist st) x) -> exists x, item_match st !! x = Some None /\ item_match st' !! x <> Some None).
Proof.
  intros Hn. induction Hn as [| u l Hu Hn IH]; intros st Hl M Ld B Z; cbn [foldM].
  - exists st. split; [reflexivity |]. split; [exact M |]. split; [intros x E; exact E |]. intros (x & I & _). apply elem_of_nil in I as [].
  - assert (Lu : u < n) by (apply Hl; left). assert (Hl' : forall x, x ∈ l -> x < n) by (intros x I; apply Hl; right; exact I). unfold hk_item at 1. destruct (lookup_lt_is_Some_2 (item_match st) u) as [[v |] Eu]; [rewrite (m_il _ _ _ M); exact Lu | |]; rewrite Eu.
    + destruct (IH st Hl' M Ld B) as (st' & E & M' & C & P); [intros x I; apply Z; right; exact I |]. exists st'. split; [exact E |]. split; [exact M' |]. split; [exact C |]. intros (x & I & Ex & L). apply elem_of_cons in I as [-> | I]; [congruence |]. apply P. exists x. auto.
    + assert (Zu : dist st !! u = Some (Some 0)) by (apply Z; [left | exact Eu]). destruct (hk_dfs_ok (S n) u 0 st M Ld B Zu ltac:(lia)) as ([[] st1] & E1 & (L1 & D1 & Ok)); rewrite E1; cbn [mbind option_bind snd fst] in *.
      * destruct Ok as (M1 & I1 & (v & Iu & _) & _). rewrite Eu in M1. 
        assert (C1 : covered (item_match st) (item_match st1)). { intros x Ex. destruct (I1 x) as [K | ((y & K) & _)]; [congruence | congruence]. }
        assert (B1 : dist_bound (dist st1)). { apply (dist_shrinks (dist st)); [| exact B]. intros x. destruct (D1 x) as [K | [K _]]; auto. }
        destruct (IH st1 Hl' M1 L1 B1) as (st' & E & M' & C & P).
        { intros x I Ex. assert (Ex' : dist st !! x = Some (Some 0)) by (apply Z; [right; exact I | apply C1, Ex]). destruct (D1 x) as [K | [_ [-> | (dx & K & L)]]]; [congruence | contradiction |]. rewrite Ex' in K. injection K as <-. lia. }
        exists st'. split; [exact E |]. split; [exact M' |]. split; [intros x Ex; apply C1, C, Ex |]. intros _. exists u. split; [exact Eu |]. intros K. apply C in K. congruence.
      * destruct Ok as (Es & Ei & Nu & D2). 
        assert (B1 : dist_bound (dist st1)). { apply (dist_shrinks (dist st)); [| exact B]. intros x. destruct (D1 x) as [K | [K _]]; auto. }
        destruct (IH st1 Hl') as (st' & E & M' & C & P); [rewrite Es, Ei; exact M | exact L1 | exact B1 | |].
        { intros x I Ex. rewrite Ei in Ex. assert (Ex' : dist st !! x = Some (Some 0)) by (apply Z; [right; exact I | exact Ex]). destruct (D1 x) as [K | [_ [-> | (dx & K & L)]]]; [congruence | contradiction |]. rewrite Ex' in K. injection K as <-. lia. }
        rewrite Es, Ei in *. exists st'. split; [exact E |]. split; [exact M' |]. split; [exact C |]. intros (x & I & Ex & L). apply elem_of_cons in I as [-> | I]; [contradiction |]. apply P. exists x. split; [exact I |]. split; [exact Ex |]. eapply layered_mono; [exact D2 | exact L].
Qed.

(** ** The breadth-first search *)
Definition finite (ds : list (option nat)) (x : nat) : Prop := exists d, ds !! x = Some (Some d).
Definition unseen (ds : list (option nat)) : nat := length (List.filter (fun o => is_free o) ds).
Record bfs_inv (sm im : matches) (ds : list (option nat)) (queue : list nat) (free : bool) : Prop := BfsInv {
  b_len : length ds = n;
  b_queue : forall x, x ∈ queue -> finite ds x;
  b_bound : forall x d, ds !! x = Some (Some d) -> d + unseen ds < n;
  b_back : forall x d, ds !! x = Some (Some d) -> (d = 0 /\ im !! x = Some None) \/ exists u v d', d = S d' /\ ds !! u = Some (Some d') /\ allowed u v /\ sm !! v = Some (Some x);
  b_free : free = true -> exists u v, finite ds u /\ allowed u v /\ sm !! v = Some None }.
Definition slot_done (sm : matches) (ds : list (option nat)) (free : bool) (v : nat) : Prop :=
  (sm !! v = Some None -> free = true) /\ (forall w, sm !! v = Some (Some w) -> finite ds w).
Lemma unseen_insert ds w d : ds !! w = Some None -> unseen ds = S (unseen (<[w := Some d]> ds)).
Proof.
  unfold unseen. revert w. induction ds as [| o ds IH]; intros w E; [discriminate |]. destruct w as [| w]; cbn in E.
  - injection E as ->. reflexivity.
  - cbn [list_insert insert]. cbn [List.filter]. specialize (IH w E). destruct (is_free o); cbn [length]; rewrite IH; reflexivity.
Qed.
Lemma bfs_slot_ok sm im u v ds queue free : match_ok sm im None -> bfs_inv sm im ds queue free -> finite ds u -> allowed u v ->
  exists ds' queue' free', bfs_slot sm u (ds, queue, free) v = Some (ds', queue', free') /\ bfs_inv sm im ds' queue' free' /\ slot_done sm ds' free' v /\
    (forall x, finite ds x -> finite ds' x) /\ (free = true -> free' = true) /\ (forall x, x ∈ queue -> x ∈ queue') /\ (forall x, finite ds' x -> finite ds x \/ x ∈ queue') /\ length queue' + unseen ds' = length queue + unseen ds.
Proof.
  intros M Iv [d Ed] A. unfold bfs_slot. destruct (Nat.leb_spec (length sm) v) as [Hl | Hl].
  { exists ds, queue, free. split; [reflexivity |]. split; [exact Iv |]. split; [unfold slot_done; rewrite lookup_ge_None_2 by exact Hl; split; congruence |]. repeat split; auto. }
  destruct (lookup_lt_is_Some_2 sm v Hl) as [[w |] Ev]; rewrite Ev.
  - destruct (m_out _ _ _ M v w Ev) as [Lw _]. destruct (lookup_lt_is_Some_2 ds w) as [[dw |] Ew]; [rewrite (b_len _ _ _ _ _ Iv); exact Lw | |]; rewrite Ew.
    + exists ds, queue, free. split; [reflexivity |]. split; [exact Iv |]. split; [split; [congruence |]; intros w' E'; assert (w' = w) by congruence; subst; exists dw; exact Ew |]. repeat split; auto.
    + rewrite Ed. pose proof (unseen_insert ds w (S d) Ew) as Un. assert (Wl : w < length ds) by (apply lookup_lt_Some in Ew; exact Ew).
      exists (<[w := Some (S d)]> ds), (queue ++ [w]), free. split; [reflexivity |].
      assert (F : forall x, finite ds x -> finite (<[w := Some (S d)]> ds) x). { intros x [dx Ex]. exists dx. rewrite list_lookup_insert_ne; [exact Ex | congruence]. }
      assert (Fw : <[w := Some (S d)]> ds !! w = Some (Some (S d))) by (apply list_lookup_insert; exact Wl).
      split; [| split; [| split; [exact F | split; [auto | split; [intros x I; apply elem_of_app; left; exact I | split]]]]].
      * split.
        -- rewrite insert_length. apply Iv.
        -- intros x I. apply elem_of_app in I as [I | I]; [apply F, (b_queue _ _ _ _ _ Iv), I |]. apply elem_of_list_singleton in I as ->. exists (S d). exact Fw.
        -- intros x dx Ex. destruct (decide (x = w)) as [-> | D]; [rewrite Fw in Ex; injection Ex as <-; pose proof (b_bound _ _ _ _ _ Iv u d Ed); lia |]. rewrite list_lookup_insert_ne in Ex by congruence. pose proof (b_bound _ _ _ _ _ Iv x dx Ex). lia.
        -- intros x dx Ex. assert (Eu : <[w := Some (S d)]> ds !! u = Some (Some d)) by (rewrite list_lookup_insert_ne; [exact Ed | congruence]).
           destruct (decide (x = w)) as [-> | D]; [rewrite Fw in Ex; injection Ex as <-; right; exists u, v, d; auto |]. rewrite list_lookup_insert_ne in Ex by congruence.
           destruct (b_back _ _ _ _ _ Iv x dx Ex) as [K | (u' & v' & d' & -> & Eu' & A' & Ev')]; [left; exact K |]. right. exists u', v', d'. split; [reflexivity |]. split; [rewrite list_lookup_insert_ne; [exact Eu' | congruence] | auto].
        -- intros Hf. destruct (b_free _ _ _ _ _ Iv Hf) as (u' & v' & Fu & A' & E'). exists u', v'. split; [apply F, Fu | auto].
      * split; [congruence |]. intros w' E'. assert (w' = w) by congruence. subst w'. exists (S d). exact Fw.
      * intros x [dx Ex]. destruct (decide (x = w)) as [-> | D]; [right; apply elem_of_app; right; left |]. left. exists dx. rewrite list_lookup_insert_ne in Ex by congruence. exact Ex.
      * rewrite app_length. cbn [length]. lia.
  - exists ds, queue, true. split; [reflexivity |]. split; [| split; [split; [reflexivity | congruence] | repeat split; auto]].
    destruct Iv as [B1 B2 B3 B4 B5]. split; auto. intros _. exists u, v. split; [exists d; exact Ed | auto].
Qed.
Lemma bfs_slots_ok sm im u vs : match_ok sm im None -> (forall v, v ∈ vs -> allowed u v) -> forall ds queue free, bfs_inv sm im ds queue free -> finite ds u ->
  exists ds' queue' free', foldM (bfs_slot sm u) vs (ds, queue, free) = Some (ds', queue', free') /\ bfs_inv sm im ds' queue' free' /\ (forall v, v ∈ vs -> slot_done sm ds' free' v) /\
    (forall x, finite ds x -> finite ds' x) /\ (free = true -> free' = true) /\ (forall x, x ∈ queue -> x ∈ queue') /\ (forall x, finite ds' x -> finite ds x \/ x ∈ queue') /\ length queue' + unseen ds' = length queue + unseen ds.
Proof.
  intros M. induction vs as [| v vs IH]; intros Al ds queue free Iv Fu; cbn [foldM].
  - exists ds, queue, free. split; [reflexivity |]. split; [exact Iv |]. split; [intros v I; apply elem_of_nil in I as [] |]. repeat split; auto.
  - destruct (bfs_slot_ok sm im u v ds queue free M Iv Fu) as (d1 & q1 & f1 & E1 & I1 & S1 & F1 & G1 & Q1 & N1 & L1); [apply Al; left |]. rewrite E1.
    destruct (IH ltac:(intros y I; apply Al; right; exact I) d1 q1 f1 I1 (F1 u Fu)) as (d2 & q2 & f2 & E2 & I2 & S2 & F2 & G2 & Q2 & N2 & L2). exists d2, q2, f2. split; [exact E2 |]. split; [exact I2 |].
    split; [| split; [auto | split; [auto | split; [auto | split; [| lia]]]]].
    + intros y Iy. apply elem_of_cons in Iy as [-> | Iy]; [| apply S2, Iy]. destruct S1 as [S1 S1']. split; [auto |]. intros w Ew. apply F2, S1', Ew.
    + intros x Fx. destruct (N2 x Fx) as [K | K]; [| right; exact K]. destruct (N1 x K) as [K' | K']; [left; exact K' | right; apply Q2, K'].
Qed.
Lemma bfs_ok sm im : match_ok sm im None -> forall fuel ds queue free, bfs_inv sm im ds queue free -> length queue + unseen ds < fuel ->
  (forall x v, finite ds x -> allowed x v -> x ∈ queue \/ slot_done sm ds free v) ->
  exists ds' free', bfs adj fuel sm (ds, queue, free) = Some (ds', free') /\ bfs_inv sm im ds' [] free' /\ (forall x v, finite ds' x -> allowed x v -> slot_done sm ds' free' v) /\ (forall x, finite ds x -> finite ds' x).
Proof.
  intros M. induction fuel as [| fuel IH]; intros ds queue free Iv F Cl; [lia |]. cbn [bfs]. destruct queue as [| u queue].
  - exists ds, free. split; [reflexivity |]. split; [exact Iv |]. split; [| auto]. intros x v Fx A. destruct (Cl x v Fx A) as [K | K]; [apply elem_of_nil in K as [] | exact K].
  - assert (Fu : finite ds u) by (apply (b_queue _ _ _ _ _ Iv); left). assert (Lu : u < n). { destruct Fu as [d E]. apply lookup_lt_Some in E. rewrite (b_len _ _ _ _ _ Iv) in E. exact E. }
    destruct (lookup_lt_is_Some_2 adj u Lu) as [row Er]. rewrite Er. cbn [mbind option_bind].
    assert (Iv' : bfs_inv sm im ds queue free). { destruct Iv as [B1 B2 B3 B4 B5]. split; auto. intros x I. apply B2. right. exact I. }
    destruct (bfs_slots_ok sm im u row M) with (ds := ds) (queue := queue) (free := free) as (d1 & q1 & f1 & E1 & I1 & S1 & F1 & G1 & Q1 & N1 & L1); [intros v I; exists row; auto | exact Iv' | exact Fu |]. rewrite E1. cbn [mbind option_bind].
    destruct (IH d1 q1 f1 I1) as (d2 & f2 & E2 & I2 & C2 & F2); [cbn [length] in F; lia | |].
    { intros x v Fx A. destruct (N1 x Fx) as [K | K]; [| left; exact K]. destruct (Cl x v K A) as [K' | K'].
      - apply elem_of_cons in K' as [-> | K']; [right | left; apply Q1, K']. destruct A as (vs & Evs & I). rewrite Er in Evs. injection Evs as <-. apply S1, I.
      - right. destruct K' as [K1 K2]. split; [auto |]. intros w Ew. apply F1, K2, Ew. }
    exists d2, f2. split; [exact E2 |]. split; [exact I2 |]. split; [exact C2 | auto].
Qed.
Lemma bfs_phase sm im : match_ok sm im None -> exists ds free, bfs adj (S n) sm (bfs_start im) = Some (ds, free) /\ length ds = n /\ dist_bound ds /\
  (forall x, im !! x = Some None -> ds !! x = Some (Some 0)) /\ (free = true -> exists x, im !! x = Some None /\ layered sm ds x) /\
  (free = false -> forall x v, finite ds x -> allowed x v -> sm !! v <> Some None /\ forall w, sm !! v = Some (Some w) -> finite ds w).
Proof.
  intros M. unfold bfs_start. set (d0 := map (fun m => if is_free m then Some 0 else None) im).
  assert (L0 : forall x d, d0 !! x = Some (Some d) <-> d = 0 /\ im !! x = Some None).
  { intros x d. unfold d0. rewrite list_lookup_fmap. destruct (im !! x) as [[v |] |]; cbn; [split; [congruence | intros [_ H]; congruence] | split; [intros [= <-]; auto | intros [-> _]; reflexivity] | split; [congruence | intros [_ H]; congruence]]. }
  assert (Un : length (free_items im) + unseen d0 = n).
  { rewrite <- (m_il _ _ _ M). unfold unseen, d0, free_items. clear. 
    assert (A : forall k, length (List.filter (fun u => match im !! (u - k) with Some None => true | _ => false end) (seq k (length im))) + length (List.filter (fun o => is_free o) (map (fun m : option nat => if is_free m then Some 0 else None) im)) = length im).
    { induction im as [| m im IH]; intros k; [reflexivity |]. cbn [length seq map List.filter]. rewrite Nat.sub_diag. cbn [lookup list_lookup]. 
      specialize (IH (S k)). assert (Q : List.filter (fun u => match (m :: im) !! (u - k) with Some None => true | _ => false end) (seq (S k) (length im)) = List.filter (fun u => match im !! (u - S k) with Some None => true | _ => false end) (seq (S k) (length im))).
      { apply List.filter_ext_in. intros a Ia. apply in_seq in Ia. replace (a - k) with (S (a - S k)) by lia. reflexivity. }
      rewrite Q. destruct m as [v |]; cbn [is_free length]; lia. }
    specialize (A 0). erewrite List.filter_ext in A; [exact A |]. intros a. cbv beta. rewrite Nat.sub_0_r. reflexivity. }
  assert (I0 : bfs_inv sm im d0 (free_items im) false).
  { split.
    - unfold d0. rewrite map_length. apply M.
    - intros x I. exists 0. apply L0. split; [reflexivity | apply free_items_in, I].
    - intros x d E. apply L0 in E as [-> E]. assert (x ∈ free_items im) by (apply free_items_in, E). destruct (free_items im) as [| y l]; [apply elem_of_nil in H as [] |]. cbn [length] in Un. lia.
    - intros x d E. apply L0 in E. left. exact E.
    - discriminate. }
  destruct (bfs_ok sm im M (S n) d0 (free_items im) false I0) as (ds & free & E & I & C & F); [lia | intros x v [d Ex] _; left; apply free_items_in; apply L0 in Ex as [_ Ex]; exact Ex |].
  exists ds, free. split; [exact E |]. split; [apply I |]. split; [intros x d Ex; pose proof (b_bound _ _ _ _ _ I x d Ex); lia |]. split.
  { intros x Ex. destruct (F x) as [d Ed]; [exists 0; apply L0; auto |]. destruct (b_back _ _ _ _ _ I x d Ed) as [[-> _] | (u & v & d' & _ & _ & _ & Ev)]; [exact Ed |]. apply (m_out _ _ _ M) in Ev as [_ [K | K]]; congruence. }
  split.
  - intros Hf. destruct (b_free _ _ _ _ _ I Hf) as (u & v & [d Ed] & A & Ev). assert (L : layered sm ds u) by (eapply lay_free; eassumption).
    clear - I L Ed. revert u Ed L. induction d as [| d IH]; intros u Ed L; (destruct (b_back _ _ _ _ _ I u _ Ed) as [[K1 K2] | (u' & v & d' & K & Eu & A & Ev)]; [| ]).
    + exists u. auto.
    + discriminate.
    + discriminate.
    + injection K as <-. apply (IH u' Eu). eapply lay_step; eassumption.
  - intros -> x v Fx A. destruct (C x v Fx A) as [C1 C2]. split; [intros K; apply C1 in K; discriminate | exact C2].
Qed.

(** ** The whole search *)
Lemma free_decreases im im' : covered im im' -> (exists x, im !! x = Some None /\ im' !! x <> Some None) -> length (free_items im') < length (free_items im).
Proof.
  intros C (x & Ex & Nx). change (length (x :: free_items im') <= length (free_items im)). apply nodup_length_le.
  - apply NoDup_cons. split; [rewrite free_items_in; exact Nx | apply filter_seq_nodup].
  - intros y I. apply elem_of_cons in I as [-> | I]; apply free_items_in; [exact Ex |]. apply C, free_items_in, I.
Qed.
Lemma hopcroft_karp_ok : forall fuel sm im, match_ok sm im None -> length (free_items im) < fuel ->
  exists sm' im', hopcroft_karp adj fuel sm im = Some (sm', im') /\ match_ok sm' im' None /\
    exists P : nat -> Prop, (forall x, im' !! x = Some None -> P x) /\ forall x v, P x -> allowed x v -> sm' !! v <> Some None /\ forall w, sm' !! v = Some (Some w) -> P w.
Proof.
  induction fuel as [| fuel IH]; intros sm im M F; [lia |]. cbn [hopcroft_karp]. destruct (bfs_phase sm im M) as (ds & free & E & Ld & B & Z & Fr & Cl). rewrite E. destruct free.
  - destruct (phase_ok (seq 0 n)) with (st := Hk sm im ds) as (st' & Es & M' & C & P); [apply NoDup_ListNoDup, seq_NoDup | intros x I; apply elem_of_seq in I; lia | exact M | exact Ld | exact B | intros x _; apply Z |].
    rewrite Es. cbn [mbind option_bind]. apply IH; [exact M' |]. cbn [item_match slot_match dist] in *. apply Nat.lt_le_trans with (length (free_items im)); [| lia]. apply free_decreases; [exact C |]. apply P.
    destruct (Fr eq_refl) as (x & Ex & L). exists x. split; [| auto]. apply elem_of_seq. apply lookup_lt_Some in Ex. rewrite (m_il _ _ _ M) in Ex. lia.
  - exists sm, im. split; [reflexivity |]. split; [exact M |]. exists (finite ds). split; [intros x Ex; exists 0; apply Z, Ex | apply Cl; reflexivity].
Qed.
End proofs.
