(** Proofs about hint chains. *)
From Coq Require Import List Bool ZArith NArith Lia Sorting.Sorted Sorting.Permutation.
From stdpp Require Import list gmap.
From Verif Require Import IvModel IvProofs DimacsModel RupModel RupProofs RupProps PrModel PrProofs LratModel.

Implicit Types (l k : RupModel.lit) (c : clause) (a : assign) (db : list (N * clause)).

(** ** Soundness of a replayed step *)
Definition db_sat (f : nat -> bool) (m : gmap N clause) : Prop := forall id c, m !! id = Some c -> clause_true f c.
Lemma replay_sound f m : db_sat f m -> forall hints a, agrees f a -> replay m a hints <> Some true.
Proof.
  intros Sat. induction hints as [|h hints IH]; intros a A; cbn [replay]; [done|]. destruct (m !! h) as [c|] eqn:L; [|done].
  destruct (Sat h c L) as (k & K1 & K2). destruct (scan a [] c) as [s|] eqn:E; [|done]. apply scan_sound in E. destruct s as [|vs]; [done|].
  destruct E as [_ E]. specialize (E k K1). assert (NF : ~ is_f a k) by (intros F; apply is_t_neg in F; apply A, lit_true_neg in F; done).
  destruct E as [E|E]; [done|]. destruct vs as [|u [|u2 vs]]; [now apply elem_of_nil in E| |done].
  apply elem_of_list_singleton in E as ->. destruct (set_true a u) as [[a' b]|] eqn:S; [|done].
  destruct (set_true_sound f a u a' b A S) as [S1 S2]. destruct b; [apply IH; auto|]. now destruct (S2 eq_refl).
Qed.
Lemma verify_sound f n m c hints : db_sat f m -> verify_rup_step n m c hints = Some true -> clause_true f c.
Proof.
  intros Sat H. destruct (clause_true_dec f c) as [?|E]; [done|]. exfalso.
  assert (N : forall l, l ∈ c -> ~ lit_true f l) by (intros l Hl T; apply E; exists l; done).
  destruct (assume_sound f c N (replicate n None) (agrees_empty f n)) as [A1 A2]. unfold verify_rup_step in H.
  destruct (assume_neg (replicate n None) c) as [[a|]|]; [|done|done]. exact (replay_sound f m Sat hints a (A2 a eq_refl) H).
Qed.

(** ** The trail *)
(** [tr] lists the literals made true in order, each with its reason. *)
Definition falsified (tr : list (RupModel.lit * option N)) (i : nat) k : Prop := exists j o, tr !! j = Some (negated k, o) /\ (j < i)%nat.
Record trail_ok (n : nat) (db : list (N * clause)) (c0 : clause) (t : trail) (tr : list (RupModel.lit * option N)) : Prop := {
  to_len : length (t_assign t) = n /\ length (t_reason t) = n /\ length (t_pos t) = n;
  to_next : t_next t = length tr;
  to_assign : forall v b, t_assign t !! v = Some (Some b) <-> exists i o, tr !! i = Some (Lit v b, o);
  to_reason : forall i l o, tr !! i = Some (l, o) -> t_reason t !! lvar l = Some o /\ t_pos t !! lvar l = Some (Some i);
  to_forced : forall i l id, tr !! i = Some (l, Some id) -> exists rc, (id, rc) ∈ db /\ l ∈ rc /\ forall k, k ∈ rc -> k <> l -> falsified tr i k;
  to_assumed : forall l, neg_of c0 l <-> exists i, tr !! i = Some (l, None) }.
Lemma to_index n db c0 t tr i j l k o p : trail_ok n db c0 t tr -> tr !! i = Some (l, o) -> tr !! j = Some (k, p) -> lvar l = lvar k -> i = j /\ l = k /\ o = p.
Proof.
  intros T A B E. destruct (to_reason _ _ _ _ _ T _ _ _ A) as [_ P]. destruct (to_reason _ _ _ _ _ T _ _ _ B) as [_ Q]. rewrite E in P. assert (i = j) as -> by congruence.
  rewrite A in B. injection B as -> ->. done.
Qed.
Lemma to_true n db c0 t tr l : trail_ok n db c0 t tr -> is_t (t_assign t) l <-> exists i o, tr !! i = Some (l, o).
Proof.
  intros T. unfold is_t, lit_val. destruct l as [v b]. cbn. rewrite <- (to_assign _ _ _ _ _ T v b).
  destruct (t_assign t !! v) as [[x|]|]; [|split; done|split; done]. split; [|intros [= ->]; by destruct b]. destruct b, x; try done.
Qed.
Lemma falsified_f n db c0 t tr i k : trail_ok n db c0 t tr -> falsified tr i k -> is_f (t_assign t) k.
Proof. intros T (j & o & H & _). apply is_t_neg, (to_true _ _ _ _ _ _ T). eauto. Qed.
Lemma f_falsified n db c0 t tr k : trail_ok n db c0 t tr -> is_f (t_assign t) k -> falsified tr (length tr) k.
Proof. intros T H. apply is_t_neg, (to_true _ _ _ _ _ _ T) in H as (i & o & H). exists i, o. split; [done|]. by eapply lookup_lt_Some. Qed.
Lemma falsified_mono tr x i k : falsified tr i k -> falsified (tr ++ x) i k.
Proof. intros (j & o & H & L). exists j, o. split; [by apply lookup_app_l_Some|done]. Qed.

(** Pushing a literal that is open. *)
Lemma push_ok n db c0 c0' t tr l o : trail_ok n db c0 t tr -> is_u (t_assign t) l ->
  match o with None => forall k, neg_of c0' k <-> neg_of c0 k \/ k = l | Some id => (forall k, neg_of c0' k <-> neg_of c0 k) /\ exists rc, (id, rc) ∈ db /\ l ∈ rc /\ forall k, k ∈ rc -> k <> l -> is_f (t_assign t) k end ->
  trail_ok n db c0' (push t l o) (tr ++ [(l, o)]).
Proof.
  intros T U C. destruct (to_len _ _ _ _ _ T) as (L1 & L2 & L3).
  assert (Ul : t_assign t !! lvar l = Some None). { unfold is_u, lit_val in U. destruct (t_assign t !! lvar l) as [[]|]; done. }
  assert (Lv : (lvar l < n)%nat) by (rewrite <- L1; eapply lookup_lt_Some; exact Ul).
  assert (New : forall i k p, tr !! i = Some (k, p) -> lvar k <> lvar l).
  { intros i k p H E. assert (t_assign t !! lvar k = Some (Some (lpos k))) as Q by (apply (to_assign _ _ _ _ _ T); exists i, p; by destruct k). rewrite E in Q. congruence. }
  assert (App : forall i k p, (tr ++ [(l, o)]) !! i = Some (k, p) <-> tr !! i = Some (k, p) \/ (i = length tr /\ k = l /\ p = o)).
  { intros i k p. rewrite lookup_app_Some, list_lookup_singleton_Some. split.
    - intros [?|(? & ? & [= -> ->])]; [auto|right; split; [lia|done]].
    - intros [?|(-> & -> & ->)]; [auto|right; split; [done|]; split; [lia|done]]. }
  constructor; cbn [push t_assign t_reason t_pos t_next].
  - rewrite !insert_length. done.
  - rewrite app_length, (to_next _ _ _ _ _ T). cbn. lia.
  - intros v b. destruct (decide (v = lvar l)) as [->|N].
    + rewrite list_lookup_insert by lia. split.
      * intros [= <-]. exists (length tr), o. apply App. right. by destruct l.
      * intros (i & p & H). apply App in H as [H|(_ & <- & _)]; [|done]. apply New in H. done.
    + rewrite list_lookup_insert_ne by done. rewrite (to_assign _ _ _ _ _ T v b). split; intros (i & p & H).
      * exists i, p. apply App. auto.
      * apply App in H as [H|(_ & <- & _)]; [eauto|]. done.
  - intros i k p H. apply App in H as [H|(-> & -> & ->)].
    + pose proof (New _ _ _ H). rewrite !list_lookup_insert_ne by congruence. exact (to_reason _ _ _ _ _ T _ _ _ H).
    + rewrite !list_lookup_insert by lia. by rewrite (to_next _ _ _ _ _ T).
  - intros i k id H. apply App in H as [H|(-> & -> & <-)].
    + destruct (to_forced _ _ _ _ _ T _ _ _ H) as (rc & A & B & D). exists rc. split; [done|]. split; [done|]. intros k' K1 K2. by apply falsified_mono, D.
    + destruct C as [_ (rc & A & B & D)]. exists rc. split; [done|]. split; [done|]. intros k' K1 K2. apply falsified_mono. eapply f_falsified; [exact T|auto].
  - intros k. destruct o as [id|].
    + destruct C as [C _]. rewrite C, (to_assumed _ _ _ _ _ T). split; intros [i H]; exists i; [apply App; auto|]. apply App in H as [H|(_ & _ & H)]; done.
    + rewrite C, (to_assumed _ _ _ _ _ T). split.
      * intros [[i H]| ->]; [exists i|exists (length tr)]; apply App; auto.
      * intros [i H]. apply App in H as [H|(_ & -> & _)]; [left; eauto|auto].
Qed.
Lemma empty_ok n db : trail_ok n db [] (Trail (replicate n None) (replicate n None) (replicate n None) 0) [].
Proof.
  constructor; cbn.
  - by rewrite !replicate_length.
  - done.
  - intros v b. split; [intros H; apply lookup_replicate in H as [? _]; done|]. intros (i & o & H). by rewrite lookup_nil in H.
  - intros i l o H. by rewrite lookup_nil in H.
  - intros i l id H. by rewrite lookup_nil in H.
  - intros l. unfold neg_of. rewrite elem_of_nil. split; [done|]. intros [i H]. by rewrite lookup_nil in H.
Qed.

Lemma set_true_u a l : is_u a l -> set_true a l = Some (<[lvar l := Some (lpos l)]> a, true).
Proof. unfold set_true. intros ->. done. Qed.
(** assume_trail follows assume_neg. *)
Lemma trail_congr n db c0 c0' t tr : (forall l, neg_of c0' l <-> neg_of c0 l) -> trail_ok n db c0 t tr -> trail_ok n db c0' t tr.
Proof. intros E [A B C D F G]. constructor; try done. intros l. by rewrite E, G. Qed.
Lemma assume_trail_ok n db c : forall c0 t tr, trail_ok n db c0 t tr -> (forall i l o, tr !! i = Some (l, o) -> o = None) ->
  match assume_neg (t_assign t) c with
  | None => assume_trail t c = None
  | Some None => assume_trail t c = Some None
  | Some (Some a) => exists t' tr', assume_trail t c = Some (Some t') /\ t_assign t' = a /\ trail_ok n db (c0 ++ c) t' tr'
  end.
Proof.
  induction c as [|l c IH]; intros c0 t tr T As; cbn [assume_neg assume_trail].
  { exists t, tr. rewrite app_nil_r. done. }
  unfold set_true. destruct (lit_val (t_assign t) (negated l)) as [[[]|]|] eqn:V; [|done| |done].
  - specialize (IH (c0 ++ [l]) t tr). rewrite <- app_assoc in IH. apply IH; [|done]. eapply trail_congr; [|exact T]. intros k. unfold neg_of at 1. rewrite elem_of_app, elem_of_list_singleton. split; [|auto].
    intros [?|E]; [done|]. apply (to_true _ _ _ _ _ _ T) in V as (i & o & H). pose proof (As _ _ _ H) as ->. apply (to_assumed _ _ _ _ _ T). exists i.
    rewrite <- (negated_invol k), E. done.
  - specialize (IH (c0 ++ [l]) (push t (negated l) None) (tr ++ [(negated l, None)])). rewrite <- app_assoc in IH. apply IH.
    + eapply push_ok; [exact T|exact V|].
      intros k. unfold neg_of. rewrite elem_of_app, elem_of_list_singleton. split; intros [?|E]; auto; right; [|subst; by rewrite negated_invol].
      rewrite <- (negated_invol k), E. done.
    + intros i k o H. apply lookup_app_Some in H as [H|(_ & H)]; [eauto|]. apply list_lookup_singleton_Some in H as [_ [= _ ->]]. done.
Qed.
Lemma pass_ids_ok n db c0 dbr : forall t tr ch, trail_ok n db c0 t tr -> db_in_range n (map snd db) -> (forall x, x ∈ dbr -> x ∈ db) ->
  match pass (t_assign t) ch (map snd dbr) with
  | None => False
  | Some Conflict => exists id c t' tr', pass_ids t ch dbr = Some (ConflictAt id c t') /\ trail_ok n db c0 t' tr' /\ (id, c) ∈ db /\ forall l, l ∈ c -> is_f (t_assign t') l
  | Some (Next a ch') => exists t' tr', pass_ids t ch dbr = Some (NextTrail t' ch') /\ t_assign t' = a /\ trail_ok n db c0 t' tr'
  end.
Proof.
  induction dbr as [|[id c] dbr IH]; intros t tr ch T R Sub; cbn [map pass pass_ids snd].
  { exists t, tr. done. }
  assert (Hc : (id, c) ∈ db) by (apply Sub; left). assert (Sd : forall x, x ∈ dbr -> x ∈ db) by (intros x Hx; apply Sub; by right).
  assert (Rc : in_range n c). { apply R. apply elem_of_list_In, in_map_iff. exists (id, c). split; [done|]. by apply elem_of_list_In. }
  destruct (to_len _ _ _ _ _ T) as (L1 & _). destruct (scan_nil n (t_assign t) c L1 Rc) as (r & E & S). rewrite E. destruct r as [|vs]; [exact (IH t tr ch T R Sd)|].
  destruct S as (Nv & S1 & S2 & S3). destruct vs as [|u [|u2 vs]].
  - exists id, c, t, tr. split; [done|]. split; [done|]. split; [done|]. intros l Hl. destruct (S2 l Hl) as [?|U]; [done|]. assert (H : l ∈ []) by (apply S1; done). by apply elem_of_nil in H.
  - destruct (proj1 (S1 u) (elem_of_list_here _ _)) as [Lc U]. rewrite set_true_u by done.
    change (<[lvar u := Some (lpos u)]> (t_assign t)) with (t_assign (push t u (Some id))). eapply IH; [|done|done]. eapply push_ok; [exact T|done|]. split; [done|].
    exists c. split; [done|]. split; [done|]. intros k Hk Nk. destruct (S2 k Hk) as [?|Uk]; [done|]. exfalso. apply Nk. assert (H : k ∈ [u]) by (apply S1; done). by apply elem_of_list_singleton in H.
  - exact (IH t tr ch T R Sd).
Qed.

(** ** The chain *)
Definition unique db : Prop := NoDup (map fst db).
Lemma unique_inj db id c d : unique db -> (id, c) ∈ db -> (id, d) ∈ db -> c = d.
Proof.
  unfold unique. induction db as [|[i e] db IH]; intros U A B; [by apply elem_of_nil in A|]. cbn in U. apply NoDup_cons in U as [U1 U2].
  assert (F : forall e', (i, e') ∈ db -> False) by (intros e' H; apply U1, elem_of_list_In, in_map_iff; exists (i, e'); split; [done|by apply elem_of_list_In]).
  apply elem_of_cons in A, B. destruct A as [A|A], B as [B|B].
  - congruence.
  - injection A as -> ->. destruct (F _ B).
  - injection B as -> ->. destruct (F _ A).
  - auto.
Qed.
Lemma by_id_in db id c : by_id db id = Some c -> (id, c) ∈ db.
Proof.
  induction db as [|[i d] db IH]; cbn; [done|]. destruct (by_id db id) as [e|]; [intros [= ->]; right; auto|]. destruct (N.eqb_spec i id) as [->|]; [|done]. intros [= ->]. left.
Qed.
Lemma by_id_some db id c : (id, c) ∈ db -> exists d, by_id db id = Some d.
Proof.
  induction db as [|[i d] db IH]; intros H; cbn; [by apply elem_of_nil in H|]. destruct (by_id db id) as [e|] eqn:E; [eauto|]. apply elem_of_cons in H as [[= -> ->]|H].
  - rewrite N.eqb_refl. eauto.
  - destruct (IH H) as [? ?]; congruence.
Qed.
Lemma by_id_unique db id c : unique db -> (id, c) ∈ db -> by_id db id = Some c.
Proof. intros U H. destruct (by_id_some db id c H) as [d E]. rewrite E. f_equal. apply by_id_in in E. by eapply unique_inj. Qed.
Lemma size_ge db id c : (id, c) ∈ db -> (length c <= size db)%nat.
Proof.
  unfold size. induction db as [|[i d] db IH]; intros H; [by apply elem_of_nil in H|]. cbn. rewrite app_length. apply elem_of_cons in H as [[= -> ->]|H]; [lia|]. specialize (IH H). lia.
Qed.
Fixpoint unmarked (v : list bool) : nat := match v with [] => 0 | b :: v => (if b then 0 else 1) + unmarked v end.
Lemma unmarked_mark v : forall i, v !! i = Some false -> unmarked v = S (unmarked (<[i := true]> v)).
Proof.
  induction v as [|b v IH]; intros [|i] H; try done; [injection H as ->; done|]. change (<[S i := true]> (b :: v)) with (b :: <[i := true]> v). cbn [unmarked].
  rewrite (IH i H). destruct b; lia.
Qed.
Lemma unmarked_replicate n : unmarked (replicate n false) = n.
Proof. induction n; cbn; lia. Qed.

Section Chain.
Variables (n : nat) (db : list (N * clause)) (c0 : clause) (t : trail) (tr : list (RupModel.lit * option N)).
Hypotheses (T : trail_ok n db c0 t tr) (Uq : unique db).
(** What the chain needs: the forced literals behind the false literals of [c], closed under reasons. *)
Definition closed_chain (c : clause) (needed : list (nat * N)) : Prop :=
  NoDup (map fst needed) /\ (forall i id, (i, id) ∈ needed -> exists l, tr !! i = Some (l, Some id)) /\
  (forall k, k ∈ c -> exists j o, tr !! j = Some (negated k, o) /\ match o with None => True | Some id => (j, id) ∈ needed end) /\
  (forall i id l rc k, (i, id) ∈ needed -> tr !! i = Some (l, Some id) -> (id, rc) ∈ db -> k ∈ rc -> k <> l -> exists j o, tr !! j = Some (negated k, o) /\ match o with None => True | Some id' => (j, id') ∈ needed end).
Definition on_trail (v : nat) : Prop := exists i l o, tr !! i = Some (l, o) /\ lvar l = v.
Definition seen (visited : list bool) (stack : list nat) (v : nat) : Prop := visited !! v = Some true \/ v ∈ stack.
Record collect_inv (c : clause) (visited : list bool) (needed : list (nat * N)) (stack : list nat) : Prop := {
  ci_len : length visited = n;
  ci_stack : forall v, v ∈ stack -> on_trail v;
  ci_visited : forall i l id, tr !! i = Some (l, Some id) -> visited !! lvar l = Some true -> (i, id) ∈ needed /\ forall rc k, (id, rc) ∈ db -> k ∈ rc -> seen visited stack (lvar k);
  ci_needed : forall i id, (i, id) ∈ needed -> exists l, tr !! i = Some (l, Some id) /\ visited !! lvar l = Some true;
  ci_nodup : NoDup (map fst needed);
  ci_conflict : forall k, k ∈ c -> seen visited stack (lvar k) }.
Lemma collect_ok c : (forall l, l ∈ c -> is_f (t_assign t) l) -> forall fuel visited needed stack, collect_inv c visited needed stack ->
  (length stack + unmarked visited * S (size db) < fuel)%nat -> exists needed', collect_steps fuel db t visited needed stack = Some needed' /\ closed_chain c needed'.
Proof.
  intros F. induction fuel as [|fuel IH]; intros visited needed stack I M; [lia|]. cbn [collect_steps]. destruct stack as [|v stack].
  - exists needed. split; [done|]. destruct I as [I1 I2 I3 I4 I5 I6]. split; [done|]. split; [intros i id H; destruct (I4 _ _ H) as (l & E & _); eauto|].
    assert (Sn : forall v, seen visited [] v -> visited !! v = Some true) by (intros v [?|H]; [done|by apply elem_of_nil in H]). split.
    + intros k Hk. destruct (f_falsified _ _ _ _ _ _ T (F k Hk)) as (j & o & E & _). exists j, o. split; [done|]. destruct o as [id|]; [|done].
      apply (I3 _ _ _ E). apply Sn, (I6 k Hk).
    + intros i id l rc k Hi E Hrc Hk Nk. destruct (to_forced _ _ _ _ _ T _ _ _ E) as (rc' & A & B & D). pose proof (unique_inj _ _ _ _ Uq A Hrc) as ->.
      destruct (D k Hk Nk) as (j & o & Ej & _). exists j, o. split; [done|]. destruct o as [id'|]; [|done]. apply (I3 _ _ _ Ej). change (lvar (negated k)) with (lvar k).
      destruct (I4 _ _ Hi) as (l' & E' & V). rewrite E in E'. injection E' as <-. destruct (I3 _ _ _ E V) as [_ G]. apply Sn, (G rc k Hrc Hk).
  - destruct I as [I1 I2 I3 I4 I5 I6]. destruct (I2 v) as (i & l & o & E & <-); [left|]. destruct (to_reason _ _ _ _ _ T _ _ _ E) as [R P]. destruct (to_len _ _ _ _ _ T) as (L1 & L2 & L3).
    assert (Lv : (lvar l < n)%nat) by (rewrite <- L2; eapply lookup_lt_Some; exact R). destruct (lookup_lt_is_Some_2 visited (lvar l)) as [b V]; [lia|]. rewrite V. destruct b.
    + apply IH; [|cbn in M; lia]. assert (Sn : forall v, seen visited (lvar l :: stack) v -> seen visited stack v) by (intros v [?|[->|?]%elem_of_cons]; [by left|by left|by right]).
      constructor; try done.
      * intros v Hv. apply I2. by right.
      * intros j k id Ej Vj. destruct (I3 _ _ _ Ej Vj) as [G1 G2]. split; [done|]. intros rc k' A B. apply Sn. eauto.
      * intros k Hk. apply Sn. auto.
    + rewrite R. pose proof (unmarked_mark visited _ V) as Um. rewrite Um in M. cbn [length] in M.
      assert (Vl : forall w, (<[lvar l := true]> visited) !! w = Some true <-> visited !! w = Some true \/ w = lvar l).
      { intros w. destruct (decide (w = lvar l)) as [->|N]; [rewrite list_lookup_insert by lia; tauto|]. rewrite list_lookup_insert_ne by done. tauto. }
      destruct o as [id|].
      * rewrite P. destruct (to_forced _ _ _ _ _ T _ _ _ E) as (rc & A & B & D). rewrite (by_id_unique _ _ _ Uq A).
        assert (Sn : forall w, seen visited (lvar l :: stack) w -> seen (<[lvar l := true]> visited) (rev (map lvar rc) ++ stack) w).
        { intros w [H|[->|H]%elem_of_cons]; [left; apply Vl; auto|left; apply Vl; auto|right; apply elem_of_app; auto]. }
        apply IH.
        2: { rewrite app_length, rev_length, map_length. pose proof (size_ge _ _ _ A). lia. }
        constructor.
        -- by rewrite insert_length.
        -- intros w Hw. apply elem_of_app in Hw as [Hw|Hw]; [|apply I2; by right]. apply elem_of_list_In, in_rev, in_map_iff in Hw as (k & <- & Hk). apply elem_of_list_In in Hk.
           destruct (decide (k = l)) as [->|Nk]; [unfold on_trail; eauto|]. destruct (D k Hk Nk) as (j & o & Ej & _). exists j, (negated k), o. done.
        -- intros j k id' Ej Vj. apply Vl in Vj as [Vj|Vj].
           ++ destruct (I3 _ _ _ Ej Vj) as [G1 G2]. split; [apply elem_of_app; auto|]. intros rc' k' A' B'. apply Sn. eauto.
           ++ destruct (to_index _ _ _ _ _ _ _ _ _ _ _ T Ej E Vj) as (-> & -> & [= ->]). split; [apply elem_of_app; right; left|]. intros rc' k' A' B'. pose proof (unique_inj _ _ _ _ Uq A A') as <-.
              right. apply elem_of_app. left. apply elem_of_list_In, in_rev. rewrite rev_involutive. apply in_map. by apply elem_of_list_In.
        -- intros j id' H. apply elem_of_app in H as [H|H].
           ++ destruct (I4 _ _ H) as (l' & El & Vl'). exists l'. split; [done|]. apply Vl. auto.
           ++ apply elem_of_list_singleton in H. injection H as -> ->. exists l. split; [done|]. apply Vl. auto.
        -- rewrite map_app. apply NoDup_app. split; [done|]. split; [|apply NoDup_singleton]. intros j Hj Hj'. cbn in Hj'. apply elem_of_list_singleton in Hj' as ->.
           apply elem_of_list_In, in_map_iff in Hj as ([j' id'] & <- & Hj). apply elem_of_list_In in Hj. destruct (I4 _ _ Hj) as (l' & El & Vl'). cbn in E. rewrite E in El. injection El as <- <-. congruence.
        -- intros k Hk. apply Sn. auto.
      * assert (Sn : forall w, seen visited (lvar l :: stack) w -> seen (<[lvar l := true]> visited) stack w).
        { intros w [H|[->|H]%elem_of_cons]; [left; apply Vl; auto|left; apply Vl; auto|by right]. }
        apply IH; [|lia]. constructor.
        -- by rewrite insert_length.
        -- intros w Hw. apply I2. by right.
        -- intros j k id' Ej Vj. apply Vl in Vj as [Vj|Vj].
           ++ destruct (I3 _ _ _ Ej Vj) as [G1 G2]. split; [done|]. intros rc' k' A' B'. apply Sn. eauto.
           ++ destruct (to_index _ _ _ _ _ _ _ _ _ _ _ T Ej E Vj) as (_ & _ & ?). done.
        -- intros j id' H. destruct (I4 _ _ H) as (l' & El & Vl'). exists l'. split; [done|]. apply Vl. auto.
        -- done.
        -- intros k Hk. apply Sn. auto.
Qed.

(** Replaying a closed chain in order. *)
Variable m : gmap N clause.
Hypothesis (Rep : forall id c, (id, c) ∈ db <-> m !! id = Some c).
Hypothesis (Rg : db_in_range n (map snd db)).
Lemma db_range id c : (id, c) ∈ db -> in_range n c.
Proof. intros H. apply Rg. apply elem_of_list_In, in_map_iff. exists (id, c). split; [done|]. by apply elem_of_list_In. Qed.
Definition before (done : list (nat * N)) (l : RupModel.lit) : Prop := exists j o, tr !! j = Some (l, o) /\ match o with None => True | Some id => (j, id) ∈ done end.
Lemma replay_chain c cid : (cid, c) ∈ db -> forall todo done a, closed_chain c (done ++ todo) -> StronglySorted lt (map fst (done ++ todo)) -> length a = n -> (forall l, is_t a l <-> before done l) ->
  replay m a (map snd todo ++ [cid]) = Some true.
Proof.
  intros Hc. induction todo as [|[i id] todo IH]; intros done a C S La A; cbn [map app replay].
  - rewrite app_nil_r in C. destruct C as (_ & _ & C & _). rewrite (proj1 (Rep cid c) Hc). destruct (scan_nil n a c La (db_range _ _ Hc)) as (r & E & Sc). rewrite E.
    assert (F : forall k, k ∈ c -> is_f a k) by (intros k Hk; apply is_t_neg, A, C, Hk). destruct r as [|vs].
    + exfalso. destruct Sc as [(k & Hk & Tk)|(k & Hk & _ & Uk)]; pose proof (F k Hk) as Fk; unfold is_f, is_t, is_u in *; congruence.
    + destruct Sc as (_ & S1 & _). destruct vs as [|u vs]; [done|]. exfalso. destruct (proj1 (S1 u) (elem_of_list_here _ _)) as [Hu Uu]. pose proof (F u Hu). unfold is_f, is_u in *. congruence.
  - cbn [snd]. destruct C as (C1 & C2 & C3 & C4). assert (Hi : (i, id) ∈ done ++ (i, id) :: todo) by (apply elem_of_app; right; left). destruct (C2 _ _ Hi) as (l & El).
    destruct (to_forced _ _ _ _ _ T _ _ _ El) as (rc & Hrc & Hl & D). rewrite (proj1 (Rep id rc) Hrc). destruct (scan_nil n a rc La (db_range _ _ Hrc)) as (r & E & Sc). rewrite E.
    assert (Sd : forall j jd, (j, jd) ∈ done ++ (i, id) :: todo -> (j < i)%nat -> (j, jd) ∈ done).
    { intros j jd H Lt. apply elem_of_app in H as [H|H]; [done|]. exfalso. rewrite map_app in S. clear - S H Lt.
      assert (Q : StronglySorted lt (map fst ((i, id) :: todo))) by (induction (map fst done) as [|x xs IHx]; [exact S|apply IHx; by inversion S]). cbn in Q. inversion Q as [|x y Q1 Q2]; subst.
      apply elem_of_cons in H as [[= -> ->]|H]; [lia|]. rewrite List.Forall_forall in Q2. apply elem_of_list_In in H. apply (in_map fst) in H. apply Q2 in H. cbn in H. lia. }
    assert (Ni : forall id', (i, id') ∉ done).
    { intros id' H. rewrite map_app in C1. apply NoDup_app in C1 as (_ & C1 & _). apply (C1 i); [|left]. apply elem_of_list_In, in_map_iff. exists (i, id'). split; [done|]. by apply elem_of_list_In. }
    assert (F : forall k, k ∈ rc -> k <> l -> is_f a k).
    { intros k Hk Nk. destruct (C4 _ _ _ _ _ Hi El Hrc Hk Nk) as (j & o & Ej & Hj). apply is_t_neg, A. exists j, o. split; [done|]. destruct o as [jd|]; [|done]. apply Sd; [done|].
      destruct (D k Hk Nk) as (j' & o' & Ej' & Lt). destruct (to_index _ _ _ _ _ _ _ _ _ _ _ T Ej Ej' eq_refl) as (-> & _). done. }
    assert (Ul : is_u a l).
    { destruct (val_total a l) as [H|[H|H]]; [rewrite La; by apply (db_range _ _ Hrc)| | |done]; exfalso.
      - apply A in H as (j & o & Ej & Hj). destruct (to_index _ _ _ _ _ _ _ _ _ _ _ T Ej El eq_refl) as (-> & _ & ->). by apply Ni in Hj.
      - apply is_t_neg, A in H as (j & o & Ej & Hj). destruct (to_index _ _ _ _ _ _ _ _ _ _ _ T Ej El eq_refl) as (_ & Q & _). by apply negated_ne in Q. }
    destruct r as [|vs].
    + exfalso. destruct Sc as [(k & Hk & Tk)|(k & Hk & Hk' & Uk)]; (destruct (decide (k = l)) as [->|Nk]; [|pose proof (F k Hk Nk) as Fk; unfold is_f, is_t, is_u in *; congruence]).
      * unfold is_t, is_u in *. congruence.
      * pose proof (F _ Hk' (negated_ne l)) as Fk. apply is_f_neg in Fk. unfold is_t, is_u in *. congruence.
    + destruct Sc as (Nv & S1 & _). assert (vs = [l]) as ->.
      { assert (Q : forall u, u ∈ vs <-> u = l). { intros u. rewrite S1. split; [|intros ->; done]. intros [Hu Uu]. destruct (decide (u = l)) as [?|Nu]; [done|]. pose proof (F u Hu Nu). unfold is_f, is_u in *. congruence. }
        destruct vs as [|u [|u2 vs]].
        - assert (l ∈ []) as H by (by apply Q). by apply elem_of_nil in H.
        - f_equal. apply Q. left.
        - exfalso. apply NoDup_cons in Nv as [Nv _]. apply Nv. assert (u = l) as -> by (apply Q; left). assert (u2 = l) as -> by (apply Q; right; left). left. }
      rewrite set_true_u by done. apply (IH (done ++ [(i, id)])).
      * rewrite <- app_assoc. done.
      * rewrite <- app_assoc. done.
      * by rewrite insert_length.
      * intros k. rewrite set_true_t by (try done; rewrite La; by apply (db_range _ _ Hrc)). rewrite A. unfold before. split.
        -- intros [->|(j & o & Ej & Hj)]; [exists i, (Some id); split; [done|apply elem_of_app; right; left]|]. exists j, o. split; [done|]. destruct o; [apply elem_of_app; auto|done].
        -- intros (j & o & Ej & Hj). destruct o as [jd|]; [|right; exists j, None; done]. apply elem_of_app in Hj as [Hj|Hj]; [right; exists j, (Some jd); done|].
           apply elem_of_list_singleton in Hj. injection Hj as -> ->. left. rewrite El in Ej. by injection Ej.
Qed.
Lemma chain_ok c cid : (cid, c) ∈ db -> (forall l, l ∈ c -> is_f (t_assign t) l) ->
  exists ch, build_chain db t c cid = Some ch /\ forall a0, length a0 = n -> (forall l, is_t a0 l <-> neg_of c0 l) -> replay m a0 ch = Some true.
Proof.
  intros Hc F. unfold build_chain. destruct (to_len _ _ _ _ _ T) as (_ & L2 & _). rewrite L2.
  destruct (collect_ok c F (S (length c + n * S (size db))) (replicate n false) [] (rev (map lvar c))) as (needed & E & C).
  - assert (Nv : forall v, replicate n false !! v <> Some true) by (intros v H; apply lookup_replicate in H as [? _]; done). constructor.
    + apply replicate_length.
    + intros v Hv. apply elem_of_list_In, in_rev, in_map_iff in Hv as (k & <- & Hk). apply elem_of_list_In in Hk. destruct (f_falsified _ _ _ _ _ _ T (F k Hk)) as (j & o & Ej & _). exists j, (negated k), o. done.
    + intros i l id _ H. by apply Nv in H.
    + intros i id H. by apply elem_of_nil in H.
    + constructor.
    + intros k Hk. right. apply elem_of_list_In, in_rev. rewrite rev_involutive. apply in_map. by apply elem_of_list_In.
  - rewrite rev_length, map_length, unmarked_replicate. lia.
  - rewrite E. eexists. split; [reflexivity|]. intros a0 La A. set (srt := sort_by _ needed).
    assert (P : Permutation srt needed) by apply sort_perm.
    apply (replay_chain c cid Hc srt [] a0).
    + destruct C as (C1 & C2 & C3 & C4). cbn [app]. assert (Me : forall x, x ∈ srt <-> x ∈ needed) by (intros x; by rewrite P).
      split; [by rewrite P|]. split; [intros i id H; apply C2, Me, H|]. split.
      * intros k Hk. destruct (C3 k Hk) as (j & o & Ej & Hj). exists j, o. split; [done|]. destruct o; [by apply Me|done].
      * intros i id l rc k Hi El Hrc Hk Nk. destruct (C4 i id l rc k) as (j & o & Ej & Hj); try done; [by apply Me|]. exists j, o. split; [done|]. destruct o; [by apply Me|done].
    + cbn [app]. assert (So : StronglySorted (fun x y : nat * N => (fst x <=? fst y)%nat = true) srt).
      { apply sort_sorted; intros x y; [|intros z]; rewrite ?Nat.leb_le, ?Nat.leb_gt; lia. }
      assert (Nd : NoDup (map fst srt)) by (destruct C as (C1 & _); by rewrite P). clear - So Nd. induction srt as [|x srt IHs]; cbn; [constructor|].
      cbn in Nd. apply NoDup_cons in Nd as [N1 N2]. inversion So as [|y ys Q1 Q2]; subst. constructor; [auto|]. apply List.Forall_forall. intros y Hy. apply in_map_iff in Hy as (z & <- & Hz).
      rewrite List.Forall_forall in Q2. specialize (Q2 z Hz). apply Nat.leb_le in Q2. assert (fst x <> fst z) by (intros Q; apply N1; rewrite Q; apply elem_of_list_In, in_map, Hz). lia.
    + done.
    + intros l. rewrite A, (to_assumed _ _ _ _ _ T). unfold before. split; [intros [i H]; exists i, None; done|]. intros (j & [id|] & Ej & Hj); [by apply elem_of_nil in Hj|eauto].
Qed.
End Chain.
