(** The incremental index computes what the stateless checker computes. *)
From Coq Require Import List Arith Bool Lia.
From stdpp Require Import list sorting.
From Verif Require Import RupModel RupProofs RupProps PrModel PrProofs.

(** ** Derivations *)
Lemma derived_mono (db db' : list clause) (st st' : lit -> Prop) l : (forall c, c ∈ db -> c ∈ db') -> (forall l, st l -> st' l) -> derived db st l -> derived db' st' l.
Proof. intros Hd Hs H. induction H as [l Hl | c l Hc Hl Hk IH]; [apply d_start, Hs, Hl |]. apply (d_unit _ _ c); [apply Hd; exact Hc | exact Hl | exact IH]. Qed.
Lemma contradiction_mono (db db' : list clause) (st st' : lit -> Prop) : (forall c, c ∈ db -> c ∈ db') -> (forall l, st l -> st' l) -> contradiction db st -> contradiction db' st'.
Proof.
  intros Hd Hs [(c & Hc & H) | (l & H1 & H2)].
  - left. exists c. split; [apply Hd; exact Hc |]. intros l Hl. apply (derived_mono db db' st st'); auto.
  - right. exists l. split; apply (derived_mono db db' st st'); auto.
Qed.
Lemma assume_negated a ls : assume a ls = assume_neg a (map negated ls).
Proof. revert a. induction ls as [| l ls IH]; intros a; [reflexivity |]. cbn [assume assume_neg map]. rewrite negated_invol. destruct (set_true a l) as [[a' []] |]; auto. Qed.
Lemma up_conflict_rup n db ls : up_conflict n db ls = is_rup n db (map negated ls).
Proof. unfold up_conflict, is_rup. rewrite assume_negated. reflexivity. Qed.
Lemma in_range_negated n ls : in_range n ls -> in_range n (map negated ls).
Proof. intros H l Hl. apply elem_of_list_In, in_map_iff in Hl as (k & <- & Hk). apply elem_of_list_In in Hk. exact (H k Hk). Qed.
Lemma neg_of_negated ls l : neg_of (map negated ls) l <-> l ∈ ls.
Proof.
  unfold neg_of. rewrite elem_of_list_In, in_map_iff. split.
  - intros (k & E & Hk). rewrite <- (negated_invol l), <- E, negated_invol. apply elem_of_list_In. exact Hk.
  - intros H. exists l. split; [reflexivity | apply elem_of_list_In; exact H].
Qed.
Lemma up_conflict_ok n db ls : db_in_range n db -> in_range n ls -> exists b, up_conflict n db ls = Some b /\ (b = true <-> contradiction db (fun l => l ∈ ls)).
Proof.
  intros R L. rewrite up_conflict_rup. destruct (is_rup_ok n db (map negated ls) R (in_range_negated n ls L)) as (b & E & H). exists b. split; [exact E |]. rewrite H.
  split; apply contradiction_mono; auto; intros l; apply neg_of_negated.
Qed.

(** ** One clause *)
Definition quiet (a : assign) (c : clause) : Prop :=
  (exists l, l ∈ c /\ is_t a l) \/ (exists l, l ∈ c /\ negated l ∈ c /\ is_u a l) \/ (exists l k, l ∈ c /\ k ∈ c /\ l <> k /\ is_u a l /\ is_u a k).
Lemma scan_unit_ok n a : length a = n -> forall (c p : clause) (unit : option lit) (more : bool), in_range n c ->
  match unit with
  | None => more = false /\ forall l, l ∈ p -> is_f a l
  | Some u => u ∈ p /\ is_u a u /\ if more then exists k, k ∈ p /\ k <> u /\ is_u a k else forall k, k ∈ p -> k <> u -> is_f a k
  end ->
  exists r, scan_unit a unit more c = Some r /\
    match r with
    | VSatisfied | VMany => quiet a (p ++ c)
    | VConflict => forall l, l ∈ p ++ c -> is_f a l
    | VUnit u => u ∈ p ++ c /\ is_u a u /\ forall k, k ∈ p ++ c -> k <> u -> is_f a k
    end.
Proof.
  intros La. induction c as [| l c IH]; intros p unit more R I; cbn [scan_unit].
  - rewrite app_nil_r. eexists. split; [reflexivity |]. destruct unit as [u |]; [| exact (proj2 I)]. destruct I as (U1 & U2 & U3). destruct more; [| auto]. destruct U3 as (k & K1 & K2 & K3). right. right. exists k, u. auto.
  - assert (in_range n c) as Rc by (intros k Hk; apply R; right; exact Hk). assert ((lvar l < length a)%nat) as Rl by (rewrite La; apply R; left).
    assert (p ++ l :: c = (p ++ [l]) ++ c) as Ep by (rewrite <- app_assoc; reflexivity). rewrite Ep.
    assert (forall k, k ∈ p ++ [l] <-> k ∈ p \/ k = l) as Em by (intros k; rewrite elem_of_app, elem_of_list_singleton; reflexivity).
    destruct (val_total a l Rl) as [V | [V | V]]; unfold is_t, is_f, is_u in V; rewrite V.
    + eexists. split; [reflexivity |]. left. exists l. split; [apply elem_of_app; left; apply Em; auto | exact V].
    + apply (IH (p ++ [l])); [exact Rc |]. destruct unit as [u |].
      * destruct I as (U1 & U2 & U3). split; [apply Em; auto |]. split; [exact U2 |]. destruct more.
        -- destruct U3 as (k & K1 & K2). exists k. split; [apply Em; auto | exact K2].
        -- intros k Hk Nk. apply Em in Hk as [Hk | ->]; [auto | exact V].
      * destruct I as [I1 I2]. split; [exact I1 |]. intros k Hk. apply Em in Hk as [Hk | ->]; [auto | exact V].
    + destruct unit as [u |].
      * destruct I as (U1 & U2 & U3). case_bool_decide as B1; [| case_bool_decide as B2].
        -- subst u. apply (IH (p ++ [l])); [exact Rc |]. split; [apply Em; auto |]. split; [exact U2 |]. destruct more.
           ++ destruct U3 as (k & K1 & K2). exists k. split; [apply Em; auto | exact K2].
           ++ intros k Hk Nk. apply Em in Hk as [Hk | ->]; [auto | contradiction].
        -- eexists. split; [reflexivity |]. right. left. exists l. rewrite <- B2. split; [apply elem_of_app; left; apply Em; auto |]. split; [apply elem_of_app; left; apply Em; auto | exact V].
        -- apply (IH (p ++ [l])); [exact Rc |]. split; [apply Em; auto |]. split; [exact U2 |]. exists l. split; [apply Em; auto |]. split; [congruence | exact V].
      * destruct I as [-> I2]. apply (IH (p ++ [l])); [exact Rc |]. split; [apply Em; auto |]. split; [exact V |]. intros k Hk Nk. apply Em in Hk as [Hk | ->]; [auto | contradiction].
Qed.
Lemma scan_unit_nil n a c : length a = n -> in_range n c ->
  exists r, scan_unit a None false c = Some r /\
    match r with
    | VSatisfied | VMany => quiet a c
    | VConflict => forall l, l ∈ c -> is_f a l
    | VUnit u => u ∈ c /\ is_u a u /\ forall k, k ∈ c -> k <> u -> is_f a k
    end.
Proof. intros La R. apply (scan_unit_ok n a La c [] None false R). split; [reflexivity |]. intros l Hl. apply elem_of_nil in Hl. contradiction. Qed.

(** ** The worklist *)
Lemma mentions_iff v c : mentions v c = true <-> exists l, l ∈ c /\ lvar l = v.
Proof.
  unfold mentions. rewrite existsb_exists. split; intros (l & Hl & E); exists l; (split; [apply elem_of_list_In; exact Hl | apply Nat.eqb_eq; exact E]).
Qed.
Lemma val_other a v b l : lvar l <> v -> lit_val (<[v := b]> a) l = lit_val a l.
Proof. intros N. unfold lit_val. rewrite list_lookup_insert_ne by auto. reflexivity. Qed.
Lemma quiet_insert a v b c : mentions v c = false -> quiet a c -> quiet (<[v := b]> a) c.
Proof.
  intros M. assert (forall l, l ∈ c -> lit_val (<[v := b]> a) l = lit_val a l) as E.
  { intros l Hl. apply val_other. intros L. apply not_true_iff_false in M. apply M, mentions_iff. exists l. auto. }
  unfold quiet, is_t, is_u. intros [(l & Hl & T) | [(l & Hl & Hn & U) | (l & k & Hl & Hk & N & Ul & Uk)]].
  - left. exists l. rewrite E by exact Hl. auto.
  - right. left. exists l. rewrite E by exact Hl. auto.
  - right. right. exists l, k. rewrite !E by assumption. auto.
Qed.
Lemma by_var_elem cs v i : i ∈ by_var cs v <-> exists c, cs !! i = Some c /\ mentions v c = true.
Proof.
  unfold by_var. rewrite elem_of_list_In, filter_In, in_seq. split.
  - intros [_ H]. destruct (cs !! i) as [c |]; [| discriminate]. exists c. auto.
  - intros (c & E & M). rewrite E. split; [| exact M]. apply lookup_lt_Some in E. lia.
Qed.
Lemma list_filter_length {A} (f : A -> bool) l : (length (List.filter f l) <= length l)%nat.
Proof. induction l as [| x l IH]; [reflexivity |]. cbn. destruct (f x); cbn; lia. Qed.
Lemma by_var_length cs v : (length (by_var cs v) <= length cs)%nat.
Proof. unfold by_var. etransitivity; [apply list_filter_length |]. rewrite seq_length. reflexivity. Qed.
Definition settled (cs : list clause) (a : assign) (wl : list nat) : Prop := forall i c, cs !! i = Some c -> i ∈ wl \/ quiet a c.
Lemma settled_insert cs a wl u : settled cs a wl -> settled cs (<[lvar u := Some (lpos u)]> a) (wl ++ by_var cs (lvar u)).
Proof.
  intros S i c E. destruct (mentions (lvar u) c) eqn:M; [left; apply elem_of_app; right; apply by_var_elem; exists c; auto |].
  destruct (S i c E) as [H | H]; [left; apply elem_of_app; auto | right; apply quiet_insert; assumption].
Qed.
Lemma work_ok n cs st : db_in_range n cs -> forall fuel a wl, length a = n -> (forall i, i ∈ wl -> (i < length cs)%nat) -> settled cs a wl ->
  (forall l, is_t a l -> derived cs st l) -> (length wl + open_vars a * length cs < fuel)%nat ->
  exists r, work fuel cs a wl = Some r /\
    match r with
    | None => contradiction cs st
    | Some a' => length a' = n /\ (forall l, is_t a l -> is_t a' l) /\ (forall l, is_t a' l -> derived cs st l) /\ closed cs a'
    end.
Proof.
  intros R. induction fuel as [| fuel IH]; intros a wl La W S T F; [lia |]. cbn [work]. destruct wl as [| ci wl].
  - eexists. split; [reflexivity |]. split; [exact La |]. split; [auto |]. split; [exact T |]. intros c Hc. apply elem_of_list_lookup in Hc as [i Hi]. destruct (S i c Hi) as [K | K]; [apply elem_of_nil in K; contradiction | exact K].
  - destruct (lookup_lt_is_Some_2 cs ci (W ci (elem_of_list_here _ _))) as [c Ec]. rewrite Ec. assert (c ∈ cs) as Hc by (eapply elem_of_list_lookup_2; exact Ec).
    destruct (scan_unit_nil n a c La (R c Hc)) as (r & E & P). rewrite E. assert (forall i, i ∈ wl -> (i < length cs)%nat) as W' by (intros i Hi; apply W; right; exact Hi).
    assert (quiet a c -> settled cs a wl) as Q.
    { intros Qc i d Ed. destruct (S i d Ed) as [K | K]; [| auto]. apply elem_of_cons in K as [-> | K]; [| auto]. right. congruence. }
    cbn [length] in F. destruct r as [| | u |].
    + apply IH; auto. lia.
    + eexists. split; [reflexivity |]. left. exists c. split; [exact Hc |]. intros l Hl. apply T, is_t_neg, P, Hl.
    + destruct P as (U1 & U2 & U3). assert ((lvar u < length a)%nat) as Lu by (rewrite La; apply (R c Hc u U1)).
      assert (a !! lvar u = Some None) as Lk by (unfold is_u, lit_val in U2; destruct (a !! lvar u) as [[] |]; congruence).
      destruct (open_vars_set a (lvar u) (lpos u) Lk) as [O1 O2]. destruct (IH (<[lvar u := Some (lpos u)]> a) (wl ++ by_var cs (lvar u))) as (r & Er & Pr).
      * rewrite insert_length. exact La.
      * intros i Hi. apply elem_of_app in Hi as [Hi | Hi]; [auto |]. apply by_var_elem in Hi as (d & Ed & _). eapply lookup_lt_Some. exact Ed.
      * intros i d Ed. destruct (mentions (lvar u) d) eqn:M; [left; apply elem_of_app; right; apply by_var_elem; exists d; auto |].
        destruct (S i d Ed) as [H | H]; [| right; apply quiet_insert; assumption]. apply elem_of_cons in H as [-> | H]; [| left; apply elem_of_app; auto].
        exfalso. apply not_true_iff_false in M. apply M, mentions_iff. assert (d = c) as -> by congruence. exists u. auto.
      * intros l Hl. apply set_true_t in Hl; [| exact Lu | exact U2]. destruct Hl as [-> | Hl]; [| auto]. apply (d_unit _ _ c); [exact Hc | exact U1 |]. intros k Hk Nk. apply T, is_t_neg, U3; assumption.
      * rewrite app_length, O1. pose proof (by_var_length cs (lvar u)). destruct (open_vars a) as [| o]; [lia |]. cbn [Init.Nat.pred]. cbn [Nat.mul] in F. lia.
      * exists r. split; [exact Er |]. destruct r as [a' |]; [| exact Pr]. destruct Pr as (P1 & P2 & P3 & P4). split; [exact P1 |]. split; [| auto]. intros l Hl. apply P2, set_true_t; auto.
    + apply IH; auto. lia.
Qed.
Lemma enough_ok cs a wl : (length wl + open_vars a * length cs < enough cs a wl)%nat.
Proof. unfold enough. pose proof (open_vars_le a). apply Nat.lt_succ_r. apply Nat.add_le_mono_l, Nat.mul_le_mono_r. exact H. Qed.

(** ** The index *)
Definition no_start (l : lit) : Prop := False.
Record ix_ok (n : nat) (ix : index) : Prop := {
  x_nv : ix_nv ix = n;
  x_len : length (ix_base ix) = n;
  x_range : db_in_range n (ix_clauses ix);
  x_base : if ix_conflict ix then contradiction (ix_clauses ix) no_start
           else closed (ix_clauses ix) (ix_base ix) /\ forall l, is_t (ix_base ix) l -> derived (ix_clauses ix) no_start l }.
Lemma index_new_ok n : ix_ok n (index_new n).
Proof.
  split; cbn; [reflexivity | apply replicate_length | intros c Hc; apply elem_of_nil in Hc; contradiction |]. split; [intros c Hc; apply elem_of_nil in Hc; contradiction |].
  intros l Hl. exfalso. unfold is_t, lit_val in Hl. destruct (replicate n None !! lvar l) as [o |] eqn:E; [| discriminate]. apply lookup_replicate in E as [-> _]. discriminate.
Qed.
Lemma range_snoc n cs c : db_in_range n cs -> in_range n c -> db_in_range n (cs ++ [c]).
Proof. intros R Rc d Hd. apply elem_of_app in Hd as [Hd | Hd]; [exact (R d Hd) |]. apply elem_of_list_singleton in Hd as ->. exact Rc. Qed.
Lemma index_insert_ok n ix c : ix_ok n ix -> in_range n c -> exists ix', index_insert ix c = Some ix' /\ ix_ok n ix' /\ ix_clauses ix' = ix_clauses ix ++ [c].
Proof.
  intros [X1 X2 X3 X4] Rc. unfold index_insert. pose proof (range_snoc n _ c X3 Rc) as R. assert (forall d, d ∈ ix_clauses ix -> d ∈ ix_clauses ix ++ [c]) as Sub by (intros d Hd; apply elem_of_app; auto).
  destruct (ix_conflict ix).
  - eexists. split; [reflexivity |]. split; [| reflexivity]. split; cbn; auto. apply (contradiction_mono (ix_clauses ix) _ no_start); auto.
  - destruct X4 as [X4 X5]. set (cs := ix_clauses ix ++ [c]) in *. set (wl := [length (ix_clauses ix)]).
    destruct (work_ok n cs no_start R (enough cs (ix_base ix) wl) (ix_base ix) wl X2) as (r & E & P).
    + intros i Hi. apply elem_of_list_singleton in Hi as ->. unfold cs. rewrite app_length. cbn. lia.
    + intros i d Ed. unfold cs in Ed. apply lookup_app_Some in Ed as [Ed | [Ge Ed]]; [right; apply X4; eapply elem_of_list_lookup_2; exact Ed |]. left. apply elem_of_list_singleton. apply list_lookup_singleton_Some in Ed as [Ed _]. lia.
    + intros l Hl. apply (derived_mono (ix_clauses ix) _ no_start); auto.
    + apply enough_ok.
    + rewrite E. destruct r as [b |].
      * eexists. split; [reflexivity |]. split; [| reflexivity]. destruct P as (P1 & P2 & P3 & P4). split; cbn; auto.
      * eexists. split; [reflexivity |]. split; [| reflexivity]. split; cbn; auto.
Qed.
Lemma index_inserts_ok n cs : forall ix, ix_ok n ix -> db_in_range n cs -> exists ix', index_inserts ix cs = Some ix' /\ ix_ok n ix' /\ ix_clauses ix' = ix_clauses ix ++ cs.
Proof.
  induction cs as [| c cs IH]; intros ix X R; cbn [index_inserts]; [exists ix; rewrite app_nil_r; auto |]. destruct (index_insert_ok n ix c X (R c (elem_of_list_here _ _))) as (ix1 & E1 & X1 & C1). rewrite E1.
  destruct (IH ix1 X1) as (ix2 & E2 & X2 & C2); [intros d Hd; apply R; right; exact Hd |]. exists ix2. split; [exact E2 |]. split; [exact X2 |]. rewrite C2, C1, <- app_assoc. reflexivity.
Qed.
Lemma seed_ok n cs (st : lit -> Prop) ls : db_in_range n cs -> forall a wl, length a = n -> in_range n ls -> (forall l, l ∈ ls -> st l) -> (forall i, i ∈ wl -> (i < length cs)%nat) -> settled cs a wl ->
  (forall l, is_t a l -> derived cs st l) ->
  exists r, seed cs a wl ls = Some r /\
    match r with
    | None => contradiction cs st
    | Some (a', wl') => length a' = n /\ (forall i, i ∈ wl' -> (i < length cs)%nat) /\ settled cs a' wl' /\ (forall l, is_t a' l -> derived cs st l) /\ (forall l, is_t a l \/ l ∈ ls -> is_t a' l)
    end.
Proof.
  intros R. induction ls as [| k ls IH]; intros a wl La Rl St W Se T; cbn [seed].
  - eexists. split; [reflexivity |]. repeat (split; [assumption |]). intros l [H | H]; [exact H | apply elem_of_nil in H; contradiction].
  - assert (in_range n ls) as Rls by (intros l Hl; apply Rl; right; exact Hl). assert (forall l, l ∈ ls -> st l) as Sls by (intros l Hl; apply St; right; exact Hl).
    assert ((lvar k < length a)%nat) as Lk by (rewrite La; apply Rl; left). assert (st k) as Sk by (apply St; left).
    destruct (val_total a k Lk) as [V | [V | V]]; unfold is_t, is_f, is_u in V; rewrite V.
    + destruct (IH a wl La Rls Sls W Se T) as (r & E & P). exists r. split; [exact E |]. destruct r as [[a' wl'] |]; [| exact P]. destruct P as (P1 & P2 & P3 & P4 & P5). repeat (split; [assumption |]).
      intros l [H | H]; [auto |]. apply elem_of_cons in H as [-> | H]; auto.
    + eexists. split; [reflexivity |]. right. exists k. split; [apply d_start; exact Sk | apply T, is_t_neg; exact V].
    + destruct (IH (<[lvar k := Some (lpos k)]> a) (wl ++ by_var cs (lvar k))) as (r & E & P); auto.
      * rewrite insert_length. exact La.
      * intros i Hi. apply elem_of_app in Hi as [Hi | Hi]; [auto |]. apply by_var_elem in Hi as (d & Ed & _). eapply lookup_lt_Some. exact Ed.
      * apply settled_insert. exact Se.
      * intros l Hl. apply set_true_t in Hl; [| exact Lk | exact V]. destruct Hl as [-> | Hl]; [apply d_start; exact Sk | auto].
      * exists r. split; [exact E |]. destruct r as [[a' wl'] |]; [| exact P]. destruct P as (P1 & P2 & P3 & P4 & P5). repeat (split; [assumption |]).
        intros l H. apply P5. destruct H as [H | H]; [left; apply set_true_t; auto |]. apply elem_of_cons in H as [-> | H]; [left; apply set_true_t; auto | auto].
Qed.
Lemma propagate_to_conflict_ok n ix ls : ix_ok n ix -> in_range n ls -> exists b, propagate_to_conflict ix ls = Some b /\ (b = true <-> contradiction (ix_clauses ix) (fun l => l ∈ ls)).
Proof.
  intros [X1 X2 X3 X4] Rl. unfold propagate_to_conflict. set (cs := ix_clauses ix) in *. set (st := fun l => l ∈ ls). destruct (ix_conflict ix).
  - exists true. split; [reflexivity |]. split; [| auto]. intros _. apply (contradiction_mono cs cs no_start st); auto. intros l [].
  - destruct X4 as [X4 X5]. destruct (seed_ok n cs st ls X3 (ix_base ix) [] X2 Rl) as (r & E & P).
    + auto.
    + intros i Hi. apply elem_of_nil in Hi. contradiction.
    + intros i c Ec. right. apply X4. eapply elem_of_list_lookup_2. exact Ec.
    + intros l Hl. apply (derived_mono cs cs no_start st); auto. intros k [].
    + rewrite E. destruct r as [[a wl] |]; [| exists true; split; [reflexivity |]; split; auto]. destruct P as (P1 & P2 & P3 & P4 & P5).
      destruct (work_ok n cs st X3 (enough cs a wl) a wl P1 P2 P3 P4 (enough_ok cs a wl)) as (r & Ew & Pw). rewrite Ew. destruct r as [a' |]; [| exists true; split; [reflexivity |]; split; auto].
      exists false. split; [reflexivity |]. split; [discriminate |]. intros C. exfalso. destruct Pw as (W1 & W2 & W3 & W4). apply (closed_no_conflict n cs a' st W1 X3 W4); [| exact C]. intros l Hl. apply W2, P5. auto.
Qed.

(** ** Automorphisms *)
Definition touches (s : perm) (c : clause) : Prop := exists l, l ∈ c /\ moved s (lvar l) = true.
Definition present (s : perm) (cs : list clause) (c : clause) : Prop := exists d e, apply_clause s c = Some d /\ e ∈ cs /\ same_lits e d.
Lemma touches_iff s c : existsb (fun l => moved s (lvar l)) c = true <-> touches s c.
Proof. unfold touches. rewrite existsb_exists. split; intros (l & Hl & M); exists l; (split; [apply elem_of_list_In; exact Hl | exact M]). Qed.
Lemma images_present_ok s cs todo : (forall c, c ∈ todo -> is_Some (apply_clause s c)) ->
  exists b, images_present s cs todo = Some b /\ (b = true <-> forall c, c ∈ todo -> touches s c -> present s cs c).
Proof.
  induction todo as [| c todo IH]; intros A; cbn [images_present].
  { exists true. split; [reflexivity |]. split; [| reflexivity]. intros _ c Hc. apply elem_of_nil in Hc. contradiction. }
  destruct IH as (b & E & H); [intros d Hd; apply A; right; exact Hd |]. destruct (existsb (fun l => moved s (lvar l)) c) eqn:T.
  - destruct (A c (elem_of_list_here _ _)) as [d Ed]. rewrite Ed. destruct (has_key cs (clause_key d)) eqn:K.
    + exists b. split; [exact E |]. rewrite H. apply has_key_iff in K as (e & He & Se). split.
      * intros G c' Hc. apply elem_of_cons in Hc as [-> | Hc]; [intros _; exists d, e; auto | auto].
      * intros G c' Hc. apply G. right. exact Hc.
    + exists false. split; [reflexivity |]. split; [discriminate |]. intros G. exfalso. destruct (G c (elem_of_list_here _ _)) as (d' & e & Ed' & He & Se); [apply touches_iff; exact T |].
      apply not_true_iff_false in K. apply K, has_key_iff. exists e. assert (d' = d) as -> by congruence. auto.
  - exists b. split; [exact E |]. rewrite H. split.
    + intros G c' Hc. apply elem_of_cons in Hc as [-> | Hc]; [| auto]. intros Tc. apply touches_iff in Tc. congruence.
    + intros G c' Hc. apply G. right. exact Hc.
Qed.
Lemma automorphism_ok n cs s : db_in_range n cs -> length s = n -> exists b, perm_is_automorphism cs s = Some b /\ (b = true <-> forall c, c ∈ cs -> touches s c -> present s cs c).
Proof.
  intros R L. unfold perm_is_automorphism. destruct (forallb _ _) eqn:F.
  - exists true. split; [reflexivity |]. split; [| reflexivity]. intros _ c Hc (l & Hl & M). exfalso. rewrite forallb_forall in F. specialize (F (lvar l)). rewrite M in F. discriminate F. apply in_seq. specialize (R c Hc l Hl). lia.
  - apply images_present_ok. intros c Hc. apply apply_clause_total. rewrite L. exact (R c Hc).
Qed.
Lemma involution_ok n s vs : length s = n -> in_range n s -> (forall v, v ∈ vs -> (v < n)%nat) ->
  exists b, involution s vs = Some b /\ (b = true -> forall v, v ∈ vs -> exists l, apply_lit s (Lit v true) = Some l /\ apply_lit s l = Some (Lit v true)).
Proof.
  intros L R. induction vs as [| v vs IH]; intros H; cbn [involution]; [exists true; split; [reflexivity |]; intros _ v Hv; apply elem_of_nil in Hv; contradiction |].
  destruct (lookup_lt_is_Some_2 s v) as [l El]; [rewrite L; apply H; left |]. unfold apply_lit at 1. cbn [lvar lpos]. rewrite El.
  assert ((lvar l < n)%nat) as Ll by (apply R; eapply elem_of_list_lookup_2; exact El). assert (is_Some (apply_lit s l)) as [k Ek].
  { unfold apply_lit. destruct (lookup_lt_is_Some_2 s (lvar l)) as [i ->]; [rewrite L; exact Ll | eexists; reflexivity]. }
  rewrite Ek. case_bool_decide as B.
  - subst k. destruct IH as (b & E & Hb); [intros w Hw; apply H; right; exact Hw |]. exists b. split; [exact E |]. intros Tb w Hw. apply elem_of_cons in Hw as [-> | Hw]; [| auto]. exists l. split; [| exact Ek]. unfold apply_lit. cbn [lvar lpos]. rewrite El. reflexivity.
  - exists false. split; [reflexivity | discriminate].
Qed.
Lemma involution_lit n s : (forall v, (v < n)%nat -> exists l, apply_lit s (Lit v true) = Some l /\ apply_lit s l = Some (Lit v true)) ->
  forall l k, (lvar l < n)%nat -> apply_lit s l = Some k -> apply_lit s k = Some l.
Proof.
  intros H l k L E. destruct (H _ L) as (i & A & B). destruct l as [v []]; cbn [lvar] in *; [congruence |]. change (Lit v false) with (negated (Lit v true)) in *. rewrite apply_neg, A in E. cbn in E. injection E as <-. rewrite apply_neg, B. reflexivity.
Qed.
Lemma last_with_key_spec k cs : forall i j, last_with_key k i cs = Some j -> exists c, (i <= j)%nat /\ cs !! (j - i)%nat = Some c /\ clause_key c = k.
Proof.
  induction cs as [| c cs IH]; intros i j; cbn [last_with_key]; [discriminate |]. destruct (last_with_key k (S i) cs) as [j' |] eqn:E.
  - intros [= <-]. destruct (IH _ _ E) as (d & A & B & C). exists d. split; [lia |]. split; [| exact C]. replace (j' - i)%nat with (S (j' - S i)) by lia. exact B.
  - case_bool_decide as B; [| discriminate]. intros [= <-]. exists c. split; [lia |]. rewrite Nat.sub_diag. auto.
Qed.
Section Visit.
  Context (n : nat) (cs : list clause) (s : perm) (inv : bool) (R : db_in_range n cs) (L : length s = n).
  Context (Inv : inv = true -> forall l k, (lvar l < n)%nat -> apply_lit s l = Some k -> apply_lit s k = Some l).
  Definition good (visited : list nat) : Prop := forall i c, i ∈ visited -> cs !! i = Some c -> present s cs c.
  Lemma partner_present c d e : inv = true -> c ∈ cs -> e ∈ cs -> apply_clause s c = Some d -> same_lits e d -> present s cs e.
  Proof.
    intros I Hc He Ed Se. destruct (apply_clause_total s e) as [f Ef]; [rewrite L; exact (R e He) |]. exists f, c. split; [exact Ef |]. split; [exact Hc |].
    destruct (apply_clause_elem s c d Ed) as [A B], (apply_clause_elem s e f Ef) as [C D]. intros l. split.
    - intros Hl. destruct (A l Hl) as (k & Ek & Hk). apply Se in Hk. destruct (C k Hk) as (l' & El & Hl'). rewrite (Inv I l k (R c Hc l Hl) Ek) in El. congruence.
    - intros Hl. destruct (D l Hl) as (k & Hk & Ek). apply Se in Hk. destruct (B k Hk) as (l' & Hl' & El). rewrite (Inv I l' k (R c Hc l' Hl') El) in Ek. congruence.
  Qed.
  Lemma visit_ok cis : forall visited, (forall i, i ∈ cis -> (i < length cs)%nat) -> good visited ->
    exists r, visit cs s inv visited cis = Some r /\
      match r with
      | None => exists i c, i ∈ cis /\ cs !! i = Some c /\ ~ present s cs c
      | Some vis' => good vis' /\ (forall i, i ∈ visited \/ i ∈ cis -> i ∈ vis')
      end.
  Proof.
    induction cis as [| ci cis IH]; intros visited W G; cbn [visit].
    { eexists. split; [reflexivity |]. split; [exact G |]. intros i [H | H]; [exact H | apply elem_of_nil in H; contradiction]. }
    assert (forall i, i ∈ cis -> (i < length cs)%nat) as W' by (intros i Hi; apply W; right; exact Hi). case_bool_decide as V.
    - destruct (IH visited W' G) as (r & E & P). exists r. split; [exact E |]. destruct r as [vis' |].
      + destruct P as [P1 P2]. split; [exact P1 |]. intros i [H | H]; [auto |]. apply elem_of_cons in H as [-> | H]; auto.
      + destruct P as (i & c & Hi & Ec & N). exists i, c. split; [right; exact Hi | auto].
    - destruct (lookup_lt_is_Some_2 cs ci (W ci (elem_of_list_here _ _))) as [c Ec]. rewrite Ec. assert (c ∈ cs) as Hc by (eapply elem_of_list_lookup_2; exact Ec).
      destruct (apply_clause_total s c) as [d Ed]; [rewrite L; exact (R c Hc) |]. rewrite Ed. destruct (has_key cs (clause_key d)) eqn:K.
      + apply has_key_iff in K as (e & He & Se). assert (good (ci :: visited)) as G1.
        { intros i c' Hi Ec'. apply elem_of_cons in Hi as [-> | Hi]; [| exact (G i c' Hi Ec')]. assert (c' = c) as -> by congruence. exists d, e. auto. }
        set (vis1 := if inv then _ else _). assert (good vis1 /\ forall i, i ∈ ci :: visited -> i ∈ vis1) as [G2 S2].
        { unfold vis1. assert (inv = true \/ inv = false) as [I | I] by (destruct inv; auto); rewrite I; [| auto]. destruct (last_with_key (clause_key d) 0 cs) as [p |] eqn:Lk; [| auto]. split; [| intros i Hi; right; exact Hi].
          apply last_with_key_spec in Lk as (e' & _ & Ee & Ke). rewrite Nat.sub_0_r in Ee. apply key_iff in Ke. intros i c' Hi Ec'. apply elem_of_cons in Hi as [-> | Hi]; [| exact (G1 i c' Hi Ec')].
          assert (c' = e') as -> by congruence. apply (partner_present c d e'); auto. eapply elem_of_list_lookup_2. exact Ee. }
        destruct (IH vis1 W' G2) as (r & E & P). exists r. split; [exact E |]. destruct r as [vis' |].
        * destruct P as [P1 P2]. split; [exact P1 |]. intros i [H | H]; [apply P2; left; apply S2; right; exact H |]. apply elem_of_cons in H as [-> | H]; [apply P2; left; apply S2; left | auto].
        * destruct P as (i & c' & Hi & Ec' & N). exists i, c'. split; [right; exact Hi | auto].
      + eexists. split; [reflexivity |]. exists ci, c. split; [left |]. split; [exact Ec |]. intros (d' & e & Ed' & He & Se). apply not_true_iff_false in K. apply K, has_key_iff. exists e. assert (d' = d) as -> by congruence. auto.
  Qed.
  Lemma visit_vars_ok vs : forall visited, (forall v, v ∈ vs -> (v < n)%nat) -> good visited ->
    exists b, visit_vars cs s inv visited vs = Some b /\
      (b = true <-> forall c l, c ∈ cs -> l ∈ c -> lvar l ∈ vs -> moved s (lvar l) = true -> present s cs c).
  Proof.
    induction vs as [| v vs IH]; intros visited H G; cbn [visit_vars].
    { exists true. split; [reflexivity |]. split; [| reflexivity]. intros _ c l _ _ Hv. apply elem_of_nil in Hv. contradiction. }
    assert (forall w, w ∈ vs -> (w < n)%nat) as H' by (intros w Hw; apply H; right; exact Hw).
    destruct (lookup_lt_is_Some_2 s v) as [l El]; [rewrite L; apply H; left |]. assert (apply_lit s (Lit v true) = Some l) as -> by (unfold apply_lit; cbn [lvar lpos]; rewrite El; reflexivity).
    assert (moved s v = negb (bool_decide (l = Lit v true))) as M by (unfold moved; rewrite El; reflexivity). case_bool_decide as B.
    - destruct (IH visited H' G) as (b & E & Hb). exists b. split; [exact E |]. rewrite Hb. split; intros K c k Hc Hk Hv Mk; [| apply (K c k); auto; right; exact Hv].
      apply elem_of_cons in Hv as [Hv | Hv]; [| apply (K c k); auto]. rewrite Hv, M in Mk. discriminate.
    - destruct (visit_ok (by_var cs v) visited) as (r & E & P); [intros i Hi; apply by_var_elem in Hi as (c & Ec & _); eapply lookup_lt_Some; exact Ec | exact G |]. rewrite E. destruct r as [vis' |].
      + destruct P as [P1 P2]. destruct (IH vis' H' P1) as (b & Eb & Hb). exists b. split; [exact Eb |]. rewrite Hb. split; intros K c k Hc Hk Hv Mk; [| apply (K c k); auto; right; exact Hv].
        apply elem_of_cons in Hv as [Hv | Hv]; [| apply (K c k); auto]. apply elem_of_list_lookup in Hc as [i Hi]. apply (P1 i c); [| exact Hi]. apply P2. right. apply by_var_elem. exists c. split; [exact Hi |]. apply mentions_iff. exists k. auto.
      + exists false. split; [reflexivity |]. split; [discriminate |]. intros K. exfalso. destruct P as (i & c & Hi & Ec & N). apply by_var_elem in Hi as (c' & Ec' & Mc). assert (c' = c) as -> by congruence. apply mentions_iff in Mc as (k & Hk & Ek).
        apply N, (K c k); [eapply elem_of_list_lookup_2; exact Ec | exact Hk | rewrite Ek; left | rewrite Ek, M; reflexivity].
  Qed.
End Visit.
Lemma index_automorphism_ok n ix s : ix_ok n ix -> length s = n -> in_range n s ->
  exists b, index_is_automorphism ix s = Some b /\ (b = true <-> forall c, c ∈ ix_clauses ix -> touches s c -> present s (ix_clauses ix) c).
Proof.
  intros [X1 X2 X3 X4] L R. unfold index_is_automorphism. rewrite X1. assert (forall v, v ∈ seq 0 n <-> (v < n)%nat) as Sq by (intros v; rewrite elem_of_list_In, in_seq; lia).
  destruct (involution_ok n s (seq 0 n) L R) as (inv & E & Hi); [intros v; apply Sq |]. rewrite E.
  destruct (visit_vars_ok n (ix_clauses ix) s inv X3 L) with (vs := seq 0 n) (visited := @nil nat) as (b & Eb & Hb).
  - intros I. apply involution_lit. intros v Hv. apply (Hi I). apply Sq. exact Hv.
  - intros v. apply Sq.
  - intros i c Hi'. apply elem_of_nil in Hi'. contradiction.
  - exists b. split; [exact Eb |]. rewrite Hb. split.
    + intros K c Hc (l & Hl & M). apply (K c l); auto. apply Sq. exact (X3 c Hc l Hl).
    + intros K c l Hc Hl _ M. apply (K c Hc). exists l. auto.
Qed.

(** ** The two checkers *)
Definition witness_in_range (n : nat) (w : witness) : Prop :=
  match w with WAssignment ls => in_range n ls | WSubstitution s => length s = n /\ in_range n s end.
Definition step_in_range (n : nat) (s : step) : Prop :=
  match s with SRup c => in_range n c | SPr c w => in_range n c /\ witness_in_range n w | SDelete c => True end.
Lemma bool_same (b1 b2 : bool) (P : Prop) : (b1 = true <-> P) -> (b2 = true <-> P) -> b1 = b2.
Proof. intros A B. destruct b1, b2; try reflexivity; [symmetry; apply B, A; reflexivity | apply A, B; reflexivity]. Qed.
Lemma apply_in_range n s c d : length s = n -> in_range n s -> apply_clause s c = Some d -> in_range n d.
Proof.
  intros L R E k Hk. destruct (apply_clause_elem s c d E) as [_ B]. destruct (B k Hk) as (l & _ & El). unfold apply_lit in El. destruct (s !! lvar l) as [i |] eqn:Ei; [| discriminate].
  assert ((lvar i < n)%nat) as Li by (apply R; eapply elem_of_list_lookup_2; exact Ei). injection El as <-. destruct (lpos l); exact Li.
Qed.
Lemma assumptions_in_range n c d : in_range n c -> in_range n d -> in_range n (map negated c ++ map negated d).
Proof. intros A B l Hl. apply elem_of_app in Hl as [Hl | Hl]; [apply (in_range_negated n c A); exact Hl | apply (in_range_negated n d B); exact Hl]. Qed.
Lemma is_pr_indexed_eq n ix c w : ix_ok n ix -> in_range n c -> witness_in_range n w -> is_pr_indexed n (ix_clauses ix) ix c w = is_pr n (ix_clauses ix) c w.
Proof.
  intros X Rc Rw. destruct w as [ls | s]; [reflexivity |]. destruct Rw as [L R]. unfold is_pr_indexed, is_pr, substitution_sr. pose proof (x_range _ _ X) as Rd.
  destruct (index_automorphism_ok n ix s X L R) as (b1 & E1 & H1), (automorphism_ok n (ix_clauses ix) s Rd L) as (b2 & E2 & H2). rewrite E1, E2. rewrite (bool_same b1 b2 _ H1 H2). destruct b2; [| reflexivity].
  destruct (apply_clause s c) as [d |] eqn:Ed; [| reflexivity]. pose proof (assumptions_in_range n c d Rc (apply_in_range n s c d L R Ed)) as Ra.
  destruct (propagate_to_conflict_ok n ix _ X Ra) as (b3 & E3 & H3), (up_conflict_ok n (ix_clauses ix) _ Rd Ra) as (b4 & E4 & H4). rewrite E3, E4. f_equal. exact (bool_same _ _ _ H3 H4).
Qed.
Lemma check_fast_eq n steps : existsb is_delete steps = false -> Forall (step_in_range n) steps -> forall ix, ix_ok n ix -> check_fast n (ix_clauses ix) ix steps = check_pr_refutation n (ix_clauses ix) steps.
Proof.
  induction steps as [| st steps IH]; intros D F ix X; [reflexivity |]. apply Forall_cons in F as [F1 F]. cbn [existsb] in D. apply orb_false_iff in D as [D1 D].
  assert (forall c, in_range n c -> match index_insert ix c with None => None | Some ix' => check_fast n (ix_clauses ix ++ [c]) ix' steps end = check_pr_refutation n (ix_clauses ix ++ [c]) steps) as Next.
  { intros c Rc. destruct (index_insert_ok n ix c X Rc) as (ix' & E & X' & C'). rewrite E, <- C'. apply IH; assumption. }
  destruct st as [c | c w | c]; cbn [check_fast check_pr_refutation is_delete step_in_range] in *; [| | discriminate].
  - destruct (is_rup n (ix_clauses ix) c) as [[] |]; [apply Next; exact F1 | reflexivity | reflexivity].
  - destruct F1 as [F1 Fw]. rewrite (is_pr_indexed_eq n ix c w X F1 Fw). destruct (is_pr n (ix_clauses ix) c w) as [[] |]; [apply Next; exact F1 | reflexivity | reflexivity].
Qed.
