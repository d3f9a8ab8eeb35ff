(** Lemmas on the RUP checker. *)
From Coq Require Import List Arith Bool Lia.
From stdpp Require Import list.
From Verif Require Import RupModel.

Lemma negated_invol l : negated (negated l) = l.
Proof. destruct l as [v []]; done. Qed.
Lemma negated_ne l : negated l <> l.
Proof. destruct l as [v []]; done. Qed.
Lemma same_var l k : lvar l = lvar k -> k = l \/ k = negated l.
Proof. destruct l as [v []], k as [w []]; cbn; intros ->; auto. Qed.

Section rup.
Implicit Types (a : assign) (db : list clause) (c : clause) (l : lit) (start : lit -> Prop).

(** All literals have variables below [n]. *)
Definition in_range (n : nat) c : Prop := forall l, l ∈ c -> (lvar l < n)%nat.
Definition db_in_range (n : nat) db : Prop := forall c, c ∈ db -> in_range n c.

Definition is_t a l : Prop := lit_val a l = Some (Some true).
Definition is_f a l : Prop := lit_val a l = Some (Some false).
Definition is_u a l : Prop := lit_val a l = Some None.

Lemma val_neg a l : lit_val a (negated l) = option_map (option_map negb) (lit_val a l).
Proof. unfold lit_val. destruct l as [v s]. cbn. destruct (a !! v) as [[b|]|]; try done. cbn. destruct s, b; done. Qed.
Lemma is_t_neg a l : is_t a (negated l) <-> is_f a l.
Proof. unfold is_t, is_f. rewrite val_neg. destruct (lit_val a l) as [[[]|]|]; cbn; intuition congruence. Qed.
Lemma is_f_neg a l : is_f a (negated l) <-> is_t a l.
Proof. unfold is_t, is_f. rewrite val_neg. destruct (lit_val a l) as [[[]|]|]; cbn; intuition congruence. Qed.
Lemma is_u_neg a l : is_u a (negated l) <-> is_u a l.
Proof. unfold is_u. rewrite val_neg. destruct (lit_val a l) as [[[]|]|]; cbn; intuition congruence. Qed.
Lemma val_total a l : (lvar l < length a)%nat -> is_t a l \/ is_f a l \/ is_u a l.
Proof.
  intros H. unfold is_t, is_f, is_u, lit_val. destruct (lookup_lt_is_Some_2 a (lvar l) H) as [o ->].
  destruct o as [b|]; [|auto]. destruct (if lpos l then b else negb b); auto.
Qed.

Lemma set_true_t a l k : (lvar l < length a)%nat -> is_u a l -> is_t (<[lvar l := Some (lpos l)]> a) k <-> k = l \/ is_t a k.
Proof.
  intros L U. unfold is_t, is_u, lit_val in *. destruct (decide (lvar l = lvar k)) as [E|N].
  - rewrite <- E. rewrite list_lookup_insert by done. destruct (same_var l k E) as [-> | ->].
    + split; [auto|]. intros _. destruct (lpos l); done.
    + cbn. split.
      * destruct (lpos l); done.
      * intros [H|H]; [now apply negated_ne in H|]. destruct (a !! lvar l) as [[]|]; done.
  - rewrite list_lookup_insert_ne by done. split; [auto|]. intros [->|H]; [done|done].
Qed.

(** Number of unassigned variables. *)
Definition open_vars a : nat := length (filter (fun o => o = None) a).
Lemma open_vars_le a : (open_vars a <= length a)%nat.
Proof. unfold open_vars. apply filter_length. Qed.
Lemma open_vars_set a i b : a !! i = Some None -> open_vars (<[i := Some b]> a) = pred (open_vars a) /\ (1 <= open_vars a)%nat.
Proof.
  unfold open_vars. revert i. induction a as [|o a IH]; intros [|i] H; cbn in H; try discriminate H.
  - injection H as ->. change (<[0%nat := Some b]> (None :: a)) with (Some b :: a). rewrite !filter_cons.
    rewrite decide_False by done. rewrite decide_True by done. cbn [length]. lia.
  - destruct (IH i H) as [E L]. change (<[S i := Some b]> (o :: a)) with (o :: <[i := Some b]> a). rewrite !filter_cons.
    destruct (decide (o = None)); cbn [length]; lia.
Qed.

(** ** One clause *)
Lemma scan_ok n c : forall a us, length a = n -> in_range n c -> NoDup us -> (forall l, l ∈ us -> is_u a l /\ negated l ∉ us) ->
  exists r, scan a us c = Some r /\
    match r with
    | Satisfied => (exists l, l ∈ c /\ is_t a l) \/ (exists l, l ∈ us ++ c /\ negated l ∈ us ++ c /\ is_u a l)
    | Unset vs => NoDup vs /\ (forall l, l ∈ vs <-> l ∈ us \/ (l ∈ c /\ is_u a l)) /\ (forall l, l ∈ c -> is_f a l \/ is_u a l) /\
        (forall l, l ∈ vs -> negated l ∉ vs)
    end.
Proof.
  induction c as [|k c IH]; intros a us La R Nd U; cbn [scan].
  - eexists. split; [reflexivity|]. split; [done|]. split; [|split].
    + intros l. rewrite elem_of_nil. tauto.
    + intros l H. now apply elem_of_nil in H.
    + intros l Hl. now apply U.
  - assert (Rk : (lvar k < length a)%nat) by (rewrite La; apply R; left).
    assert (Rc : in_range n c) by (intros l Hl; apply R; now right).
    destruct (val_total a k Rk) as [V|[V|V]]; unfold is_t, is_f, is_u in V; rewrite V.
    + eexists. split; [reflexivity|]. left. exists k. split; [left|done].
    + destruct (IH a us La Rc Nd U) as (r & E & S). exists r. split; [done|]. destruct r as [|vs].
      * destruct S as [(l & Hl & T)|(l & Hl & Hn & Ul)]; [left|right]; exists l.
        -- split; [now right|done].
        -- rewrite !elem_of_app, !elem_of_cons in *. tauto.
      * destruct S as (Nv & S1 & S2 & S3). split; [done|]. split; [|split; [|done]].
        -- intros l. rewrite S1, elem_of_cons. split; [tauto|]. intros [?|[[->|?] Hu]]; auto. unfold is_u in Hu. congruence.
        -- intros l [->|Hl]%elem_of_cons; [now left|auto].
    + case_bool_decide as B.
      * eexists. split; [reflexivity|]. right. exists k. rewrite !elem_of_app, elem_of_cons. split; [auto|]. split; [auto|done].
      * destruct (IH a (if bool_decide (k ∈ us) then us else us ++ [k]) La Rc) as (r & E & S).
        { case_bool_decide as B2; [done|]. apply NoDup_app. split; [done|]. split; [|apply NoDup_singleton].
          intros x Hx Hk%elem_of_list_singleton. congruence. }
        { intros l. case_bool_decide as B2; [apply U|]. rewrite !elem_of_app, !elem_of_list_singleton. intros [Hl| ->].
          - destruct (U l Hl) as [Ul Nl]. split; [done|]. intros [?|E]; [done|]. apply B. rewrite <- E. now rewrite negated_invol.
          - split; [done|]. intros [?|E]; [done|]. now apply negated_ne in E. }
        exists r. split; [done|].
        assert (M : forall l, l ∈ (if bool_decide (k ∈ us) then us else us ++ [k]) <-> l ∈ us \/ l = k).
        { intros l. case_bool_decide; [|now rewrite elem_of_app, elem_of_list_singleton]. split; [auto|]. intros [?| ->]; done. }
        destruct r as [|vs].
        -- destruct S as [(l & Hl & T)|(l & Hl & Hn & Ul)]; [left|right]; exists l.
           ++ split; [now right|done].
           ++ rewrite !elem_of_app, !M, !elem_of_cons in *. tauto.
        -- destruct S as (Nv & S1 & S2 & S3). split; [done|]. split; [|split; [|done]].
           ++ intros l. rewrite S1, M, elem_of_cons. split; [|tauto]. intros [[?| ->]|?]; [auto|right; split; [auto|done]|tauto].
           ++ intros l [->|Hl]%elem_of_cons; [now right|auto].
Qed.

Lemma scan_nil n a c : length a = n -> in_range n c ->
  exists r, scan a [] c = Some r /\
    match r with
    | Satisfied => (exists l, l ∈ c /\ is_t a l) \/ (exists l, l ∈ c /\ negated l ∈ c /\ is_u a l)
    | Unset vs => NoDup vs /\ (forall l, l ∈ vs <-> l ∈ c /\ is_u a l) /\ (forall l, l ∈ c -> is_f a l \/ is_u a l) /\
        (forall l, l ∈ vs -> negated l ∉ vs)
    end.
Proof.
  intros La R. destruct (scan_ok n c a [] La R) as (r & E & S); [constructor|intros l H; now apply elem_of_nil in H|].
  exists r. split; [done|]. destruct r as [|vs]; [exact S|]. destruct S as (? & S1 & ? & ?). repeat split; try done.
  - apply S1 in H2. rewrite elem_of_nil in H2. tauto.
  - apply S1 in H2. rewrite elem_of_nil in H2. tauto.
  - intros H2. apply S1. auto.
Qed.

(** ** Unit propagation as a derivation system (the specification) *)
Inductive derived db (start : lit -> Prop) : lit -> Prop :=
| d_start l : start l -> derived db start l
| d_unit c l : c ∈ db -> l ∈ c -> (forall k, k ∈ c -> k <> l -> derived db start (negated k)) -> derived db start l.
(** Unit propagation reaches a contradiction: a clause with all literals refuted, or a literal
    derived together with its negation. *)
Definition contradiction db (start : lit -> Prop) : Prop :=
  (exists c, c ∈ db /\ forall l, l ∈ c -> derived db start (negated l)) \/
  (exists l, derived db start l /\ derived db start (negated l)).

(** An assignment closed under propagation contains every derived literal. *)
Definition closed db a : Prop :=
  forall c, c ∈ db -> (exists l, l ∈ c /\ is_t a l) \/ (exists l, l ∈ c /\ negated l ∈ c /\ is_u a l) \/
    (exists l k, l ∈ c /\ k ∈ c /\ l <> k /\ is_u a l /\ is_u a k).

Lemma closed_derived n db a start : length a = n -> db_in_range n db -> closed db a -> (forall l, start l -> is_t a l) ->
  forall l, derived db start l -> is_t a l.
Proof.
  intros La R C S l H. induction H as [l Hl|c l Hc Hl Hk IH]; [auto|].
  assert (F : forall k, k ∈ c -> k <> l -> is_f a k) by (intros k Hk1 Hk2; apply is_t_neg; auto).
  destruct (C c Hc) as [(k & K1 & K2)|[(k & K1 & K2 & K3)|(j & k & J & K & N & Uj & Uk)]].
  - destruct (decide (k = l)) as [->|N]; [done|]. specialize (F k K1 N). unfold is_f, is_t in *. congruence.
  - assert (X : k = l \/ negated k <> l) by (destruct (decide (k = l)); [auto|right; intros E; specialize (F k K1 n0); unfold is_f, is_u in *; congruence]).
    destruct X as [->|X].
    + specialize (F (negated l) K2 (negated_ne l)). now apply is_f_neg in F.
    + specialize (F (negated k) K2 X). apply is_f_neg in F. unfold is_t, is_u in *. congruence.
  - destruct (decide (j = l)) as [->|Nj].
    + specialize (F k K (fun E => N (eq_sym E))). unfold is_f, is_u in *. congruence.
    + specialize (F j J Nj). unfold is_f, is_u in *. congruence.
Qed.
Lemma closed_no_conflict n db a start : length a = n -> db_in_range n db -> closed db a -> (forall l, start l -> is_t a l) ->
  ~ contradiction db start.
Proof.
  intros La R C S [(c & Hc & H)|(l & H1 & H2)].
  - assert (F : forall k, k ∈ c -> is_f a k) by (intros k Hk; apply is_t_neg, (closed_derived n db a start); auto).
    destruct (C c Hc) as [(k & K1 & K2)|[(k & K1 & K2 & K3)|(j & k & J & K & N & Uj & Uk)]];
      [specialize (F k K1)|specialize (F k K1)|specialize (F k K)]; unfold is_f, is_t, is_u in *; congruence.
  - apply (closed_derived n db a start La R C S) in H1, H2. apply is_t_neg in H2. unfold is_f, is_t in *. congruence.
Qed.

(** ** One pass *)
Lemma pass_ok n db0 start db : forall a ch, length a = n -> db_in_range n db -> (forall c, c ∈ db -> c ∈ db0) ->
  (forall l, is_t a l -> derived db0 start l) ->
  exists r, pass a ch db = Some r /\
    match r with
    | Conflict => contradiction db0 start
    | Next a' ch' => length a' = n /\ (forall l, is_t a l -> is_t a' l) /\ (forall l, is_t a' l -> derived db0 start l) /\
        (open_vars a' <= open_vars a)%nat /\ (ch = true -> ch' = true) /\
        (ch = false -> ch' = true -> (open_vars a' < open_vars a)%nat) /\
        (ch' = false -> a' = a /\ closed db a)
    end.
Proof.
  induction db as [|c db IH]; intros a ch La R Sub T; cbn [pass].
  - eexists. split; [reflexivity|]. repeat split; auto; [congruence|]. intros c Hc. now apply elem_of_nil in Hc.
  - assert (Rc : in_range n c) by (apply R; left). assert (Rd : db_in_range n db) by (intros d Hd; apply R; now right).
    assert (Sd : forall d, d ∈ db -> d ∈ db0) by (intros d Hd; apply Sub; now right).
    assert (Hc0 : c ∈ db0) by (apply Sub; left).
    assert (CL : forall a', (exists l, l ∈ c /\ is_t a' l) \/ (exists l, l ∈ c /\ negated l ∈ c /\ is_u a' l) \/
        (exists l k, l ∈ c /\ k ∈ c /\ l <> k /\ is_u a' l /\ is_u a' k) -> closed db a' -> closed (c :: db) a').
    { intros a' H1 H2 d [->|Hd]%elem_of_cons; auto. }
    destruct (scan_nil n a c La Rc) as (r & E & S). rewrite E. destruct r as [|vs].
    + destruct (IH a ch La Rd Sd T) as (r & Er & Sr). exists r. split; [done|]. destruct r as [|a' ch']; [done|].
      destruct Sr as (A1 & A2 & A3 & A4 & A5 & A6 & A7). repeat split; auto.
      * now destruct (A7 H).
      * destruct (A7 H) as [-> Cl]. apply CL; [tauto|done].
    + destruct S as (Nv & S1 & S2 & S3). destruct vs as [|l [|l2 vs]].
      * eexists. split; [reflexivity|]. left. exists c. split; [done|]. intros l Hl. apply T, is_t_neg.
        destruct (S2 l Hl) as [?|U]; [done|]. exfalso. assert (H : l ∈ []) by (apply S1; auto). now apply elem_of_nil in H.
      * destruct (proj1 (S1 l) (elem_of_list_here _ _)) as [Lc U].
        assert (Lr : (lvar l < length a)%nat) by (rewrite La; now apply Rc).
        unfold set_true. unfold is_u in U. rewrite U.
        assert (D : derived db0 start l).
        { apply (d_unit db0 start c l Hc0 Lc). intros k Hk Nk. apply T, is_t_neg. destruct (S2 k Hk) as [?|Uk]; [done|].
          exfalso. apply Nk. assert (H : k ∈ [l]) by (apply S1; auto). now apply elem_of_list_singleton in H. }
        destruct (IH (<[lvar l := Some (lpos l)]> a) true) as (r & Er & Sr).
        { now rewrite insert_length. } { done. } { done. }
        { intros k. rewrite set_true_t by done. intros [->|Hk]; auto. }
        exists r. split; [done|]. destruct r as [|a' ch']; [done|]. destruct Sr as (A1 & A2 & A3 & A4 & A5 & A6 & A7).
        assert (O : a !! lvar l = Some None).
        { unfold lit_val in U. destruct (a !! lvar l) as [[]|]; done. }
        destruct (open_vars_set a (lvar l) (lpos l) O) as [O1 O2].
        repeat split; auto.
        -- intros k Hk. apply A2, set_true_t; auto.
        -- lia.
        -- intros _ _. lia.
        -- rewrite (A5 eq_refl) in H. discriminate.
        -- rewrite (A5 eq_refl) in H. discriminate.
      * destruct (IH a ch La Rd Sd T) as (r & Er & Sr). exists r. split; [done|]. destruct r as [|a' ch']; [done|].
        destruct Sr as (A1 & A2 & A3 & A4 & A5 & A6 & A7). repeat split; auto.
        -- now destruct (A7 H).
        -- destruct (A7 H) as [-> Cl]. apply CL; [|done]. right. right. exists l, l2.
           apply NoDup_cons in Nv. destruct Nv as [Nv _].
           destruct (proj1 (S1 l) ltac:(left)) as [? ?]. destruct (proj1 (S1 l2) ltac:(right; left)) as [? ?].
           repeat split; auto. intros ->. apply Nv. left.
Qed.

Lemma propagate_steps_ok n db start : forall m a, length a = n -> db_in_range n db -> (open_vars a < m)%nat ->
  (forall l, is_t a l -> derived db start l) -> (forall l, start l -> is_t a l) ->
  exists b, propagate_steps m db a = Some b /\ (b = true <-> contradiction db start).
Proof.
  induction m as [|m IH]; intros a La R O T S; [lia|]. cbn [propagate_steps].
  destruct (pass_ok n db start db a false La R (fun c H => H) T) as (r & E & P). rewrite E.
  destruct r as [|a' ch']; [exists true; done|]. destruct P as (A1 & A2 & A3 & A4 & A5 & A6 & A7). destruct ch'.
  - apply IH; auto. specialize (A6 eq_refl eq_refl). lia.
  - exists false. split; [done|]. split; [discriminate|]. intros C. exfalso. destruct (A7 eq_refl) as [-> Cl].
    exact (closed_no_conflict n db a start La R Cl S C).
Qed.

Lemma propagate_ok n db a start : length a = n -> db_in_range n db ->
  (forall l, is_t a l -> derived db start l) -> (forall l, start l -> is_t a l) ->
  exists b, propagate db a = Some b /\ (b = true <-> contradiction db start).
Proof. intros La R T S. apply (propagate_steps_ok n); auto. pose proof (open_vars_le a). lia. Qed.

(** The starting point: the negations of the clause's literals. *)
Definition neg_of c (l : lit) : Prop := negated l ∈ c.

Lemma assume_ok n db c0 c : forall a, length a = n -> in_range n c -> (forall l, l ∈ c -> l ∈ c0) ->
  (forall l, is_t a l -> neg_of c0 l) -> (forall l, l ∈ c0 -> l ∈ c \/ is_t a (negated l)) ->
  exists r, assume_neg a c = Some r /\
    match r with
    | None => contradiction db (neg_of c0)
    | Some a' => length a' = n /\ (forall l, is_t a' l <-> neg_of c0 l)
    end.
Proof.
  induction c as [|k c IH]; intros a La R Sub T D; cbn [assume_neg].
  - eexists. split; [reflexivity|]. split; [done|]. intros l. split; [auto|]. intros H. destruct (D _ H) as [N|H']; [now apply elem_of_nil in N|].
    now rewrite negated_invol in H'.
  - assert (Rk : (lvar (negated k) < length a)%nat) by (rewrite La; cbn; apply R; left).
    assert (Rc : in_range n c) by (intros l Hl; apply R; now right).
    assert (Kc : neg_of c0 (negated k)) by (unfold neg_of; rewrite negated_invol; apply Sub; left).
    unfold set_true. destruct (val_total a _ Rk) as [V|[V|V]]; unfold is_t, is_f, is_u in V; rewrite V.
    + apply IH; auto.
      * intros l Hl. apply Sub. now right.
      * intros l Hl. destruct (D l Hl) as [[->|?]%elem_of_cons|?]; auto.
    + eexists. split; [reflexivity|]. right. exists k. split; [|apply d_start; done]. apply d_start. apply T. now apply is_f_neg.
    + destruct (IH (<[lvar (negated k) := Some (lpos (negated k))]> a)) as (r & E & S).
      * now rewrite insert_length.
      * done.
      * intros l Hl. apply Sub. now right.
      * intros l. rewrite set_true_t by done. intros [->|?]; auto.
      * intros l Hl. rewrite set_true_t by done. destruct (D l Hl) as [[->|?]%elem_of_cons|?]; auto.
      * exists r. auto.
Qed.

Lemma is_rup_ok n db c : db_in_range n db -> in_range n c ->
  exists b, is_rup n db c = Some b /\ (b = true <-> contradiction db (neg_of c)).
Proof.
  intros R Rc. unfold is_rup.
  destruct (assume_ok n db c c (replicate n None)) as (r & E & S).
  - apply replicate_length.
  - done.
  - done.
  - intros l. unfold is_t, lit_val. destruct (replicate n None !! lvar l) as [o|] eqn:X; [|discriminate].
    apply lookup_replicate in X as [-> _]. discriminate.
  - auto.
  - rewrite E. destruct r as [a|]; [|exists true; done]. destruct S as [La S].
    apply (propagate_ok n); auto.
    + intros l Hl. apply d_start. now apply S.
    + intros l Hl. now apply S.
Qed.

(** ** Semantics *)
Definition lit_true (f : nat -> bool) l : Prop := f (lvar l) = lpos l.
Definition clause_true f c : Prop := exists l, l ∈ c /\ lit_true f l.
Definition satisfies f db : Prop := forall c, c ∈ db -> clause_true f c.

Lemma lit_true_neg f l : lit_true f (negated l) <-> ~ lit_true f l.
Proof. unfold lit_true. destruct l as [v s]. cbn. destruct (f v), s; cbn; intuition congruence. Qed.
Lemma lit_true_dec f l : lit_true f l \/ lit_true f (negated l).
Proof. unfold lit_true. destruct l as [v s]. cbn. destruct (f v), s; cbn; auto. Qed.

Lemma derived_sound f db start : satisfies f db -> (forall l, start l -> lit_true f l) -> forall l, derived db start l -> lit_true f l.
Proof.
  intros Sat S l H. induction H as [l Hl|c l Hc Hl Hk IH]; [auto|].
  destruct (Sat c Hc) as (k & K1 & K2). destruct (decide (k = l)) as [->|N]; [done|].
  specialize (IH k K1 N). now apply lit_true_neg in IH.
Qed.
Lemma contradiction_sound f db start : satisfies f db -> (forall l, start l -> lit_true f l) -> ~ contradiction db start.
Proof.
  intros Sat S [(c & Hc & H)|(l & H1 & H2)].
  - destruct (Sat c Hc) as (k & K1 & K2). specialize (H k K1). apply (derived_sound f db start Sat S) in H. now apply lit_true_neg in H.
  - apply (derived_sound f db start Sat S) in H1, H2. now apply lit_true_neg in H2.
Qed.

Lemma rup_sound f db c : contradiction db (neg_of c) -> satisfies f db -> clause_true f c.
Proof.
  intros C Sat. destruct (List.Exists_dec (lit_true f) c (fun l => bool_eq_dec (f (lvar l)) (lpos l))) as [E|E].
  - apply Exists_exists in E. destruct E as (l & Hl & T). exists l. auto.
  - exfalso. apply (contradiction_sound f db (neg_of c) Sat); [|done]. intros l Hl. destruct (lit_true_dec f l) as [?|H]; [done|].
    exfalso. apply E, Exists_exists. exists (negated l). auto.
Qed.

End rup.
