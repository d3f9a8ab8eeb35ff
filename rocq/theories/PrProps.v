(** C73: the propagation-redundancy checker preserves satisfiability. *)
From Coq Require Import List Arith Bool Lia.
From stdpp Require Import list list_numbers sorting.
From Verif Require Import RupModel RupProofs RupProps PrModel PrProofs PrIndex.

(** A clause accepted with a witness of either kind may remove models, but not the last one. *)
Theorem C73_step_sound n db c w : is_pr n db c w = Some true -> (exists f, satisfies f db) -> exists f, satisfies f (db ++ [c]).
Proof.
  intros H [f Sat]. assert (forall g, satisfies g db -> clause_true g c -> satisfies g (db ++ [c])) as Add.
  { intros g Sg T d Hd. apply elem_of_app in Hd as [Hd | Hd]; [exact (Sg d Hd) |]. apply elem_of_list_singleton in Hd as ->. exact T. }
  destruct (clause_true_dec f c) as [T | N]; [exists f; apply Add; assumption |]. destruct w as [ls | s]; cbn [is_pr] in H.
  - unfold assignment_pr in H. destruct (assume (replicate n None) ls) as [[omega |] |]; try discriminate. destruct (any_true omega c) as [[] |] eqn:A; try discriminate. exists (override omega f). apply Add.
    + intros d Hd. exact (obligations_sound n db c omega f db Sat N H d Hd).
    + destruct (any_true_spec omega c A) as (l & Hl & T). exists l. split; [exact Hl | apply override_true; exact T].
  - unfold substitution_sr in H. destruct (perm_is_automorphism db s) as [[] |] eqn:A; try discriminate. destruct (apply_clause s c) as [d |] eqn:E; [| discriminate]. exists (pull s f). apply Add.
    + apply automorphism_models; assumption.
    + apply (pull_clause s f c d E). exact (up_conflict_neg n db c d f H Sat N).
Qed.
(** An accepted refutation, with deletions and any witnesses, means that the original clauses
    have no model. *)
Theorem C73_refutation_sound n original steps : check_pr_refutation n original steps = Some true -> ~ exists f, satisfies f original.
Proof.
  revert original. induction steps as [| st steps IH]; intros db H Sat; cbn [check_pr_refutation] in H.
  - destruct Sat as [f Sat]. destruct (C37_step_sound n db [] f H Sat) as (l & Hl & _). apply elem_of_nil in Hl. contradiction.
  - destruct st as [c | c w | c].
    + destruct (is_rup n db c) as [[] |] eqn:E; try discriminate. apply (IH (db ++ [c]) H). destruct Sat as [f Sat]. exists f. intros d Hd. apply elem_of_app in Hd as [Hd | Hd]; [exact (Sat d Hd) |].
      apply elem_of_list_singleton in Hd as ->. exact (C37_step_sound n db c f E Sat).
    + destruct (is_pr n db c w) as [[] |] eqn:E; try discriminate. apply (IH (db ++ [c]) H). exact (C73_step_sound n db c w E Sat).
    + apply (IH _ H). destruct Sat as [f Sat]. exists f. intros d Hd. apply Sat, (delete_sub c db d Hd).
Qed.
(** The accelerated checker gives the verdict of the plain one. *)
Theorem C73_fast_agrees n original steps : db_in_range n original -> Forall (step_in_range n) steps ->
  check_pr_refutation_fast n original steps = check_pr_refutation n original steps.
Proof.
  intros R F. unfold check_pr_refutation_fast. destruct (existsb is_delete steps) eqn:D; [reflexivity |].
  destruct (index_inserts_ok n original (index_new n) (index_new_ok n) R) as (ix & E & X & C). rewrite E. cbn in C. rewrite <- C. exact (check_fast_eq n steps D F ix X).
Qed.

(** ** What exactly is accepted *)
Lemma any_true_total n w c : length w = n -> in_range n c -> exists b, any_true w c = Some b /\ (b = true <-> exists l, l ∈ c /\ is_t w l).
Proof.
  intros L. induction c as [| k c IH]; intros R; cbn [any_true].
  - exists false. split; [reflexivity |]. split; [discriminate |]. intros (l & Hl & _). apply elem_of_nil in Hl. contradiction.
  - assert ((lvar k < length w)%nat) as Lk by (rewrite L; apply R; left). destruct IH as (b & E & H); [intros l Hl; apply R; right; exact Hl |].
    assert (lit_val w k <> Some (Some true) -> any_true w c = Some b /\ (b = true <-> exists l, l ∈ k :: c /\ is_t w l)) as G.
    { intros N. split; [exact E |]. rewrite H. split; intros (l & Hl & T); exists l; (split; [| exact T]); [right; exact Hl |]. apply elem_of_cons in Hl as [-> | Hl]; [contradiction | exact Hl]. }
    destruct (val_total w k Lk) as [V | [V | V]]; unfold is_t, is_f, is_u in V; rewrite V.
    + exists true. split; [reflexivity |]. split; [| reflexivity]. intros _. exists k. split; [left | exact V].
    + exists b. apply G. congruence.
    + exists b. apply G. congruence.
Qed.
Lemma assume_lits n ls : in_range n ls -> exists r, assume (replicate n None) ls = Some r /\
  match r with None => exists l, l ∈ ls /\ negated l ∈ ls | Some w => length w = n /\ (forall l, is_t w l <-> l ∈ ls) end.
Proof.
  intros R. rewrite assume_negated. assert (forall l, is_t (replicate n None) l -> False) as Em.
  { intros l Hl. unfold is_t, lit_val in Hl. destruct (replicate n None !! lvar l) as [o |] eqn:E; [| discriminate]. apply lookup_replicate in E as [-> _]. discriminate. }
  destruct (assume_ok n [] (map negated ls) (map negated ls) (replicate n None)) as (r & E & P).
  - apply replicate_length.
  - apply in_range_negated, R.
  - auto.
  - intros l Hl. destruct (Em l Hl).
  - auto.
  - exists r. split; [exact E |]. destruct r as [w |].
    + destruct P as [P1 P2]. split; [exact P1 |]. intros l. rewrite P2. apply neg_of_negated.
    + assert (forall l, derived [] (neg_of (map negated ls)) l -> l ∈ ls) as Dv.
      { intros l H. destruct H as [l Hl | c l Hc Hl Hk]; [apply neg_of_negated; exact Hl | apply elem_of_nil in Hc; contradiction]. }
      destruct P as [(c & Hc & _) | (l & P1 & P2)]; [apply elem_of_nil in Hc; contradiction |]. exists l. auto.
Qed.
(** [l] is not decided by the literals [ls]. *)
Definition undecided (ls : list lit) (l : lit) : Prop := l ∉ ls /\ negated l ∉ ls.
(** With an assignment witness: the witness is consistent, satisfies the clause, and every clause
    it does not satisfy follows by unit propagation, restricted to what the witness leaves open,
    from the database and the negated clause. *)
Theorem C73_assignment_exact n db c ls : db_in_range n db -> in_range n c -> in_range n ls ->
  exists b, is_pr n db c (WAssignment ls) = Some b /\
    (b = true <-> (forall l, l ∈ ls -> negated l ∉ ls) /\ (exists l, l ∈ c /\ l ∈ ls) /\
       forall d, d ∈ db -> (exists l, l ∈ d /\ l ∈ ls) \/ contradiction db (fun l => negated l ∈ c \/ (negated l ∈ d /\ undecided ls l))).
Proof.
  intros R Rc Rl. cbn [is_pr]. unfold assignment_pr. destruct (assume_lits n ls Rl) as (r & E & P). rewrite E. destruct r as [w |].
  2: { exists false. split; [reflexivity |]. split; [discriminate |]. intros (C & _). destruct P as (l & P1 & P2). destruct (C l P1 P2). }
  destruct P as [Lw Tw]. assert (forall l, l ∈ ls -> negated l ∉ ls) as Cons.
  { intros l H1 H2. apply Tw in H1, H2. apply is_t_neg in H2. unfold is_t, is_f in *. congruence. }
  assert (forall l, (lvar l < n)%nat -> is_u w l <-> undecided ls l) as Und.
  { intros l Ll. unfold undecided. rewrite <- !Tw, is_t_neg. destruct (val_total w l ltac:(lia)) as [V | [V | V]]; unfold is_t, is_f, is_u in *; rewrite V; intuition congruence. }
  assert (forall d, in_range n d -> exists b, any_true w d = Some b /\ (b = true <-> exists l, l ∈ d /\ l ∈ ls)) as Any.
  { intros d Rd. destruct (any_true_total n w d Lw Rd) as (b & Eb & Hb). exists b. split; [exact Eb |]. rewrite Hb. split; intros (l & Hl & T); exists l; (split; [exact Hl | apply Tw; exact T]). }
  destruct (Any c Rc) as (b & Eb & Hb). rewrite Eb. destruct b.
  2: { exists false. split; [reflexivity |]. split; [discriminate |]. intros (_ & K & _). apply Hb in K. discriminate. }
  assert (forall todo, db_in_range n todo -> exists b, obligations n db c w todo = Some b /\
    (b = true <-> forall d, d ∈ todo -> (exists l, l ∈ d /\ l ∈ ls) \/ contradiction db (fun l => negated l ∈ c \/ (negated l ∈ d /\ undecided ls l)))) as Ob.
  { induction todo as [| d todo IH]; intros Rt; cbn [obligations]; [exists true; split; [reflexivity |]; split; [| reflexivity]; intros _ d Hd; apply elem_of_nil in Hd; contradiction |].
    assert (in_range n d) as Rd by (apply Rt; left). destruct IH as (b & Eb' & Hb'); [intros e He; apply Rt; right; exact He |]. destruct (Any d Rd) as (b1 & E1 & H1). rewrite E1.
    assert (in_range n (unassigned w d)) as Ru by (intros l Hl; apply unassigned_elem in Hl as [Hl _]; exact (Rd l Hl)).
    destruct (up_conflict_ok n db (map negated c ++ map negated (unassigned w d)) R (assumptions_in_range n _ _ Rc Ru)) as (b2 & E2 & H2).
    assert (contradiction db (fun l => l ∈ map negated c ++ map negated (unassigned w d)) <-> contradiction db (fun l => negated l ∈ c \/ (negated l ∈ d /\ undecided ls l))) as Eq.
    { assert (forall l, l ∈ map negated c ++ map negated (unassigned w d) <-> negated l ∈ c \/ (negated l ∈ d /\ undecided ls l)) as El.
      { intros l. rewrite elem_of_app. assert (forall k, l ∈ map negated k <-> negated l ∈ k) as Mn.
        { intros k. rewrite <- neg_of_negated. unfold neg_of. rewrite map_map. rewrite (map_ext _ id) by (intros x; apply negated_invol). rewrite map_id. reflexivity. }
        rewrite !Mn, unassigned_elem, is_u_neg. split; intros [K | [K1 K2]]; auto; right; (split; [exact K1 |]); specialize (Und l (Rd _ K1)); apply Und; exact K2. }
      split; apply contradiction_mono; auto; intros l; apply El. }
    destruct b1.
    - exists b. split; [exact Eb' |]. rewrite Hb'. split; intros K e He; [| apply K; right; exact He]. apply elem_of_cons in He as [-> | He]; [left; apply H1; reflexivity | auto].
    - rewrite E2. destruct b2.
      + exists b. split; [exact Eb' |]. rewrite Hb'. split; intros K e He; [| apply K; right; exact He]. apply elem_of_cons in He as [-> | He]; [right; apply Eq, H2; reflexivity | auto].
      + exists false. split; [reflexivity |]. split; [discriminate |]. intros K. destruct (K d (elem_of_list_here _ _)) as [K' | K']; [apply H1 in K'; discriminate | apply Eq, H2 in K'; discriminate]. }
  destruct (Ob db R) as (b & Eo & Ho). exists b. split; [exact Eo |]. rewrite Ho. split; [intros K | intros (_ & _ & K); exact K]. split; [exact Cons |]. split; [apply Hb; reflexivity | exact K].
Qed.
(** The image of every clause is, as a set of literals, in the database. *)
Definition maps_into (s : perm) (db : list clause) : Prop := forall c d, c ∈ db -> apply_clause s c = Some d -> exists e, e ∈ db /\ same_lits e d.
Lemma into_iff n s db : length s = n -> db_in_range n db -> maps_into s db <-> forall c, c ∈ db -> touches s c -> present s db c.
Proof.
  intros L R. split.
  - intros H c Hc _. destruct (apply_clause_total s c) as [d Ed]; [rewrite L; exact (R c Hc) |]. destruct (H c d Hc Ed) as (e & He & Se). exists d, e. auto.
  - intros H c d Hc Ed. destruct (existsb (fun l => moved s (lvar l)) c) eqn:T.
    + apply touches_iff in T. destruct (H c Hc T) as (d' & e & Ed' & He & Se). assert (d' = d) as -> by congruence. exists e. auto.
    + exists c. split; [exact Hc |]. destruct (apply_clause_elem s c d Ed) as [A B]. assert (forall l, l ∈ c -> apply_lit s l = Some l) as Fx.
      { intros l Hl. apply apply_fixed; [| rewrite L; exact (R c Hc l Hl)]. destruct (moved s (lvar l)) eqn:M; [| reflexivity]. rewrite <- T. symmetry. apply touches_iff. exists l. auto. }
      intros l. split.
      * intros Hl. destruct (A l Hl) as (k & Ek & Hk). rewrite (Fx l Hl) in Ek. congruence.
      * intros Hl. destruct (B l Hl) as (k & Hk & Ek). rewrite (Fx k Hk) in Ek. congruence.
Qed.
(** With a substitution witness: the substitution maps the clauses into the clauses, and its image
    of the clause follows by unit propagation from the database and the negated clause. *)
Theorem C73_substitution_exact n db c s : db_in_range n db -> in_range n c -> length s = n -> in_range n s ->
  exists b d, is_pr n db c (WSubstitution s) = Some b /\ apply_clause s c = Some d /\
    (b = true <-> maps_into s db /\ contradiction db (fun l => negated l ∈ c \/ negated l ∈ d)).
Proof.
  intros R Rc L Rs. cbn [is_pr]. unfold substitution_sr. destruct (apply_clause_total s c) as [d Ed]; [rewrite L; exact Rc |]. destruct (automorphism_ok n db s R L) as (b1 & E1 & H1). rewrite E1.
  rewrite <- (into_iff n s db L R) in H1. destruct b1.
  - rewrite Ed. destruct (up_conflict_ok n db (map negated c ++ map negated d) R (assumptions_in_range n _ _ Rc (apply_in_range n s c d L Rs Ed))) as (b2 & E2 & H2). exists b2, d. split; [exact E2 |]. split; [reflexivity |].
    rewrite H2. assert (forall l, l ∈ map negated c ++ map negated d <-> negated l ∈ c \/ negated l ∈ d) as El.
    { intros l. rewrite elem_of_app. assert (forall k, l ∈ map negated k <-> negated l ∈ k) as Mn; [| rewrite !Mn; reflexivity].
      intros k. rewrite <- neg_of_negated. unfold neg_of. rewrite map_map. rewrite (map_ext _ id) by (intros x; apply negated_invol). rewrite map_id. reflexivity. }
    split; [intros K; split; [apply H1; reflexivity |] | intros [_ K]]; revert K; apply contradiction_mono; auto; intros l; apply El.
  - exists false, d. split; [reflexivity |]. split; [exact Ed |]. split; [discriminate |]. intros [K _]. apply H1 in K. discriminate.
Qed.

(** ** Automorphisms *)
Definition injective (s : perm) : Prop := forall l k m, apply_lit s l = Some m -> apply_lit s k = Some m -> l = k.
Lemma representatives (cs : list clause) : exists rs, (forall r, r ∈ rs -> r ∈ cs) /\ NoDup (map clause_key rs) /\ forall c, c ∈ cs -> exists r, r ∈ rs /\ same_lits r c.
Proof.
  induction cs as [| c cs IH]; [exists []; split; [auto |]; split; [constructor |]; intros c Hc; apply elem_of_nil in Hc; contradiction |]. destruct IH as (rs & A & B & C).
  destruct (decide (clause_key c ∈ map clause_key rs)) as [I | N].
  - exists rs. split; [intros r Hr; right; auto |]. split; [exact B |]. intros d Hd. apply elem_of_cons in Hd as [-> | Hd]; [| auto]. apply elem_of_list_In, in_map_iff in I as (r & E & Hr). exists r. split; [apply elem_of_list_In; exact Hr | apply key_iff; exact E].
  - exists (c :: rs). split; [intros r Hr; apply elem_of_cons in Hr as [-> | Hr]; [left | right; auto] |]. split; [constructor; assumption |]. intros d Hd. apply elem_of_cons in Hd as [-> | Hd]; [exists c; split; [left | intros l; reflexivity] |].
    destruct (C d Hd) as (r & Hr & S). exists r. split; [right; exact Hr | exact S].
Qed.
Lemma image_same s c d c' d' : apply_clause s c = Some d -> apply_clause s c' = Some d' -> same_lits c c' -> same_lits d d'.
Proof.
  intros E E' S. destruct (apply_clause_elem s c d E) as [A B], (apply_clause_elem s c' d' E') as [A' B']. intros k. split; intros H.
  - destruct (B k H) as (l & Hl & El). apply S in Hl. destruct (A' l Hl) as (k' & Ek & Hk). congruence.
  - destruct (B' k H) as (l & Hl & El). apply S in Hl. destruct (A l Hl) as (k' & Ek & Hk). congruence.
Qed.
Lemma same_image s c d c' d' : injective s -> apply_clause s c = Some d -> apply_clause s c' = Some d' -> same_lits d d' -> same_lits c c'.
Proof.
  intros I E E' S. destruct (apply_clause_elem s c d E) as [A B], (apply_clause_elem s c' d' E') as [A' B']. intros l. split; intros H.
  - destruct (A l H) as (k & Ek & Hk). apply S in Hk. destruct (B' k Hk) as (l' & Hl & El). rewrite (I l l' k Ek El). exact Hl.
  - destruct (A' l H) as (k & Ek & Hk). apply S in Hk. destruct (B k Hk) as (l' & Hl & El). rewrite (I l l' k Ek El). exact Hl.
Qed.
Lemma same_trans a b c : same_lits a b -> same_lits b c -> same_lits a c.
Proof. intros A B l. rewrite (A l). apply B. Qed.
Lemma same_sym a b : same_lits a b -> same_lits b a.
Proof. intros A l. symmetry. apply A. Qed.
(** For an injective literal map the check decides that the clauses are mapped onto themselves. *)
Theorem C73_automorphism n db s : db_in_range n db -> length s = n -> injective s ->
  perm_is_automorphism db s = Some true <->
  (forall c d, c ∈ db -> apply_clause s c = Some d -> exists e, e ∈ db /\ same_lits e d) /\ (forall e, e ∈ db -> exists c d, c ∈ db /\ apply_clause s c = Some d /\ same_lits e d).
Proof.
  intros R L I. destruct (automorphism_ok n db s R L) as (b & E & H). rewrite E. rewrite <- (into_iff n s db L R) in H. split.
  - intros [= ->]. assert (maps_into s db) as M by (apply H; reflexivity). split; [exact M |]. destruct (representatives db) as (rs & A & B & C).
    set (g := fun c => clause_key (default [] (apply_clause s c))). assert (forall c, c ∈ db -> exists d, apply_clause s c = Some d /\ g c = clause_key d) as Gd.
    { intros c Hc. destruct (apply_clause_total s c) as [d Ed]; [rewrite L; exact (R c Hc) |]. exists d. split; [exact Ed |]. unfold g. rewrite Ed. reflexivity. }
    assert (List.NoDup (map g rs)) as Ng.
    { apply NoDup_ListNoDup. apply (NoDup_fmap_2_strong g); [| apply (NoDup_fmap_1 clause_key); exact B]. intros c c' Hc Hc' Eg. destruct (Gd c (A c Hc)) as (d & Ed & Kd), (Gd c' (A c' Hc')) as (d' & Ed' & Kd').
      assert (clause_key c = clause_key c') as K by (apply key_iff; apply (same_image s c d c' d' I Ed Ed'); apply key_iff; congruence).
      apply elem_of_list_lookup in Hc as [i Hi], Hc' as [j Hj]. assert (i = j) as ->; [| congruence]. apply (NoDup_lookup (map clause_key rs) i j (clause_key c)); [exact B | |].
      - change (map clause_key rs) with (clause_key <$> rs). rewrite list_lookup_fmap, Hi. reflexivity.
      - change (map clause_key rs) with (clause_key <$> rs). rewrite list_lookup_fmap, Hj, K. reflexivity. }
    assert (incl (map g rs) (map clause_key rs)) as In1.
    { intros k Hk. apply in_map_iff in Hk as (c & <- & Hc). apply elem_of_list_In in Hc. destruct (Gd c (A c Hc)) as (d & Ed & Kd). destruct (M c d (A c Hc) Ed) as (e & He & Se). destruct (C e He) as (r & Hr & Sr).
      apply in_map_iff. exists r. split; [| apply elem_of_list_In; exact Hr]. rewrite Kd. apply key_iff, (same_trans _ e); assumption. }
    assert (incl (map clause_key rs) (map g rs)) as In2 by (apply List.NoDup_length_incl; [exact Ng | rewrite !map_length; lia | exact In1]).
    intros e He. destruct (C e He) as (r & Hr & Sr). assert (In (clause_key r) (map g rs)) as K by (apply In2, in_map, elem_of_list_In, Hr). apply in_map_iff in K as (c & Ec & Hc). apply elem_of_list_In in Hc.
    destruct (Gd c (A c Hc)) as (d & Ed & Kd). exists c, d. split; [exact (A c Hc) |]. split; [exact Ed |]. apply (same_trans _ r); [apply same_sym; exact Sr | apply key_iff; congruence].
  - intros [M _]. apply H in M. rewrite M. reflexivity.
Qed.
(** Injectivity is not checked: a map that identifies variables passes although it maps the
    clauses only into, not onto, themselves (acceptance stays sound: [C73_step_sound]). *)
Theorem C73_automorphism_refuted : exists n db s, db_in_range n db /\ length s = n /\ in_range n s /\ perm_is_automorphism db s = Some true /\
  ~ forall e, e ∈ db -> exists c d, c ∈ db /\ apply_clause s c = Some d /\ same_lits e d.
Proof.
  exists 2%nat, [[Lit 0 true]; [Lit 1 true]], [Lit 1 true; Lit 1 true]. split; [| split; [reflexivity | split; [| split; [vm_compute; reflexivity |]]]].
  - intros c Hc l Hl. repeat (apply elem_of_cons in Hc as [-> | Hc]; [apply elem_of_list_singleton in Hl as ->; cbn; lia |]). apply elem_of_nil in Hc. contradiction.
  - intros l Hl. repeat (apply elem_of_cons in Hl as [-> | Hl]; [cbn; lia |]). apply elem_of_nil in Hl. contradiction.
  - intros H. destruct (H [Lit 0 true] (elem_of_list_here _ _)) as (c & d & Hc & Ed & S). repeat (apply elem_of_cons in Hc as [-> | Hc]; [injection Ed as <-; specialize (S (Lit 0 true)); rewrite !elem_of_list_singleton in S; destruct S as [S _]; discriminate (S eq_refl) |]).
    apply elem_of_nil in Hc. contradiction.
Qed.
(** The accelerated check claims the verdict of [is_pr]; on a permutation given for fewer variables
    than the formula has it panics. *)
Theorem C73_fast_refuted : exists n db c s, db_in_range n db /\ in_range n c /\ is_pr n db c (WSubstitution s) = Some true /\ check_pr_refutation_fast n db [SPr c (WSubstitution s)] = None /\
  check_pr_refutation n db [SPr c (WSubstitution s)] = Some false.
Proof.
  exists 3%nat, [[Lit 0 true; Lit 1 true]], [Lit 0 false; Lit 1 true], [Lit 1 true; Lit 0 true]. split; [| split; [| vm_compute; repeat split; reflexivity]].
  - intros c Hc l Hl. apply elem_of_list_singleton in Hc as ->. repeat (apply elem_of_cons in Hl as [-> | Hl]; [cbn; lia |]). apply elem_of_nil in Hl. contradiction.
  - intros l Hl. repeat (apply elem_of_cons in Hl as [-> | Hl]; [cbn; lia |]). apply elem_of_nil in Hl. contradiction.
Qed.
(** Composition applies the second permutation first. *)
Theorem C73_compose s t u l k : perm_compose s t = Some u -> length t = length s -> apply_lit t l = Some k -> apply_lit u l = apply_lit s k.
Proof.
  intros C Lt E. unfold perm_compose in C. apply mapM_Some in C. assert ((lvar l < length s)%nat) as Ll by (unfold apply_lit in E; destruct (t !! lvar l) eqn:K; [apply lookup_lt_Some in K; lia | discriminate]).
  assert (seq 0 (length s) !! lvar l = Some (lvar l)) as Sq by (apply (proj2 (lookup_seq 0 (length s) (lvar l) (lvar l))); lia). destruct (Forall2_lookup_l _ _ _ _ _ C Sq) as (m & Hm & Em). cbv beta in Em.
  assert (exists p, t !! lvar l = Some p) as [p Hp] by (apply lookup_lt_is_Some_2; lia). assert (apply_lit t (Lit (lvar l) true) = Some p) as Tp by (unfold apply_lit; cbn [lvar lpos]; rewrite Hp; reflexivity). rewrite Tp in Em.
  unfold apply_lit in E. rewrite Hp in E. injection E as <-. unfold apply_lit at 1. rewrite Hm. destruct (lpos l); [symmetry; exact Em |]. rewrite apply_neg, Em. reflexivity.
Qed.

(** a or b: the clause (not a or b) removes a model; it is accepted with the assignment and with
    the exchange of a and b, not with the identity. The four clauses on two variables are refuted
    with a symmetry step. *)
Example C73_example :
  let a := Lit 0 true in let b := Lit 1 true in
  is_rup 2 [[a; b]] [negated a; b] = Some false /\ is_pr 2 [[a; b]] [negated a; b] (WAssignment [negated a; b]) = Some true /\
  is_pr 2 [[a; b]] [negated a; b] (WSubstitution [b; a]) = Some true /\ is_pr 2 [[a; b]; [negated b]] [negated a; b] (WSubstitution [b; a]) = Some false /\
  is_pr 2 [[a; b]] [negated a; b] (WAssignment [a; negated b]) = Some false /\
  let db := [[a; b]; [negated a; negated b]; [a; negated b]; [negated a; b]] in
  check_pr_refutation 2 db [SPr [negated a; b] (WSubstitution [b; a]); SRup [b]; SDelete [b; a]] = Some true /\
  check_pr_refutation_fast 2 db [SPr [negated a; b] (WSubstitution [b; a]); SRup [b]] = Some true /\
  check_pr_refutation 2 [[a; b]; [negated a; b]] [SRup [b]] = Some false.
Proof. vm_compute. repeat split; reflexivity. Qed.
