(** C122: resolution width. *)
From Coq Require Import List Arith NArith Bool Lia Permutation.
From Verif Require Import WidthModel WidthProofs.
Import ListNotations.

(** ** Resolution derivations of bounded width, on clauses as sets of literals *)
Definition taut (c : list lit) : Prop := exists v, In (v, true) c /\ In (v, false) c.
Definition same (c d : list lit) : Prop := forall l, In l c <-> In l d.
Definition width (c : list lit) : nat := length (nodup lit_dec c).
(** Axioms without complementary literals (no wider than [w] under [Strict]); the resolvent on [v] when it has no
    complementary literals and is no wider than [w]. *)
Inductive derives (cs : list (list lit)) (w : nat) (cv : convention) : list lit -> Prop :=
| d_axiom c0 c : In c0 cs -> same c c0 -> ~ taut c -> (cv = Strict -> width c <= w) -> derives cs w cv c
| d_resolve c1 c2 v c : derives cs w cv c1 -> derives cs w cv c2 -> In (v, true) c1 -> In (v, false) c2 ->
    (forall l, In l c <-> (In l c1 /\ l <> (v, true)) \/ (In l c2 /\ l <> (v, false))) ->
    ~ taut c -> width c <= w -> derives cs w cv c.
Definition refutable cs w cv : Prop := derives cs w cv [].
Definition vars_below (n : nat) (cs : list (list lit)) : Prop := forall c l, In c cs -> In l c -> fst l < n.
Definition holds (f : nat -> bool) (c : list lit) : Prop := exists l, In l c /\ f (fst l) = snd l.
Definition satisfiable cs : Prop := exists f, forall c, In c cs -> holds f c.

Lemma taut_same c d : same c d -> taut c -> taut d.
Proof. intros S (v & A & B). exists v. split; apply S; assumption. Qed.
Lemma width_same c d : same c d -> width c = width d.
Proof. intros S. apply same_length; try apply NoDup_nodup. intros l. rewrite !nodup_In. apply S. Qed.
Lemma derives_same cs w cv c d : same c d -> derives cs w cv c -> derives cs w cv d.
Proof.
  intros S D. destruct D as [c0 c I E T W | c1 c2 v c D1 D2 I1 I2 E T W].
  - apply (d_axiom cs w cv c0); auto.
    + intros l. rewrite <- (S l). apply E.
    + intros T'. apply T. apply (taut_same d); [|exact T']. intros l. symmetry. apply S.
    + intros H. rewrite <- (width_same c d S). auto.
  - apply (d_resolve cs w cv c1 c2 v); auto.
    + intros l. rewrite <- (S l). apply E.
    + intros T'. apply T. apply (taut_same d); [|exact T']. intros l. symmetry. apply S.
    + rewrite <- (width_same c d S). exact W.
Qed.
Lemma derives_vars n cs w cv c : vars_below n cs -> derives cs w cv c -> forall l, In l c -> fst l < n.
Proof.
  intros V D. induction D as [c0 c I E T W | c1 c2 v c D1 IH1 D2 IH2 I1 I2 E T W]; intros l J.
  - apply (V c0); [exact I|]. apply E, J.
  - apply E in J as [[J _] | [J _]]; auto.
Qed.
Lemma derives_taut cs w cv c : derives cs w cv c -> ~ taut c.
Proof. intros [ ]; assumption. Qed.

(** ** Masks and clauses *)
Lemma mask_same c d : same c d <-> mask_clause c = mask_clause d.
Proof.
  split.
  - intros S. apply mask_ext. intros l. apply eq_true_iff_eq. rewrite !bit_mask_clause. apply S.
  - intros E l. rewrite <- !bit_mask_clause, E. reflexivity.
Qed.
Lemma small_mask c : (forall l, In l c -> fst l < 63) -> small (mask_clause c).
Proof. intros V l B. apply V, bit_mask_clause, B. Qed.

(** A derivation step is a mask resolution. *)
Lemma step_mask c1 c2 v c : (forall l, In l c1 -> fst l < 63) -> ~ taut c1 -> ~ taut c2 -> In (v, true) c1 -> In (v, false) c2 ->
  (forall l, In l c <-> (In l c1 /\ l <> (v, true)) \/ (In l c2 /\ l <> (v, false))) -> ~ taut c ->
  resolve_masks (mask_clause c1) (mask_clause c2) = Some (mask_clause c).
Proof.
  intros V T1 T2 I1 I2 E T.
  destruct (resolve_intro (mask_clause c1) (mask_clause c2) v) as (r & R & B).
  - specialize (V _ I1). cbn in V. lia.
  - exists true. split; apply bit_mask_clause; assumption.
  - intros u (s & A & C). apply bit_mask_clause in A. apply bit_mask_clause in C. destruct (Nat.eq_dec u v) as [|Ne]; [assumption|]. elim T.
    exists u. destruct s; cbn in C; split; apply E; first [left; split; [assumption|congruence]|right; split; [assumption|congruence]].
  - rewrite R. f_equal. apply mask_ext. intros l. apply eq_true_iff_eq. rewrite B, !bit_mask_clause, E.
    destruct l as [u s]. cbn [fst]. split.
    + intros [[H | H] Ne]; [left|right]; (split; [exact H|congruence]).
    + intros [[H Ne] | [H Ne]].
      * split; [left; exact H|]. intros ->. destruct s; [congruence|]. apply T1. exists v. auto.
      * split; [right; exact H|]. intros ->. destruct s; [|congruence]. apply T2. exists v. auto.
Qed.

(** A mask resolution is a derivation step. *)
Lemma mask_step cs w cv c1 c2 r : vars_below 63 cs -> derives cs w cv c1 -> derives cs w cv c2 ->
  resolve_masks (mask_clause c1) (mask_clause c2) = Some r -> mask_width r <= w ->
  exists c, derives cs w cv c /\ mask_clause c = r.
Proof.
  intros V D1 D2 R W.
  pose proof (derives_vars 63 cs w cv c1 V D1) as V1. pose proof (derives_vars 63 cs w cv c2 V D2) as V2.
  pose proof (derives_taut _ _ _ _ D1) as T1. pose proof (derives_taut _ _ _ _ D2) as T2.
  destruct (resolve_elim _ _ r (small_mask c1 V1) (small_mask c2 V2) R) as (v & (s & A & B) & U & L).
  apply bit_mask_clause in A. apply bit_mask_clause in B.
  set (c := filter (fun l => negb (fst l =? v)) (c1 ++ c2)).
  assert (Ec : forall l, In l c <-> (In l c1 \/ In l c2) /\ fst l <> v).
  { intros l. unfold c. rewrite filter_In, in_app_iff, negb_true_iff, Nat.eqb_neq. reflexivity. }
  assert (M : mask_clause c = r).
  { apply mask_ext. intros l. apply eq_true_iff_eq. rewrite bit_mask_clause, L, Ec, !bit_mask_clause. reflexivity. }
  assert (T : ~ taut c).
  { intros (u & P & Q). apply Ec in P as [P Nu]. apply Ec in Q as [Q _]. cbn in Nu. apply Nu.
    destruct P as [P | P], Q as [Q | Q].
    - elim T1. exists u. auto.
    - apply U. exists true. split; apply bit_mask_clause; assumption.
    - apply U. exists false. split; apply bit_mask_clause; assumption.
    - elim T2. exists u. auto. }
  assert (Wc : width c <= w).
  { unfold width. rewrite <- width_mask_clause, M; [exact W|]. intros l I. apply Ec in I as [[I | I] _]; auto. }
  exists c. split; [|exact M].
  assert (Hs : forall (x y : list lit) l, ~ taut x -> ~ taut y -> In (v, true) x -> In (v, false) y ->
     ((In l x \/ In l y) /\ fst l <> v <-> (In l x /\ l <> (v, true)) \/ (In l y /\ l <> (v, false)))).
  { intros x y [u t] Tx Ty Ix Iy. cbn [fst]. split.
    - intros [[H | H] Ne]; [left|right]; (split; [exact H|congruence]).
    - intros [[H Ne] | [H Ne]].
      + split; [left; exact H|]. intros ->. destruct t; [congruence|]. apply Tx. exists v. auto.
      + split; [right; exact H|]. intros ->. destruct t; [|congruence]. apply Ty. exists v. auto. }
  destruct s; cbn in B.
  - apply (d_resolve cs w cv c1 c2 v); auto. intros l. rewrite Ec. apply Hs; assumption.
  - apply (d_resolve cs w cv c2 c1 v); auto. intros l. rewrite Ec, or_comm. apply Hs; assumption.
Qed.

Lemma seed_derives cs w cv m : vars_below 63 cs -> In m (seed cs w cv) -> exists c, derives cs w cv c /\ mask_clause c = m.
Proof.
  intros V I. apply seed_spec in I as ((c & J & <-) & T & W). exists c. split; [|reflexivity].
  apply (d_axiom cs w cv c c J).
  - intros l. reflexivity.
  - intros (v & A & B). apply (T v). split; apply bit_mask_clause; assumption.
  - intros S. unfold width. rewrite <- width_mask_clause; [apply W, S|]. intros l. apply (V c l J).
Qed.

(** A set that holds the seed and is closed holds every derivable clause. *)
Lemma derives_in cs w cv set : vars_below 63 cs -> incl (seed cs w cv) set -> closed_off w set [] ->
  forall c, derives cs w cv c -> In (mask_clause c) set.
Proof.
  intros V S C c D. induction D as [c0 c I E T W | c1 c2 v c D1 IH1 D2 IH2 I1 I2 E T W].
  - apply S, seed_spec. split; [exists c0; split; [exact I|]; symmetry; apply mask_same, E|]. split.
    + intros v [A B]. apply T. exists v. split; apply bit_mask_clause; assumption.
    + intros H. rewrite width_mask_clause; [exact (W H)|]. intros l J. apply (V c0 l I), E, J.
  - pose proof (derives_vars 63 cs w cv c1 V D1) as V1. pose proof (derives_vars 63 cs w cv c2 V D2) as V2.
    apply (C (mask_clause c1) (mask_clause c2)); auto.
    + apply (step_mask c1 c2 v); auto; eapply derives_taut; eassumption.
    + rewrite width_mask_clause; [exact W|]. intros l J. apply E in J as [[J _] | [J _]]; auto.
Qed.

(** The closure is exactly the set of clauses that have a width-[w] derivation. *)
Theorem C122_closure fuel cs w cv set : vars_below 63 cs -> resolution_width_closure fuel cs w cv = Some set ->
  forall m, In m set <-> exists c, derives cs w cv c /\ mask_clause c = m.
Proof.
  intros V E. unfold resolution_width_closure in E.
  destruct (close_spec w (fun m => exists c, derives cs w cv c /\ mask_clause c = m) fuel (seed cs w cv) (rev (seed cs w cv)) set) as (A & B & C); auto.
  - intros a b r (c1 & D1 & <-) (c2 & D2 & <-) R W. exact (mask_step cs w cv c1 c2 r V D1 D2 R W).
  - apply seed_NoDup.
  - intros m I. exact (seed_derives cs w cv m V I).
  - intros m I. apply in_rev, I.
  - intros a b r Ia _ Na. elim Na. apply in_rev in Ia. exact Ia.
  - intros m. split; [apply B|]. intros (c & D & <-). exact (derives_in cs w cv set V A C c D).
Qed.

(** The worklist loop terminates. *)
Theorem C122_terminates cs w cv : vars_below 63 cs ->
  exists bound, forall fuel, bound <= fuel -> exists set, resolution_width_closure fuel cs w cv = Some set.
Proof.
  intros V.
  set (lits := flat_map (fun v => [(v, true); (v, false)]) (seq 0 63)).
  assert (PS : exists ps : list (list lit), forall l, incl l lits -> exists p, In p ps /\ same p l).
  { clear. induction lits as [|x xs [ps IH]].
    - exists [[]]. intros l I. exists []. split; [left; reflexivity|]. intros y. split; [intros []|]. intros J. exact (I y J).
    - exists (ps ++ map (cons x) ps). intros l I.
      destruct (IH (filter (fun y => if lit_dec y x then false else true) l)) as (p & Ip & Sp).
      { intros y J. apply filter_In in J as [J N]. destruct (lit_dec y x); [discriminate|]. destruct (I y J) as [-> | K]; [congruence|exact K]. }
      assert (Q : forall y, In y p <-> In y l /\ y <> x).
      { intros y. rewrite (Sp y), filter_In. destruct (lit_dec y x); intuition congruence. }
      destruct (in_dec lit_dec x l) as [Ix | Nx].
      + exists (x :: p). split; [apply in_app_iff; right; apply in_map, Ip|]. intros y. cbn. rewrite Q. destruct (lit_dec y x) as [-> | Ne]; intuition congruence.
      + exists p. split; [apply in_app_iff; left; exact Ip|]. intros y. rewrite Q. intuition congruence. }
  destruct PS as [ps PS]. set (U := map mask_clause ps).
  assert (HU : forall m, small m -> In m U).
  { intros m Sm. destruct (PS (clause_of m)) as (p & Ip & Sp).
    - intros l J. apply in_clause_of in J; [|exact Sm]. apply Sm in J. unfold lits. apply in_flat_map. exists (fst l). split; [apply in_seq; lia|].
      destruct l as [v [|]]; cbn; auto.
    - apply in_map_iff. exists p. split; [|exact Ip]. apply mask_ext. intros l. apply eq_true_iff_eq. rewrite bit_mask_clause, (Sp l). apply in_clause_of, Sm. }
  set (U2 := map mask_clause (filter (fun p => forallb (fun l => fst l <? 63) p) ps)).
  assert (HU2 : forall m, In m U2 <-> small m).
  { intros m. unfold U2. rewrite in_map_iff. split.
    - intros (p & <- & I). apply filter_In in I as [_ F]. rewrite forallb_forall in F. apply small_mask. intros l J. apply Nat.ltb_lt, F, J.
    - intros Sm. assert (I := HU m Sm). unfold U in I. apply in_map_iff in I as (p & <- & I). exists p. split; [reflexivity|]. apply filter_In. split; [exact I|].
      apply forallb_forall. intros l J. apply Nat.ltb_lt, Sm, bit_mask_clause, J. }
  exists (S (length (rev (seed cs w cv)) + length U2)). intros fuel L. unfold resolution_width_closure.
  apply (close_total w U2).
  - intros a b r Ia Ib R. apply HU2 in Ia. apply HU2 in Ib. apply HU2. destruct (resolve_elim a b r Ia Ib R) as (v & _ & _ & E).
    intros l B. apply E in B as [[B | B] _]; [apply Ia, B|apply Ib, B].
  - apply seed_NoDup.
  - intros m I. apply HU2. destruct (seed_derives cs w cv m V I) as (c & D & <-). apply small_mask, (derives_vars 63 cs w cv c V D).
  - intros m I. apply in_rev, I.
  - lia.
Qed.

(** [width_refutes] decides the existence of a width-[w] refutation. *)
Theorem C122_refutes fuel cs w cv b : vars_below 63 cs -> width_refutes fuel cs w cv = Some b -> (b = true <-> refutable cs w cv).
Proof.
  intros V. unfold width_refutes. destruct (resolution_width_closure fuel cs w cv) as [set|] eqn:E; [|discriminate]. intros [= <-].
  rewrite contains_In, (C122_closure fuel cs w cv set V E). split.
  - intros (c & D & M). apply (derives_same cs w cv c); [|exact D]. apply mask_same. exact M.
  - intros D. exists []. split; [exact D|reflexivity].
Qed.

(** ** Lower-bound certificates *)
Lemma pairs_ok_spec w closed all : pairs_ok w closed all = true ->
  forall a b r, In a all -> In b all -> resolve_masks a b = Some r -> mask_width r <= w -> In r closed.
Proof.
  induction all as [|x all IH]; cbn [pairs_ok]; intros H a b r Ia Ib R W; [destruct Ia|]. apply andb_true_iff in H as [H1 H2].
  rewrite forallb_forall in H1.
  assert (G : forall y, In y (x :: all) -> forall r, resolve_masks x y = Some r -> mask_width r <= w -> In r closed).
  { intros y Iy r' R' W'. specialize (H1 y Iy). rewrite R' in H1. apply negb_true_iff, andb_false_iff in H1 as [H1 | H1].
    - apply Nat.leb_gt in H1. lia.
    - apply negb_false_iff, contains_In in H1. exact H1. }
  destruct Ia as [<- | Ia]; [exact (G b Ib r R W)|]. destruct Ib as [<- | Ib].
  - rewrite resolve_comm in R. exact (G a (or_intror Ia) r R W).
  - exact (IH H2 a b r Ia Ib R W).
Qed.
(** An accepted certificate (from any source) rules out a refutation of that width. *)
Theorem C122_check_sound cs w cv closed : vars_below 63 cs -> check_res_width_lower_bound cs w cv closed = true -> ~ refutable cs w cv.
Proof.
  intros V H D. unfold check_res_width_lower_bound in H. destruct (contains (0%N, 0%N) closed) eqn:Z; [discriminate|].
  destruct (existsb (fun m => negb (N.eqb (N.land (fst m) (snd m)) 0)) closed); [discriminate|]. destruct (forallb (fun m => contains m closed) (seed cs w cv)) eqn:F; [|discriminate]. cbn [negb] in H.
  rewrite forallb_forall in F.
  assert (I : In (mask_clause []) closed).
  { apply (derives_in cs w cv closed V); [| |exact D].
    - intros m J. apply contains_In, F, J.
    - intros a b r Ia Ib _ _. exact (pairs_ok_spec w closed closed H a b r Ia Ib). }
  apply contains_In in I. change (mask_clause []) with (0%N, 0%N) in I. congruence.
Qed.
(** When there is no refutation of that width the closure is an accepted certificate. *)
Theorem C122_check_complete fuel cs w cv set : vars_below 63 cs -> resolution_width_closure fuel cs w cv = Some set ->
  ~ refutable cs w cv -> check_res_width_lower_bound cs w cv set = true.
Proof.
  intros V E Nr. pose proof (C122_closure fuel cs w cv set V E) as C. unfold check_res_width_lower_bound.
  destruct (contains (0%N, 0%N) set) eqn:Z.
  { apply contains_In, C in Z as (c & D & M). elim Nr. apply (derives_same cs w cv c); [|exact D]. apply mask_same. exact M. }
  destruct (existsb (fun m => negb (N.eqb (N.land (fst m) (snd m)) 0)) set) eqn:X.
  { apply existsb_exists in X as (m & I & T). apply C in I as (c & D & <-). apply negb_true_iff in T.
    assert (Y : N.eqb (N.land (fst (mask_clause c)) (snd (mask_clause c))) 0 = true); [|congruence].
    apply taut_zero. intros v [A B]. apply (derives_taut _ _ _ _ D). exists v. split; apply bit_mask_clause; assumption. }
  replace (forallb (fun m => contains m set) (seed cs w cv)) with true.
  2:{ symmetry. apply forallb_forall. intros m I. apply contains_In, C, seed_derives; assumption. }
  cbn [negb].
  assert (G : forall all, incl all set -> pairs_ok w set all = true).
  { induction all as [|x all IH]; intros I; cbn [pairs_ok]; [reflexivity|]. apply andb_true_iff. split; [|apply IH; intros y J; apply I; right; exact J].
    apply forallb_forall. intros y J. destruct (resolve_masks x y) as [r|] eqn:R; [|reflexivity]. apply negb_true_iff, andb_false_iff.
    destruct (Nat.leb_spec (mask_width r) w) as [W | W]; [right|left; reflexivity]. apply negb_false_iff, contains_In, C.
    destruct (proj1 (C x) (I x (or_introl eq_refl))) as (c1 & D1 & <-). destruct (proj1 (C y) (I y J)) as (c2 & D2 & <-).
    exact (mask_step cs w cv c1 c2 r V D1 D2 R W). }
  apply G, incl_refl.
Qed.

(** ** Soundness and completeness of width-bounded resolution *)
Lemma derives_implied cs w cv c f : derives cs w cv c -> (forall d, In d cs -> holds f d) -> holds f c.
Proof.
  intros D M. induction D as [c0 c I E T W | c1 c2 v c D1 IH1 D2 IH2 I1 I2 E T W].
  - destruct (M c0 I) as (l & J & F). exists l. split; [apply E, J|exact F].
  - destruct IH1 as (l1 & J1 & F1), IH2 as (l2 & J2 & F2). destruct (f v) eqn:Fv.
    + exists l2. split; [|exact F2]. apply E. right. split; [exact J2|]. intros ->. cbn in F2. congruence.
    + exists l1. split; [|exact F1]. apply E. left. split; [exact J1|]. intros ->. cbn in F1. congruence.
Qed.
Theorem C122_refutable_unsat cs w cv : refutable cs w cv -> ~ satisfiable cs.
Proof. intros D (f & M). destruct (derives_implied cs w cv [] f D M) as (l & [] & _). Qed.

Lemma narrow n c : ~ taut c -> (forall l, In l c -> fst l < n) -> width c <= n.
Proof.
  intros T V. unfold width. set (l0 := nodup lit_dec c).
  enough (L : length (map (@fst nat bool) l0) <= length (seq 0 n)) by (rewrite map_length, seq_length in L; exact L).
  subst l0. apply NoDup_incl_length.
  - assert (G : forall l, NoDup l -> incl l c -> NoDup (map fst l)).
    { induction l as [|[v s] l IH]; intros N I; [constructor|]. inversion N; subst. cbn. constructor.
      - intros J. apply in_map_iff in J as ([u t] & E & J). cbn in E. subst u.
        assert (A : In (v, s) c) by (apply I; left; reflexivity). assert (B : In (v, t) c) by (apply I; right; exact J).
        destruct s, t; try contradiction; apply T; exists v; auto.
      - apply IH; [assumption|]. intros y J. apply I. right. exact J. }
    apply G; [apply NoDup_nodup|]. intros l J. apply nodup_In in J. exact J.
  - intros v J. apply in_map_iff in J as (l & <- & J). apply nodup_In in J. apply in_seq. specialize (V l J). lia.
Qed.

Definition upd (f : nat -> bool) (k : nat) (b : bool) : nat -> bool := fun v => if v =? k then b else f v.
Definition falsified (f : nat -> bool) (k : nat) (c : list lit) : bool := forallb (fun l => (fst l <? k) && negb (Bool.eqb (f (fst l)) (snd l))) c.
Lemma falsified_spec f k c : falsified f k c = true <-> forall l, In l c -> fst l < k /\ f (fst l) <> snd l.
Proof.
  unfold falsified. rewrite forallb_forall. split; intros H l I; specialize (H l I).
  - apply andb_true_iff in H as [A B]. apply Nat.ltb_lt in A. apply negb_true_iff, Bool.eqb_false_iff in B. auto.
  - apply andb_true_iff. split; [apply Nat.ltb_lt, H|]. apply negb_true_iff, Bool.eqb_false_iff, H.
Qed.

Lemma complete n cs cv : n <= 63 -> vars_below n cs -> ~ refutable cs n cv -> satisfiable cs.
Proof.
  intros Ln V Nr.
  assert (V63 : vars_below 63 cs) by (intros c l I J; specialize (V c l I J); lia).
  destruct (C122_terminates cs n cv V63) as [bound Tm]. destruct (Tm bound (le_n _)) as [set Es].
  pose proof (C122_closure bound cs n cv set V63 Es) as C.
  set (ds := map clause_of set).
  assert (Hds : forall d, In d ds -> derives cs n cv d).
  { intros d I. apply in_map_iff in I as (m & <- & I). apply C in I as (c & D & <-). apply (derives_same cs n cv c); [|exact D].
    intros l. rewrite in_clause_of, bit_mask_clause; [reflexivity|]. apply small_mask, (derives_vars 63 cs n cv c V63 D). }
  assert (Hdec : forall f k, (exists c, derives cs n cv c /\ falsified f k c = true) \/ (forall c, derives cs n cv c -> falsified f k c = false)).
  { intros f k. destruct (existsb (falsified f k) ds) eqn:X.
    - left. apply existsb_exists in X as (c & I & F). exists c. auto.
    - right. intros c D. destruct (falsified f k c) eqn:F; [|reflexivity].
      assert (Y : existsb (falsified f k) ds = true); [|congruence]. apply existsb_exists. exists (clause_of (mask_clause c)). split.
      + apply in_map, C. exists c. auto.
      + apply falsified_spec. intros l I. rewrite in_clause_of, bit_mask_clause in I; [apply (proj1 (falsified_spec f k c) F l I)|].
        apply small_mask, (derives_vars 63 cs n cv c V63 D). }
  assert (G : forall k, k <= n -> exists f, forall c, derives cs n cv c -> falsified f k c = false).
  { induction k as [|k IH]; intros Lk.
    - exists (fun _ => true). intros c D. destruct (falsified (fun _ => true) 0 c) eqn:F; [|reflexivity]. destruct c as [|l c]; [contradiction|].
      destruct (proj1 (falsified_spec _ _ _) F l (or_introl eq_refl)). lia.
    - destruct IH as [f Hf]; [lia|].
      assert (X : forall b, (forall c, derives cs n cv c -> falsified (upd f k b) (S k) c = false) \/
                  exists c, derives cs n cv c /\ In (k, negb b) c /\ forall l, In l c -> l = (k, negb b) \/ (fst l < k /\ f (fst l) <> snd l)).
      { intros b. destruct (Hdec (upd f k b) (S k)) as [(c & D & F) | H]; [right|left; exact H]. exists c. split; [exact D|].
        pose proof (proj1 (falsified_spec _ _ _) F) as Fl.
        assert (Q : forall l, In l c -> l = (k, negb b) \/ (fst l < k /\ f (fst l) <> snd l)).
        { intros [v s] I. destruct (Fl _ I) as [A B]. unfold upd in B. cbn [fst snd] in *. destruct (Nat.eqb_spec v k) as [-> | Ne].
          - left. f_equal. destruct b, s; congruence || reflexivity.
          - right. split; [lia|exact B]. }
        split; [|exact Q]. destruct (in_dec lit_dec (k, negb b) c) as [I | N]; [exact I|]. exfalso.
        assert (Z : falsified f k c = true); [|rewrite (Hf c D) in Z; discriminate]. apply falsified_spec. intros l I.
        destruct (Q l I) as [-> | R]; [contradiction|exact R]. }
      destruct (X true) as [H | (c2 & D2 & I2 & Q2)]; [eauto|]. destruct (X false) as [H | (c1 & D1 & I1 & Q1)]; [eauto|]. exfalso. cbn [negb] in *.
      set (c := filter (fun l => if lit_dec l (k, true) then false else true) c1 ++ filter (fun l => if lit_dec l (k, false) then false else true) c2).
      assert (Ec : forall l, In l c <-> (In l c1 /\ l <> (k, true)) \/ (In l c2 /\ l <> (k, false))).
      { intros l. unfold c. rewrite in_app_iff, !filter_In. destruct (lit_dec l (k, true)), (lit_dec l (k, false)); intuition congruence. }
      assert (Fc : forall l, In l c -> fst l < k /\ f (fst l) <> snd l).
      { intros l I. apply Ec in I as [[I N] | [I N]]; [destruct (Q1 l I)|destruct (Q2 l I)]; congruence || assumption. }
      assert (Tc : ~ taut c).
      { intros (v & A & B). apply Fc in A as [_ A]. apply Fc in B as [_ B]. cbn in A, B. destruct (f v); congruence. }
      assert (D : derives cs n cv c).
      { apply (d_resolve cs n cv c1 c2 k); auto. apply narrow; [exact Tc|]. intros l I. destruct (Fc l I). lia. }
      assert (Z : falsified f k c = true) by (apply falsified_spec; exact Fc). rewrite (Hf c D) in Z. discriminate. }
  destruct (G n (le_n _)) as [f Hf]. exists f. intros c I.
  assert (Dt : taut c \/ ~ taut c).
  { unfold taut. destruct (existsb (fun l => if in_dec lit_dec (fst l, negb (snd l)) c then true else false) c) eqn:X.
    - left. apply existsb_exists in X as ([v s] & A & B). cbn in B. destruct (in_dec lit_dec (v, negb s) c) as [J|]; [|discriminate]. exists v. destruct s; auto.
    - right. intros (v & A & B). assert (Y : existsb (fun l => if in_dec lit_dec (fst l, negb (snd l)) c then true else false) c = true); [|congruence].
      apply existsb_exists. exists (v, true). split; [exact A|]. cbn. destruct (in_dec lit_dec (v, false) c); [reflexivity|contradiction]. }
  destruct Dt as [(v & A & B) | T].
  - exists (v, f v). split; [destruct (f v); assumption|reflexivity].
  - assert (D : derives cs n cv c).
    { apply (d_axiom cs n cv c c I); [intros l; reflexivity|exact T|]. intros _. apply narrow; [exact T|]. intros l. apply (V c l I). }
    specialize (Hf c D). destruct (existsb (fun l => Bool.eqb (f (fst l)) (snd l)) c) eqn:X.
    + apply existsb_exists in X as (l & J & F). exists l. split; [exact J|]. apply Bool.eqb_prop, F.
    + exfalso. assert (Z : falsified f n c = true); [|congruence]. apply falsified_spec. intros l J. split; [exact (V c l I J)|].
      intros F. assert (Y : existsb (fun l => Bool.eqb (f (fst l)) (snd l)) c = true); [|congruence]. apply existsb_exists. exists l. split; [exact J|].
      rewrite F. apply Bool.eqb_reflx.
Qed.

(** [min_res_width_clauses]: the least width of a refutation; [None] exactly on satisfiable clause sets. *)
Lemma find_width_spec fuel cs cv : vars_below 63 cs -> forall k a r, find_width fuel cs cv (seq a k) = Some r ->
  match r with
  | Some w => a <= w < a + k /\ refutable cs w cv /\ forall w', a <= w' < w -> ~ refutable cs w' cv
  | None => forall w', a <= w' < a + k -> ~ refutable cs w' cv
  end.
Proof.
  intros V. induction k as [|k IH]; intros a r E; cbn [seq find_width] in E.
  - injection E as <-. intros w' H. lia.
  - destruct (width_refutes fuel cs a cv) as [[|]|] eqn:R; [| |discriminate].
    + injection E as <-. split; [lia|]. split; [apply (C122_refutes fuel cs a cv true V R); reflexivity|]. intros w' H. lia.
    + assert (Na : ~ refutable cs a cv) by (intros D; apply (C122_refutes fuel cs a cv false V R) in D; discriminate).
      specialize (IH (S a) r E). destruct r as [w|].
      * destruct IH as (A & B & C). split; [lia|]. split; [exact B|]. intros w' H. destruct (Nat.eq_dec w' a) as [-> | Ne]; [exact Na|]. apply C. lia.
      * intros w' H. destruct (Nat.eq_dec w' a) as [-> | Ne]; [exact Na|]. apply IH. lia.
Qed.
Theorem C122_min_width fuel n cs cv r : n <= 63 -> vars_below n cs -> min_res_width_clauses fuel n cs cv = Some r ->
  match r with
  | Some w => w <= n /\ refutable cs w cv /\ (forall w', w' < w -> ~ refutable cs w' cv) /\ ~ satisfiable cs
  | None => satisfiable cs
  end.
Proof.
  intros Ln V E. assert (V63 : vars_below 63 cs) by (intros c l I J; specialize (V c l I J); lia).
  pose proof (find_width_spec fuel cs cv V63 (S n) 0 r E) as H. destruct r as [w|].
  - destruct H as (A & B & C). split; [lia|]. split; [exact B|]. split; [intros w' L; apply C; lia|]. exact (C122_refutable_unsat cs w cv B).
  - apply (complete n cs cv Ln V). apply H. lia.
Qed.
Theorem C122_min_width_terminates n cs cv : vars_below 63 cs ->
  exists bound, forall fuel, bound <= fuel -> exists r, min_res_width_clauses fuel n cs cv = Some r.
Proof.
  intros V. unfold min_res_width_clauses. generalize (seq 0 (S n)) as ws. induction ws as [|w ws [b IH]].
  - exists 0. intros fuel _. exists None. reflexivity.
  - destruct (C122_terminates cs w cv V) as [b' T]. exists (Nat.max b b'). intros fuel L. cbn [find_width]. unfold width_refutes.
    destruct (T fuel) as [set E]; [lia|]. rewrite E. destruct (contains _ set); [eauto|]. apply IH. lia.
Qed.

(** Declaring fewer variables than the clauses mention loses the second half: [None] on an unsatisfiable set. *)
Theorem C122_undeclared_refuted : exists fuel n cs, min_res_width_clauses fuel n cs Strict = Some None /\ ~ satisfiable cs.
Proof.
  exists 10, 0, [[(0, true)]; [(0, false)]]. split; [vm_compute; reflexivity|]. intros (f & M).
  destruct (M [(0, true)]) as (l & [<- | []] & A); [left; reflexivity|]. destruct (M [(0, false)]) as (l & [<- | []] & B); [right; left; reflexivity|].
  cbn in A, B. congruence.
Qed.

(** ** Example: two variables, all four binary clauses: width 2; the pigeonhole clause set below under both conventions. *)
Definition full2 : list (list lit) := [[(0, true); (1, true)]; [(0, true); (1, false)]; [(0, false); (1, true)]; [(0, false); (1, false)]].
Definition chain3 : list (list lit) := [[(0, true); (1, true); (2, true)]; [(0, false)]; [(1, false)]; [(2, false)]].
Example C122_example :
  vars_below 2 full2 /\ vars_below 3 chain3 /\
  min_res_width_clauses 50 2 full2 Strict = Some (Some 2) /\
  min_res_width_clauses 50 3 chain3 Strict = Some (Some 3) /\
  min_res_width_clauses 50 3 chain3 WideAxioms = Some (Some 2) /\
  min_res_width_clauses 50 2 (tl full2) Strict = Some None /\
  (exists set, resolution_width_closure 50 full2 1 Strict = Some set /\ check_res_width_lower_bound full2 1 Strict set = true) /\
  check_res_width_lower_bound full2 2 Strict [] = false.
Proof.
  split; [intros c l I J; repeat (destruct I as [<- | I]; [repeat (destruct J as [<- | J]; [cbn; lia|]); destruct J|]); destruct I|].
  split; [intros c l I J; repeat (destruct I as [<- | I]; [repeat (destruct J as [<- | J]; [cbn; lia|]); destruct J|]); destruct I|].
  do 4 (split; [vm_compute; reflexivity|]). split; [|vm_compute; reflexivity].
  eexists. split; [vm_compute; reflexivity|]. vm_compute. reflexivity.
Qed.
