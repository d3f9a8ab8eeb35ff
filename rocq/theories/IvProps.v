(** C94: interval scheduling and register allocation. *)
From Coq Require Import ZArith List Bool Lia Sorting.Permutation.
From stdpp Require Import base list gmap.
From Verif Require Import IvModel IvProofs.
Open Scope Z_scope.

(** Every task has its own machine while it runs. *)
Definition schedule_ok (tasks : list interval) (machines : nat) (a : list nat) : Prop :=
  length a = length tasks /\ (forall i m, a !! i = Some m -> (m < machines)%nat) /\
  (forall i j t u x m, i <> j -> tasks !! i = Some t -> tasks !! j = Some u -> runs t x -> runs u x -> a !! i = Some m -> a !! j = Some m -> False).
(** Every task takes time; the times are i64. *)
Definition proper (tasks : list interval) : Prop := forall t, List.In t tasks -> - 2 ^ 63 <= start t < stop t.
Lemma proper_lookup tasks i t : proper tasks -> tasks !! i = Some t -> i64_min <= start t < stop t.
Proof. intros P H. apply P. by apply elem_of_list_lookup_2, elem_of_list_In in H. Qed.

Lemma dup_or {A} (f : A -> nat) (l : list A) : List.NoDup l -> List.NoDup (List.map f l) \/ exists i j, List.In i l /\ List.In j l /\ i <> j /\ f i = f j.
Proof.
  induction l as [|x l IH]; cbn; intros N; [left; constructor|]. apply NoDup_cons_iff in N as [Nx N].
  destruct (IH N) as [H|(i & j & I & J & H)]; [|right; exists i, j; auto].
  destruct (in_dec Nat.eq_dec (f x) (List.map f l)) as [I|I]; [|left; by constructor].
  right. apply List.in_map_iff in I as (y & E & I). exists x, y. split_and!; auto. intros ->. done.
Qed.
Lemma pigeon {A} (f : A -> nat) l m : List.NoDup l -> (forall i, List.In i l -> (f i < m)%nat) -> (m < length l)%nat ->
  exists i j, List.In i l /\ List.In j l /\ i <> j /\ f i = f j.
Proof.
  intros N B L. destruct (dup_or f l N) as [H|H]; [|done].
  assert (length (List.map f l) <= length (seq 0 m))%nat as K.
  { apply NoDup_incl_length; [done|]. intros y I. apply List.in_map_iff in I as (x & <- & I). apply in_seq. specialize (B _ I). lia. }
  rewrite List.map_length, seq_length in K. lia.
Qed.

Theorem C94_feasible : forall tasks machines a, proper tasks -> schedule_or_overflow tasks machines = Feasible a -> schedule_ok tasks machines a.
Proof.
  intros tasks machines a P. unfold schedule_or_overflow. destruct (sweep _ _ _) as [|] eqn:S; [done|]. intros [= <-].
  destruct (greedy_ok tasks machines) as (G1 & G2 & G3).
  - intros i t. by apply proper_lookup.
  - intros l x. by apply fits.
  - split_and!; [done..|]. intros i j t u x m N T U R1 R2 A1 A2. destruct (G3 i j t u m N T U A1 A2); unfold runs in *; lia.
Qed.
Theorem C94_infeasible : forall tasks machines w, schedule_or_overflow tasks machines = Infeasible w ->
  length w = S machines /\ List.NoDup w /\ (exists x, forall i, List.In i w -> exists t, tasks !! i = Some t /\ runs t x) /\
  forall a, ~ schedule_ok tasks machines a.
Proof.
  intros tasks machines w. unfold schedule_or_overflow. destruct (sweep _ _ _) as [w'|] eqn:S; [|done]. intros [= ->].
  apply (sweep_some tasks machines (events tasks) [] w) in S as [L (x & N & R)]; [|cbn; lia|done].
  split_and!; [done..|eauto|]. intros a (A1 & A2 & A3).
  destruct (pigeon (fun i => nth i a O) w machines N) as (i & j & I & J & Nij & E).
  - intros i I. destruct (R i I) as (t & T & _). apply lookup_lt_Some in T. rewrite <- A1 in T.
    destruct (lookup_lt_is_Some_2 a i T) as [m Hm]. rewrite nth_lookup, Hm. eauto.
  - lia.
  - destruct (R i I) as (t & T & Rt), (R j J) as (u & U & Ru).
    destruct (lookup_lt_is_Some_2 a i) as [m Hm]; [rewrite A1; by apply lookup_lt_Some in T|].
    destruct (lookup_lt_is_Some_2 a j) as [k Hk]; [rewrite A1; by apply lookup_lt_Some in U|].
    cbn in E. rewrite !nth_lookup, Hm, Hk in E. cbn in E. subst k. eapply A3; eauto.
Qed.
Theorem C94_decides : forall tasks machines, proper tasks -> (exists a, schedule_ok tasks machines a) <-> (exists a, schedule_or_overflow tasks machines = Feasible a).
Proof.
  intros tasks machines P. split; intros [a H]; [|exists a; by apply C94_feasible].
  destruct (schedule_or_overflow tasks machines) as [b|w] eqn:E; [eauto|]. apply C94_infeasible in E as (_ & _ & _ & N). by apply N in H.
Qed.
Theorem C94_peak : forall tasks,
  (forall l x, List.NoDup l -> (forall i, List.In i l -> exists t, tasks !! i = Some t /\ runs t x) -> Z.of_nat (length l) <= peak_concurrency tasks) /\
  exists l x, List.NoDup l /\ (forall i, List.In i l -> exists t, tasks !! i = Some t /\ runs t x) /\ Z.of_nat (length l) = peak_concurrency tasks.
Proof.
  intros tasks. destruct (peak_spec tasks (events tasks) [] 0 eq_refl) as (P1 & P2 & P3); [done|].
  fold (peak_concurrency tasks) in *. change (peak_loop _ 0 _) with (peak_concurrency tasks) in *. split.
  - intros l x N R. destruct (at_once_act tasks l x (conj N R)) as (p & q & A & L). specialize (P2 p q A). cbn [app] in P2. lia.
  - destruct P3 as [P3|(l & x & [N R] & E)]; [|by exists l, x].
    exists [], 0. split_and!; [constructor|done|]. cbn. lia.
Qed.

(** The checkers. *)
Lemma overlaps_iff t u : start t < stop t -> start u < stop u -> overlaps t u = true <-> exists x, runs t x /\ runs u x.
Proof.
  unfold overlaps, runs. intros H1 H2. rewrite andb_true_iff, !Z.ltb_lt. split; [|intros (x & A & B); lia].
  intros [A B]. exists (Z.max (start t) (start u)). lia.
Qed.
Lemma overlaps_comm t u : overlaps t u = overlaps u t.
Proof. unfold overlaps. apply andb_comm. Qed.
Theorem C94_valid_schedule : forall tasks machines a, proper tasks -> is_valid_schedule tasks machines a = true <-> schedule_ok tasks machines a.
Proof.
  intros tasks machines a P. unfold is_valid_schedule, schedule_ok.
  assert (forall i t, tasks !! i = Some t -> get tasks i = t) as G by (intros i t; apply get_lookup).
  destruct (Nat.eqb_spec (length a) (length tasks)) as [L|L]; cbn [negb orb]; [|split; [done|intros (? & _); done]].
  destruct (existsb _ a) eqn:X.
  { split; [done|]. intros (_ & B & _). apply existsb_exists in X as (m & I & X). apply elem_of_list_In, elem_of_list_lookup in I as [i I].
    apply B in I. apply Nat.leb_le in X. lia. }
  assert (forall i m, a !! i = Some m -> (m < machines)%nat) as B.
  { intros i m H. destruct (Nat.lt_ge_cases m machines) as [K|K]; [done|]. exfalso. rewrite <- not_true_iff_false in X. apply X, existsb_exists.
    exists m. split; [by apply elem_of_list_lookup_2, elem_of_list_In in H|by apply Nat.leb_le]. }
  rewrite forallb_forall. split.
  - intros H. split_and!; [done..|].
    assert (forall i j t u x m, (i < j)%nat -> tasks !! i = Some t -> tasks !! j = Some u -> runs t x -> runs u x -> a !! i = Some m -> a !! j = Some m -> False) as K.
    { intros i j t u x m Lij T U R1 R2 A1 A2. pose proof (lookup_lt_Some _ _ _ U) as LU.
      specialize (H i ltac:(apply in_seq; lia)). rewrite forallb_forall in H. specialize (H j ltac:(apply in_seq; lia)).
      rewrite !nth_lookup, A1, A2, (G _ _ T), (G _ _ U) in H. cbn in H. rewrite Nat.eqb_refl in H. cbn in H. apply negb_true_iff in H.
      assert (overlaps t u = true); [|congruence]. apply overlaps_iff; [apply (proper_lookup _ _ _ P T)|apply (proper_lookup _ _ _ P U)|eauto]. }
    intros i j t u x m N T U R1 R2 A1 A2. destruct (Nat.lt_total i j) as [Q|[Q|Q]]; [|done|]; eapply K; eauto.
  - intros (_ & _ & H) i I. apply in_seq in I. apply forallb_forall. intros j J. apply in_seq in J. apply negb_true_iff, not_true_iff_false. intros E.
    apply andb_true_iff in E as [E O]. apply Nat.eqb_eq in E.
    destruct (lookup_lt_is_Some_2 tasks i) as [t T]; [lia|]. destruct (lookup_lt_is_Some_2 tasks j) as [u U]; [lia|].
    destruct (lookup_lt_is_Some_2 a i) as [m M]; [lia|]. destruct (lookup_lt_is_Some_2 a j) as [k K]; [lia|].
    rewrite !nth_lookup, M, K in E. cbn in E. subst k. rewrite (G _ _ T), (G _ _ U) in O.
    apply overlaps_iff in O as (x & R1 & R2); [|apply (proper_lookup _ _ _ P T)|apply (proper_lookup _ _ _ P U)].
    apply (H i j t u x m); auto. lia.
Qed.
(** An empty task still overlaps another by [overlaps], and may overwrite the time its machine becomes free. *)
Theorem C94_empty_refuted : exists tasks machines a, schedule_or_overflow tasks machines = Feasible a /\ is_valid_schedule tasks machines a = false /\
  exists i j t u x m, i <> j /\ tasks !! i = Some t /\ tasks !! j = Some u /\ runs t x /\ runs u x /\ a !! i = Some m /\ a !! j = Some m.
Proof.
  exists [Iv 0 10; Iv 0 6; Iv 5 5; Iv 6 7], 2%nat, [0; 1; 0; 0]%nat. split_and!; [reflexivity..|].
  exists 0%nat, 3%nat, (Iv 0 10), (Iv 6 7), 6, 0%nat. split_and!; try done; unfold runs; cbn; lia.
Qed.
Lemma clique_spec tasks w : clique_from tasks w = true <-> (forall i, List.In i w -> (i < length tasks)%nat) /\ (forall p i q j r, w = p ++ i :: q ++ j :: r -> overlaps (get tasks i) (get tasks j) = true).
Proof.
  induction w as [|i w IH]; cbn [clique_from List.In].
  - split; [|done]. intros _. split; [done|]. intros p i q j r E. by destruct p.
  - rewrite !andb_true_iff, IH, forallb_forall, Nat.ltb_lt. split.
    + intros [[H1 H2] [H3 H4]]. split; [intros k [<-|K]; auto|]. intros [|x p] k q j r E; injection E as E1 E.
      * subst. specialize (H2 j ltac:(apply List.in_app_iff; right; by left)). by apply andb_true_iff in H2 as [_ ?].
      * eapply H4. exact E.
    + intros [H1 H2]. split_and!; auto.
      * intros j J. apply andb_true_iff. split; [apply Nat.ltb_lt; auto|]. apply List.in_split in J as (q & r & ->). by apply (H2 [] i q j r).
      * intros p k q j r ->. by apply (H2 (i :: p) k q j r).
Qed.
Lemma pair_split {A} (l : list A) i j : List.In i l -> List.In j l -> i <> j -> (exists p q r, l = p ++ i :: q ++ j :: r) \/ (exists p q r, l = p ++ j :: q ++ i :: r).
Proof.
  intros I J N. apply List.in_split in I as (p & q & ->). apply List.in_app_iff in J as [J|[J|J]]; [|done|].
  - right. apply List.in_split in J as (p1 & p2 & ->). exists p1, p2, q. by rewrite <- app_assoc.
  - left. apply List.in_split in J as (q1 & q2 & ->). by exists p, q1, q2.
Qed.
(** Without repetitions in it, an accepted witness rules out every schedule. *)
Theorem C94_witness_partial : forall tasks machines w, proper tasks -> List.NoDup w -> is_overflow_witness tasks machines w = true -> forall a, ~ schedule_ok tasks machines a.
Proof.
  intros tasks machines w P N. unfold is_overflow_witness. destruct (Nat.leb_spec (length w) machines) as [|L]; [done|].
  intros H a (A1 & A2 & A3). apply clique_spec in H as [H1 H2].
  assert (forall i, List.In i w -> exists t m, tasks !! i = Some t /\ a !! i = Some m) as Q.
  { intros i I. apply H1 in I. destruct (lookup_lt_is_Some_2 tasks i I) as [t T]. rewrite <- A1 in I. destruct (lookup_lt_is_Some_2 a i I) as [m M]. eauto. }
  destruct (pigeon (fun i => nth i a O) w machines N) as (i & j & I & J & Nij & E); [|done|].
  - intros i I. destruct (Q i I) as (t & m & T & M). rewrite nth_lookup, M. eauto.
  - destruct (Q i I) as (t & m & T & M), (Q j J) as (u & k & U & K). cbn in E. rewrite !nth_lookup, M, K in E. cbn in E. subst k.
    assert (overlaps t u = true) as O.
    { destruct (pair_split w i j I J Nij) as [(p & q & r & ->)|(p & q & r & ->)]; pose proof (H2 _ _ _ _ _ eq_refl) as O;
        rewrite (get_lookup tasks _ _ T), (get_lookup tasks _ _ U) in O; [done|by rewrite overlaps_comm]. }
    apply overlaps_iff in O as (x & R1 & R2); [|apply (proper_lookup _ _ _ P T)|apply (proper_lookup _ _ _ P U)]. eauto.
Qed.
(** The checker does not look for repetitions: one task alone is shown to need two machines. *)
Theorem C94_witness_refuted : exists tasks machines w a, proper tasks /\ is_overflow_witness tasks machines w = true /\ schedule_ok tasks machines a.
Proof.
  exists [Iv 0 5], 1%nat, [0; 0]%nat, [0%nat].
  assert (proper [Iv 0 5]) as P by (intros t [<-|[]]; cbn; lia).
  split_and!; [done|reflexivity|]. by apply C94_valid_schedule.
Qed.
(** The witnesses the scheduler gives are accepted. *)
Theorem C94_certified : forall tasks machines w, schedule_or_overflow tasks machines = Infeasible w -> is_overflow_witness tasks machines w = true.
Proof.
  intros tasks machines w H. apply C94_infeasible in H as (L & _ & (x & R) & _). unfold is_overflow_witness.
  destruct (Nat.leb_spec (length w) machines); [lia|]. apply clique_spec. split.
  - intros i I. destruct (R i I) as (t & T & _). by apply lookup_lt_Some in T.
  - intros p i q j r ->. destruct (R i) as (t & T & R1); [apply List.in_app_iff; right; by left|].
    destruct (R j) as (u & U & R2); [apply List.in_app_iff; right; right; apply List.in_app_iff; right; by left|].
    rewrite (get_lookup tasks _ _ T), (get_lookup tasks _ _ U). apply overlaps_iff; unfold runs in *; [lia..|]. exists x. unfold runs. lia.
Qed.

(** Registers. *)
Lemma collect_rev {A} (l : list (nat * A)) : collect l = list_to_map (rev l).
Proof.
  unfold collect. induction l as [|x l IH] using rev_ind; [done|]. rewrite fold_left_app, rev_app_distr. cbn. rewrite IH. by destruct x.
Qed.
Lemma collect_in {A} (l : list (nat * A)) k v : collect l !! k = Some v -> List.In (k, v) l.
Proof. rewrite collect_rev. intros H. apply elem_of_list_to_map_2 in H. by apply elem_of_list_In, List.in_rev in H. Qed.
Lemma collect_some {A} (l : list (nat * A)) k v : List.NoDup (map fst l) -> List.In (k, v) l -> collect l !! k = Some v.
Proof.
  rewrite collect_rev. intros N I. apply elem_of_list_to_map_1.
  - apply NoDup_ListNoDup. rewrite List.map_rev. by apply NoDup_rev.
  - by apply elem_of_list_In, List.in_rev in I || (apply elem_of_list_In; by rewrite <- List.in_rev).
Qed.
Lemma collect_size {A} (l : list (nat * A)) : List.NoDup (map fst l) -> size (collect l) = length l.
Proof.
  intros N. change (size (collect l)) with (length (map_to_list (collect l))). rewrite collect_rev, map_to_list_to_map; [apply rev_length|]. apply NoDup_ListNoDup.
  change (List.NoDup (map fst (rev l))). rewrite List.map_rev. by apply NoDup_rev.
Qed.
Definition proper_ranges (rs : list range) : Prop := forall r, List.In r rs -> - 2 ^ 63 <= start (live r) < stop (live r).
Lemma proper_map rs : proper_ranges rs -> proper (map live rs).
Proof. intros P t I. apply List.in_map_iff in I as (r & <- & I). auto. Qed.
Lemma zip_lookup {A B} (l : list A) (k : list B) i a b : zip l k !! i = Some (a, b) <-> l !! i = Some a /\ k !! i = Some b.
Proof.
  revert k i. induction l as [|x l IH]; intros [|y k] [|i]; cbn; try (rewrite ?lookup_nil; split; [done|intros [? ?]; done]).
  - split; [intros [= -> ->]; done|intros [[= ->] [= ->]]; done].
  - apply IH.
Qed.
Theorem C94_allocated : forall rs registers l, proper_ranges rs -> List.NoDup (map var rs) -> allocate rs registers = Allocated l ->
  map fst l = map var rs /\ (forall v m, List.In (v, m) l -> (m < registers)%nat) /\
  (forall r s x m, List.In r rs -> List.In s rs -> r <> s -> runs (live r) x -> runs (live s) x -> List.In (var r, m) l -> List.In (var s, m) l -> False) /\
  is_valid_allocation rs registers l = true.
Proof.
  intros rs registers l P N. unfold allocate. destruct (schedule_or_overflow _ _) as [a|] eqn:S; [|done]. intros [= <-].
  apply C94_feasible in S as (A1 & A2 & A3); [|by apply proper_map]. rewrite List.map_length in A1.
  assert (map fst (zip (map var rs) a) = map var rs) as F.
  { change (map fst (zip (map var rs) a)) with (fst <$> zip (map var rs) a). apply fst_zip. rewrite fmap_length. lia. }
  assert (forall v m, List.In (v, m) (zip (map var rs) a) -> exists i r, rs !! i = Some r /\ var r = v /\ a !! i = Some m) as I.
  { intros v m H. apply elem_of_list_In, elem_of_list_lookup in H as [i H]. apply zip_lookup in H as [H1 H2].
    apply list_lookup_fmap_Some in H1 as (r & H1 & ->). eauto. }
  assert (forall v m, List.In (v, m) (zip (map var rs) a) -> (m < registers)%nat) as B.
  { intros v m H. apply I in H as (i & r & _ & _ & H). eauto. }
  assert (forall i j r s, rs !! i = Some r -> rs !! j = Some s -> var r = var s -> i = j) as V.
  { intros i j r s R S E. apply NoDup_ListNoDup in N. eapply (NoDup_lookup _ i j (var r) N); change (map var rs) with (var <$> rs); rewrite list_lookup_fmap; [by rewrite R|by rewrite S; cbn; rewrite E]. }
  assert (forall r s x m, List.In r rs -> List.In s rs -> r <> s -> runs (live r) x -> runs (live s) x -> List.In (var r, m) (zip (map var rs) a) -> List.In (var s, m) (zip (map var rs) a) -> False) as D.
  { intros r s x m Ir Is Nrs R1 R2 H1 H2. apply I in H1 as (i & r' & T & E1 & M1), H2 as (j & s' & U & E2 & M2).
    apply elem_of_list_In, elem_of_list_lookup in Ir as [i' Ir]. apply elem_of_list_In, elem_of_list_lookup in Is as [j' Is].
    assert (i = i') as <- by (eapply V; eauto). assert (j = j') as <- by (eapply V; eauto).
    assert (r' = r) as -> by congruence. assert (s' = s) as -> by congruence.
    eapply (A3 i j (live r) (live s) x m); try done.
    - intros ->. congruence.
    - change (map live rs) with (live <$> rs). by rewrite list_lookup_fmap, T.
    - change (map live rs) with (live <$> rs). by rewrite list_lookup_fmap, U. }
  split_and!; [done..|]. unfold is_valid_allocation.
  assert (length (zip (map var rs) a) = length rs) as L.
  { rewrite <- (List.map_length fst), F. apply List.map_length. }
  rewrite L, Nat.eqb_refl. cbn [negb]. rewrite collect_size, L, Nat.eqb_refl by (by rewrite F). cbn [negb orb].
  destruct (existsb _ _) eqn:X.
  { exfalso. apply existsb_exists in X as ([v m] & H & X). apply elem_of_list_In, elem_of_map_to_list, collect_in, B in H. cbn in X. apply Nat.leb_le in X. lia. }
  apply forallb_forall. intros i Hi. apply in_seq in Hi. apply forallb_forall. intros j Hj. apply in_seq in Hj.
  apply negb_true_iff, not_true_iff_false. intros E. apply andb_true_iff in E as [O E]. apply bool_decide_eq_true in E.
  destruct (lookup_lt_is_Some_2 rs i) as [r R]; [lia|]. destruct (lookup_lt_is_Some_2 rs j) as [s S]; [lia|].
  rewrite !nth_lookup, R, S in *. cbn in O, E.
  assert (List.In r rs) as Ir by (by apply elem_of_list_lookup_2, elem_of_list_In in R). assert (List.In s rs) as Is by (by apply elem_of_list_lookup_2, elem_of_list_In in S).
  apply overlaps_iff in O as (x & R1 & R2); [|by apply P|by apply P].
  destruct (lookup_lt_is_Some_2 a i) as [m M]; [lia|].
  assert (List.In (var r, m) (zip (map var rs) a)) as H.
  { apply elem_of_list_In, elem_of_list_lookup. exists i. apply zip_lookup. split; [|done]. change (map var rs) with (var <$> rs). by rewrite list_lookup_fmap, R. }
  eapply D; [exact Ir|exact Is| |exact R1|exact R2|exact H|].
  - intros ->. assert (i = j) by (eapply V; eauto). lia.
  - rewrite (collect_some _ _ m) in E; [|by rewrite F|done]. by apply collect_in.
Qed.
Theorem C94_spill : forall rs registers pressure ws, List.NoDup (map var rs) -> allocate rs registers = Spill pressure ws ->
  pressure = register_pressure rs /\ Z.of_nat registers < pressure /\ length ws = S registers /\ List.NoDup ws /\
  (exists x, forall v, List.In v ws -> exists r, List.In r rs /\ var r = v /\ runs (live r) x) /\ is_spill_certificate rs registers ws = true.
Proof.
  intros rs registers pressure ws N. unfold allocate. destruct (schedule_or_overflow _ _) as [|w] eqn:S; [done|]. intros [= <- <-].
  apply C94_infeasible in S as (L & D & (x & R) & _).
  set (f := fun i => var (nth i rs (Lr O (Iv 0 0)))).
  assert (forall i, List.In i w -> exists r, rs !! i = Some r /\ f i = var r /\ runs (live r) x) as Q.
  { intros i I. destruct (R i I) as (t & T & Rt). apply list_lookup_fmap_Some in T as (r & T & ->). exists r. subst f. cbn. rewrite nth_lookup, T. done. }
  assert (List.NoDup (map f w)) as Dw.
  { destruct (dup_or f w D) as [H|(i & j & I & J & Nij & E)]; [done|]. exfalso. apply Nij.
    destruct (Q i I) as (r & T & E1 & _), (Q j J) as (s & U & E2 & _). apply NoDup_ListNoDup in N.
    eapply (NoDup_lookup _ i j (var r) N); change (map var rs) with (var <$> rs); rewrite list_lookup_fmap; [by rewrite T|rewrite U; cbn; congruence]. }
  assert (forall v, List.In v (map f w) -> exists r, List.In r rs /\ var r = v /\ runs (live r) x) as V.
  { intros v I. apply List.in_map_iff in I as (i & <- & I). destruct (Q i I) as (r & T & E & Rr). exists r. split; [by apply elem_of_list_lookup_2, elem_of_list_In in T|done]. }
  split_and!; [done| |by rewrite List.map_length|done|eauto|].
  - pose proof (proj1 (C94_peak (map live rs)) w x D R). lia.
  - unfold is_spill_certificate. destruct (Nat.leb_spec (length (map f w)) registers) as [K|K]; [rewrite List.map_length in K; lia|].
    assert (List.NoDup (map fst (map (fun r => (var r, live r)) rs))) as N' by by rewrite List.map_map.
    assert (forall v, List.In v (map f w) -> exists t, collect (map (fun r => (var r, live r)) rs) !! v = Some t /\ runs t x) as W.
    { intros v I. destruct (V v I) as (r & Ir & <- & Rr). exists (live r). split; [|done]. apply collect_some; [done|]. apply List.in_map_iff. eauto. }
    clear -W. induction (map f w) as [|v l IH]; cbn; [done|]. destruct (W v ltac:(by left)) as (t & -> & Rt).
    apply andb_true_iff. split; [|apply IH; intros u I; apply W; by right]. apply forallb_forall. intros u I. destruct (W u ltac:(by right)) as (s & -> & Rs).
    apply overlaps_iff; unfold runs in *; [lia..|]. exists x. unfold runs. lia.
Qed.
(** is_valid_allocation looks variables up in the allocation without asking that they are there. *)
Theorem C94_allocation_refuted : exists rs registers l, proper_ranges rs /\ List.NoDup (map var rs) /\ is_valid_allocation rs registers l = true /\ exists r, List.In r rs /\ forall m, ~ List.In (var r, m) l.
Proof.
  exists [Lr 0 (Iv 0 5)], 1%nat, [(7, 0)]%nat. split_and!.
  - intros r [<-|[]]. cbn. lia.
  - repeat constructor. easy.
  - vm_compute. reflexivity.
  - eexists. split; [by left|]. intros m [H|[]]. done.
Qed.
(** is_spill_certificate takes one variable twice. *)
Theorem C94_spill_refuted : exists rs registers ws l, proper_ranges rs /\ is_spill_certificate rs registers ws = true /\ allocate rs registers = Allocated l.
Proof.
  exists [Lr 0 (Iv 0 5)], 1%nat, [0; 0]%nat, [(0, 0)]%nat. split_and!; [|vm_compute; reflexivity|reflexivity].
  intros r [<-|[]]. cbn. lia.
Qed.

(** Three tasks on two machines, the third one starting when the first ends. *)
Definition ex_tasks := [Iv 0 4; Iv 1 6; Iv 4 8].
Example C94_feasible_ex : proper ex_tasks /\ schedule_or_overflow ex_tasks 2 = Feasible [0; 1; 0]%nat /\ is_valid_schedule ex_tasks 2 [0; 1; 0]%nat = true /\ peak_concurrency ex_tasks = 2.
Proof. split_and!; [intros t [<-|[<-|[<-|[]]]]; cbn; lia|reflexivity..]. Qed.
Example C94_infeasible_ex : schedule_or_overflow ex_tasks 1 = Infeasible [0; 1]%nat /\ is_overflow_witness ex_tasks 1 [0; 1]%nat = true.
Proof. split; reflexivity. Qed.
Definition ex_ranges := [Lr 10 (Iv 0 4); Lr 20 (Iv 1 6); Lr 30 (Iv 4 8)].
Example C94_allocate_ex : proper_ranges ex_ranges /\ List.NoDup (map var ex_ranges) /\ allocate ex_ranges 2 = Allocated [(10, 0); (20, 1); (30, 0)]%nat /\ allocate ex_ranges 1 = Spill 2 [10; 20]%nat.
Proof. split_and!; [intros r [<-|[<-|[<-|[]]]]; cbn; lia|repeat constructor; cbn; intuition lia|reflexivity..]. Qed.
