(** Lemmas for [TraceModel]. *)
From Coq Require Import List Arith NArith ZArith Bool Lia Permutation Relations.
From Verif Require Import TraceModel.
Import ListNotations.

(** * The transitive closure. *)
Lemma set2_spec m a b i j : set2 m a b i j = true <-> (i = a /\ j = b) \/ m i j = true.
Proof.
  unfold set2. destruct (Nat.eqb_spec i a) as [->|H1], (Nat.eqb_spec j b) as [->|H2]; cbn; intuition congruence.
Qed.
Lemma edges_spec es : forall m i j, fold_left (fun m e => set2 m (fst e) (snd e)) es m i j = true <-> In (i, j) es \/ m i j = true.
Proof.
  induction es as [|[a b] es IH]; intros m i j; cbn [fold_left In]; [tauto|]. rewrite IH. cbn [fst snd]. rewrite set2_spec.
  intuition congruence.
Qed.
Lemma close_inner k i l : forall m a b,
  fold_left (fun (m : nat -> nat -> bool) j => if m k j then set2 m i j else m) l m a b = true <->
  m a b = true \/ (a = i /\ In b l /\ m k b = true).
Proof.
  induction l as [|j l IH]; intros m a b; cbn [fold_left In]; [tauto|]. rewrite IH. destruct (m k j) eqn:E.
  - rewrite !set2_spec. split.
    + intros [[[-> ->]|H]|(-> & H & [[-> ->]|H'])]; auto.
    + intros [H|(-> & [->|H] & H')]; auto.
  - split.
    + intros [H|(-> & H & H')]; auto.
    + intros [H|(-> & [->|H] & H')]; auto. congruence.
Qed.
Lemma close_row_spec n k i m a b : close_row n k i m a b = true <-> m a b = true \/ (a = i /\ b < n /\ m i k = true /\ m k b = true).
Proof.
  unfold close_row. destruct (m i k) eqn:E.
  - rewrite close_inner, in_seq. split; [intros [H|(-> & H & H')]; auto; right; repeat split; auto; lia|].
    intros [H|(-> & H & _ & H')]; auto. right. repeat split; auto; lia.
  - split; [auto|]. intros [H|(_ & _ & H & _)]; [exact H|discriminate].
Qed.
Lemma close_rows n k l : forall m a b, NoDup l ->
  fold_left (fun (m : nat -> nat -> bool) i => close_row n k i m) l m a b = true <->
  m a b = true \/ (In a l /\ b < n /\ m a k = true /\ m k b = true).
Proof.
  induction l as [|i l IH]; intros m a b Hn; cbn [fold_left In]; [tauto|]. inversion Hn as [|? ? Hi Hl]; subst.
  rewrite IH by exact Hl. rewrite !close_row_spec. split.
  - intros [[H|(-> & H1 & H2 & H3)]|(H1 & H2 & [H3|(-> & _ & H3 & H3')] & [H4|(-> & _ & H4 & H4')])]; auto;
      right; repeat split; auto.
  - intros [H|([->|H1] & H2 & H3 & H4)]; [now left; left|left; right; now repeat split|right; repeat split; auto].
Qed.
Lemma stage_spec n m k a b : a < n -> b < n -> close_stage n m k a b = true <-> m a b = true \/ (m a k = true /\ m k b = true).
Proof.
  intros Ha Hb. unfold close_stage. rewrite close_rows by apply seq_NoDup. rewrite in_seq. intuition lia.
Qed.
Lemma stage_out n m k a b : close_stage n m k a b = true -> m a b = true \/ (m a k = true /\ m k b = true).
Proof. unfold close_stage. rewrite close_rows by apply seq_NoDup. tauto. Qed.
Lemma stage_mono n m k a b : m a b = true -> close_stage n m k a b = true.
Proof. unfold close_stage. rewrite close_rows by apply seq_NoDup. tauto. Qed.
Lemma stages_mono n l : forall m a b, m a b = true -> fold_left (close_stage n) l m a b = true.
Proof. induction l as [|k l IH]; intros m a b H; cbn; [exact H|]. now apply IH, stage_mono. Qed.
Lemma stages_sound n (E : nat -> nat -> Prop) l : forall m, (forall a b, m a b = true -> clos_trans nat E a b) ->
  forall a b, fold_left (close_stage n) l m a b = true -> clos_trans nat E a b.
Proof.
  induction l as [|k l IH]; intros m Hm a b H; cbn in H; [now apply Hm|]. revert a b H. apply IH. intros a b H.
  apply stage_out in H as [H|[H1 H2]]; [now apply Hm|]. apply t_trans with k; now apply Hm.
Qed.
Lemma stages_trans n K : forall m, K <= n -> forall a b c, a < n -> b < K -> c < n ->
  fold_left (close_stage n) (seq 0 K) m a b = true -> fold_left (close_stage n) (seq 0 K) m b c = true ->
  fold_left (close_stage n) (seq 0 K) m a c = true.
Proof.
  induction K as [|K IH]; intros m HK a b c Ha Hb Hc; [lia|]. rewrite seq_S, fold_left_app. cbn [fold_left plus].
  assert (IH' := fun a b c => IH m ltac:(lia) a b c). clear IH. set (r := fold_left (close_stage n) (seq 0 K) m) in *. clearbody r.
  rewrite !stage_spec by lia. intros H1 H2. destruct (Nat.eq_dec b K) as [->|Hne].
  - destruct H1 as [H1|[H1 _]], H2 as [H2|[_ H2]]; auto.
  - assert (Hb' : b < K) by lia. destruct H1 as [H1|[H1 H1']], H2 as [H2|[H2 H2']].
    + left. eapply IH'; eauto.
    + right. split; [|exact H2']. apply (IH' a b K); auto; lia.
    + right. split; [exact H1|]. apply (IH' K b c); auto; lia.
    + right. auto.
Qed.
Definition in_range (n : nat) (es : list (nat * nat)) : Prop := forall a b, In (a, b) es -> a < n /\ b < n.
Lemma poset_new_spec n es i j : in_range n es ->
  prec (poset_new n es) i j = true <-> clos_trans nat (fun a b => In (a, b) es) i j.
Proof.
  intros Hr. unfold poset_new. cbn [prec].
  set (m := fold_left (fun m e => set2 m (fst e) (snd e)) es (fun _ _ => false)).
  assert (Hm : forall a b, m a b = true <-> In (a, b) es).
  { intros a b. unfold m. rewrite edges_spec. intuition discriminate. }
  split.
  - apply stages_sound. intros a b H. apply t_step. now apply Hm.
  - intros H.
    assert (G : i < n /\ j < n /\ fold_left (close_stage n) (seq 0 n) m i j = true); [|tauto].
    induction H as [a b H|a b c _ (A1 & A2 & A3) _ (B1 & B2 & B3)].
    + destruct (Hr a b H). repeat split; auto. now apply stages_mono, Hm.
    + repeat split; auto. now apply (stages_trans n n m (le_n n) a b c).
Qed.
Lemma poset_new_range n es i j : in_range n es -> prec (poset_new n es) i j = true -> i < n /\ j < n.
Proof.
  intros Hr H. apply poset_new_spec in H; [|exact Hr]. induction H as [a b H|a b c _ [A1 A2] _ [B1 B2]]; [now apply Hr|auto].
Qed.

(** * Masks. *)
Lemma has_add m j i : has (add m j) i = (i =? j) || has m i.
Proof.
  unfold has, add. rewrite N.setbit_eqb. destruct (Nat.eqb_spec i j) as [->|H].
  - now rewrite N.eqb_refl.
  - destruct (N.eqb_spec (N.of_nat j) (N.of_nat i)); [lia|reflexivity].
Qed.
Lemma has_add_same m j : has (add m j) j = true.
Proof. rewrite has_add, Nat.eqb_refl. reflexivity. Qed.
Lemma has_zero j : has 0 j = false. Proof. apply N.bits_0. Qed.
Lemma preds_in_spec p m j : preds_in p m j = true <-> forall i, i < size p -> prec p i j = true -> has m i = true.
Proof.
  unfold preds_in. rewrite forallb_forall. split.
  - intros H i Hi Hp. specialize (H i). rewrite in_seq in H. specialize (H ltac:(lia)). rewrite Hp in H. exact H.
  - intros H i Hi. apply in_seq in Hi. destruct (prec p i j) eqn:E; [|reflexivity]. cbn. apply H; [lia|exact E].
Qed.
Lemma in_enabled p m j : In j (enabled p m) <-> j < size p /\ has m j = false /\ forall i, i < size p -> prec p i j = true -> has m i = true.
Proof.
  unfold enabled. rewrite filter_In, in_seq, andb_true_iff, negb_true_iff, preds_in_spec. intuition lia.
Qed.
Lemma is_ideal_spec p m : is_ideal p m = true <->
  forall j, j < size p -> has m j = true -> forall i, i < size p -> prec p i j = true -> has m i = true.
Proof.
  unfold is_ideal. rewrite forallb_forall. split.
  - intros H j Hj Hm. specialize (H j). rewrite in_seq in H. specialize (H ltac:(lia)). rewrite Hm in H. cbn in H. now apply preds_in_spec.
  - intros H j Hj. apply in_seq in Hj. destruct (has m j) eqn:E; [|reflexivity]. cbn. apply preds_in_spec. apply H; [lia|exact E].
Qed.
Lemma enabled_nodup p m : NoDup (enabled p m).
Proof. apply NoDup_filter, seq_NoDup. Qed.
Lemma enabled_independent p m x y : In x (enabled p m) -> In y (enabled p m) -> x <> y -> independent p x y = true.
Proof.
  intros Hx Hy Hn. apply in_enabled in Hx as (X1 & X2 & X3). apply in_enabled in Hy as (Y1 & Y2 & Y3). unfold independent.
  apply Nat.eqb_neq in Hn. rewrite Hn. cbn. destruct (prec p x y) eqn:E1; [rewrite (Y3 x X1 E1) in X2; discriminate|].
  destruct (prec p y x) eqn:E2; [rewrite (X3 y Y1 E2) in Y2; discriminate|]. reflexivity.
Qed.
Lemma pairwise_spec p s : is_pairwise_independent p s = true <->
  forall a b, a < b < length s -> independent p (nth a s 0) (nth b s 0) = true.
Proof.
  unfold is_pairwise_independent. rewrite forallb_forall. split.
  - intros H a b Hab. specialize (H a). rewrite in_seq in H. specialize (H ltac:(lia)). rewrite forallb_forall in H. apply H, in_seq. lia.
  - intros H a Ha. apply in_seq in Ha. apply forallb_forall. intros b Hb. apply in_seq in Hb. apply H. lia.
Qed.
Lemma in_subset items m x : In x (subset items m) -> In x items.
Proof.
  unfold subset. rewrite in_map_iff. intros (b & <- & Hb). apply filter_In in Hb as [Hb _]. apply in_seq in Hb. apply nth_In. lia.
Qed.
Lemma subset_nodup items m : NoDup items -> NoDup (subset items m).
Proof.
  intros Hn. unfold subset.
  assert (H : forall l, NoDup l -> (forall b, In b l -> b < length items) -> NoDup (map (fun b => nth b items 0) l)).
  { induction l as [|b l IH]; intros Hl Hb; cbn; constructor; inversion Hl as [|? ? H1 H2]; subst.
    - intros Hin. apply in_map_iff in Hin as (c & E & Hc). apply H1.
      assert (c = b) as <-; [|exact Hc]. apply (proj1 (NoDup_nth items 0)); auto; apply Hb; [now right|now left].
    - apply IH; [exact H2|]. intros c Hc. apply Hb. now right. }
  apply H; [apply NoDup_filter, seq_NoDup|]. intros b Hb. apply filter_In in Hb as [Hb _]. apply in_seq in Hb. lia.
Qed.
Lemma subset_independent p m k : is_pairwise_independent p (subset (enabled p m) k) = true.
Proof.
  apply pairwise_spec. intros a b Hab. set (s := subset (enabled p m) k) in *.
  apply (enabled_independent p m); try (apply (in_subset _ k); fold s; apply nth_In; lia).
  intros E. assert (a = b); [|lia]. apply (proj1 (NoDup_nth s 0)); try lia. apply subset_nodup, enabled_nodup.
Qed.

(** * The Euler characteristic. *)
Definition sgn (k : nat) : Z := if Nat.even k then 1%Z else (-1)%Z.
Lemma sgn_S k : sgn (S k) = (- sgn k)%Z.
Proof. unfold sgn. rewrite Nat.even_succ, <- Nat.negb_even. now destruct (Nat.even k). Qed.
Lemma fold_sum {A} (f : A -> Z) l : forall t, fold_left (fun t x => (t + f x)%Z) l t = (t + fold_right (fun x s => f x + s) 0 l)%Z.
Proof. induction l as [|a l IH]; intros t; cbn; [lia|]. rewrite IH. lia. Qed.
Definition zsum {A} (f : A -> Z) (l : list A) : Z := fold_right (fun x s => (f x + s)%Z) 0%Z l.
Lemma zsum_app {A} (f : A -> Z) l l' : zsum f (l ++ l') = (zsum f l + zsum f l')%Z.
Proof. unfold zsum. induction l as [|a l IH]; cbn; [lia|]. rewrite IH. lia. Qed.
Lemma zsum_ext {A} (f g : A -> Z) l : (forall x, In x l -> f x = g x) -> zsum f l = zsum g l.
Proof. intros H. induction l as [|a l IH]; [reflexivity|]. cbn. rewrite (H a (or_introl eq_refl)). f_equal. apply IH. intros x Hx. apply H. now right. Qed.
Lemma zsum_map {A B} (f : B -> Z) (h : A -> B) l : zsum f (map h l) = zsum (fun x => f (h x)) l.
Proof. unfold zsum. induction l as [|a l IH]; cbn; [reflexivity|]. now rewrite IH. Qed.
Lemma zsum_opp {A} (f : A -> Z) l : zsum (fun x => (- f x)%Z) l = (- zsum f l)%Z.
Proof. unfold zsum. induction l as [|a l IH]; cbn; [reflexivity|]. rewrite IH. lia. Qed.
Definition bits (k m : nat) : nat := length (List.filter (has (N.of_nat m)) (seq 0 k)).
Lemma has_pow2 k m j : m < 2 ^ k -> has (N.of_nat (2 ^ k + m)) j = if j =? k then true else if j <? k then has (N.of_nat m) j else false.
Proof.
  intros Hm. unfold has. rewrite Nat2N.inj_add, Nat2N.inj_pow. change (N.of_nat 2) with 2%N.
  assert (Hm' : (N.of_nat m < 2 ^ N.of_nat k)%N) by (change 2%N with (N.of_nat 2); rewrite <- Nat2N.inj_pow; lia).
  destruct (Nat.eqb_spec j k) as [->|Hj].
  - rewrite N.add_comm, N.testbit_eqb. rewrite <- (N.mul_1_l (2 ^ N.of_nat k)) at 1. rewrite N.div_add by (now apply N.pow_nonzero).
    rewrite N.div_small by exact Hm'. reflexivity.
  - destruct (Nat.ltb_spec j k) as [Hlt|Hge].
    + rewrite !N.testbit_eqb. replace (N.of_nat k) with (N.of_nat j + 1 + N.of_nat (k - j - 1))%N by lia.
      rewrite !N.pow_add_r, N.pow_1_r. replace (2 ^ N.of_nat j * 2 * 2 ^ N.of_nat (k - j - 1))%N with ((2 ^ N.of_nat (k - j - 1) * 2) * 2 ^ N.of_nat j)%N by ring.
      rewrite N.add_comm, N.div_add by (now apply N.pow_nonzero). rewrite N.mod_add by lia. reflexivity.
    + rewrite N.testbit_eqb. rewrite N.div_small; [reflexivity|].
      apply N.lt_le_trans with (2 ^ N.of_nat (S k))%N; [|apply N.pow_le_mono_r; lia].
      rewrite Nat2N.inj_succ, N.pow_succ_r'. lia.
Qed.
Lemma has_small k m j : m < 2 ^ k -> k <= j -> has (N.of_nat m) j = false.
Proof.
  intros Hm Hj. unfold has. rewrite N.testbit_eqb, N.div_small; [reflexivity|].
  apply N.lt_le_trans with (2 ^ N.of_nat k)%N; [|apply N.pow_le_mono_r; lia]. change 2%N with (N.of_nat 2). rewrite <- Nat2N.inj_pow. lia.
Qed.
Lemma bits_low k m : m < 2 ^ k -> bits (S k) m = bits k m.
Proof.
  intros Hm. unfold bits. rewrite seq_S, filter_app, app_length. cbn [plus List.filter]. rewrite (has_small k m k Hm) by lia. cbn. lia.
Qed.
Lemma bits_high k m : m < 2 ^ k -> bits (S k) (2 ^ k + m) = S (bits k m).
Proof.
  intros Hm. unfold bits. rewrite seq_S, filter_app, app_length. cbn [plus List.filter]. rewrite has_pow2, Nat.eqb_refl by exact Hm. cbn [length].
  rewrite Nat.add_1_r. f_equal. f_equal. apply filter_ext_in. intros j Hj. apply in_seq in Hj. rewrite has_pow2 by exact Hm.
  destruct (Nat.eqb_spec j k); [lia|]. destruct (Nat.ltb_spec j k); [reflexivity|lia].
Qed.
Lemma seq_shift_add a n : seq a n = map (fun m => a + m) (seq 0 n).
Proof.
  revert a. induction n as [|n IH]; intros a; [reflexivity|]. cbn. rewrite Nat.add_0_r. f_equal. rewrite (IH (S a)), <- seq_shift, map_map.
  apply map_ext. intros m. lia.
Qed.
Lemma sign_sum k : zsum (fun m => sgn (bits k m)) (seq 0 (2 ^ k)) = if k =? 0 then 1%Z else 0%Z.
Proof.
  destruct k as [|k]; [reflexivity|]. cbn [Nat.eqb]. replace (2 ^ S k) with (2 ^ k + 2 ^ k) by (cbn; lia).
  rewrite seq_app, zsum_app. cbn [plus]. rewrite (seq_shift_add (2 ^ k)), zsum_map.
  rewrite (zsum_ext _ (fun m => sgn (bits k m)) (seq 0 (2 ^ k))) by (intros m Hm; apply in_seq in Hm; rewrite bits_low by lia; reflexivity).
  rewrite (zsum_ext (fun x => sgn (bits (S k) (2 ^ k + x))) (fun m => (- sgn (bits k m))%Z)); [rewrite zsum_opp; lia|].
  intros m Hm. apply in_seq in Hm. rewrite bits_high by lia. apply sgn_S.
Qed.
Lemma signed_enabled p m : signed_independent_subsets p (enabled p m) = if length (enabled p m) =? 0 then 1%Z else 0%Z.
Proof.
  unfold signed_independent_subsets, masks. rewrite <- sign_sum.
  assert (H : forall l t, fold_left (fun total mask => let s := subset (enabled p m) mask in
      if is_pairwise_independent p s then (total + if Nat.even (length s) then 1 else -1)%Z else total) (map N.of_nat l) t
      = (t + zsum (fun m' => sgn (bits (length (enabled p m)) m')) l)%Z).
  { induction l as [|a l IH]; intros t; cbn [map fold_left zsum fold_right]; [unfold zsum; cbn; lia|].
    rewrite IH. cbv zeta. rewrite subset_independent. unfold subset at 1. rewrite map_length. fold (bits (length (enabled p m)) a).
    fold (sgn (bits (length (enabled p m)) a)). unfold zsum. lia. }
  rewrite H. lia.
Qed.

Definition acyclic (p : poset) : Prop := forall i, i < size p -> prec p i i = false.
Definition transitive (p : poset) : Prop := forall a b c, prec p a b = true -> prec p b c = true -> prec p a c = true.
Lemma minimal p (L : list nat) : transitive p -> (forall i, In i L -> prec p i i = false) -> L <> [] ->
  exists m, In m L /\ forall x, In x L -> prec p x m = false.
Proof.
  intros Ht. induction L as [|a L IH]; intros Hi Hn; [easy|]. destruct L as [|b L].
  - exists a. split; [now left|]. intros x [<-|[]]. apply Hi. now left.
  - destruct IH as (m & Hm & H); [intros i H; apply Hi; now right|easy|]. destruct (prec p a m) eqn:E.
    + exists a. split; [now left|]. intros x Hx. destruct (prec p x a) eqn:E2; [|reflexivity]. destruct Hx as [<-|Hx].
      * rewrite Hi in E2 by (now left). discriminate.
      * pose proof (Ht x a m E2 E) as E3. rewrite (H x Hx) in E3. discriminate.
    + exists m. split; [now right|]. intros x [<-|Hx]; auto.
Qed.
Lemma enabled_nonempty p m : transitive p -> acyclic p -> enabled p m = [] -> forall j, j < size p -> has m j = true.
Proof.
  intros Ht Ha He j Hj. destruct (has m j) eqn:E; [reflexivity|exfalso].
  destruct (minimal p (List.filter (fun i => negb (has m i)) (seq 0 (size p))) Ht) as (x & Hx & Hmin).
  - intros i Hi. apply filter_In in Hi as [Hi _]. apply in_seq in Hi. apply Ha. lia.
  - intros En. assert (In j []) as []. rewrite <- En. apply filter_In. split; [apply in_seq; lia|now rewrite E].
  - apply filter_In in Hx as [Hx1 Hx2]. apply in_seq in Hx1. apply negb_true_iff in Hx2.
    assert (In x (enabled p m)) as H; [|now rewrite He in H]. apply in_enabled. split; [lia|]. split; [exact Hx2|].
    intros i Hi Hp. destruct (has m i) eqn:Em; [reflexivity|]. rewrite Hmin in Hp; [discriminate|].
    apply filter_In. split; [apply in_seq; lia|now rewrite Em].
Qed.
Lemma full_mask n m : m < 2 ^ n -> (forall j, j < n -> has (N.of_nat m) j = true) -> m = 2 ^ n - 1.
Proof.
  intros Hm H. enough (N.of_nat m = N.ones (N.of_nat n)) as E.
  { rewrite N.ones_equiv in E. assert (N.of_nat m = N.of_nat (2 ^ n - 1)); [|lia]. rewrite E, Nat2N.inj_sub, Nat2N.inj_pow. cbn. lia. }
  apply N.bits_inj. intros i. destruct (N.lt_ge_cases i (N.of_nat n)) as [Hi|Hi].
  - rewrite N.ones_spec_low by exact Hi. specialize (H (N.to_nat i) ltac:(lia)). unfold has in H. now rewrite N2Nat.id in H.
  - rewrite N.ones_spec_high by exact Hi. pose proof (has_small n m (N.to_nat i) Hm ltac:(lia)) as E. unfold has in E. now rewrite N2Nat.id in E.
Qed.
Lemma ones_mask n j : j < n -> has (N.of_nat (2 ^ n - 1)) j = true.
Proof.
  intros Hj. unfold has. replace (N.of_nat (2 ^ n - 1)) with (N.ones (N.of_nat n)).
  - apply N.ones_spec_low. lia.
  - rewrite N.ones_equiv, Nat2N.inj_sub, Nat2N.inj_pow. cbn. lia.
Qed.
Lemma euler_one p : transitive p -> acyclic p -> euler_characteristic p = 1%Z.
Proof.
  intros Ht Ha. unfold euler_characteristic. rewrite fold_sum. fold (zsum (fun i => signed_independent_subsets p (enabled p i)) (ideals p)).
  rewrite (zsum_ext _ (fun i => if (i =? N.of_nat (2 ^ size p - 1))%N then 1%Z else 0%Z)).
  - assert (G : forall l c, NoDup l -> In c l -> zsum (fun i => if (i =? c)%N then 1%Z else 0%Z) l = 1%Z).
    { induction l as [|a l IH]; intros c Hn Hc; [destruct Hc|]. inversion Hn as [|? ? H1 H2]; subst. cbn.
      destruct Hc as [->|Hc].
      - rewrite N.eqb_refl. fold (zsum (fun i => if (i =? c)%N then 1%Z else 0%Z) l). replace (zsum _ l) with 0%Z; [lia|].
        clear -H1. induction l as [|b l IH]; [reflexivity|]. cbn. destruct (N.eqb_spec b c) as [->|]; [exfalso; apply H1; now left|].
        fold (zsum (fun i => if (i =? c)%N then 1%Z else 0%Z) l). rewrite <- IH; [reflexivity|]. intros H. apply H1. now right.
      - destruct (N.eqb_spec a c) as [->|]; [contradiction|]. fold (zsum (fun i => if (i =? c)%N then 1%Z else 0%Z) l). rewrite IH by assumption. lia. }
    rewrite G; [lia| |].
    + apply NoDup_filter. unfold masks. apply FinFun.Injective_map_NoDup; [|apply seq_NoDup]. intros x y. apply Nat2N.inj.
    + apply filter_In. split.
      * apply in_map_iff. eexists. split; [reflexivity|]. apply in_seq. assert (2 ^ size p <> 0) by (now apply Nat.pow_nonzero). lia.
      * apply is_ideal_spec. intros j Hj _ i Hi _. now apply ones_mask.
  - intros i Hi. apply filter_In in Hi as [Hi _]. apply in_map_iff in Hi as (m & <- & Hm). apply in_seq in Hm. rewrite signed_enabled.
    destruct (enabled p (N.of_nat m)) as [|x l] eqn:E; cbn [length Nat.eqb].
    + rewrite <- (full_mask (size p) m); [now rewrite N.eqb_refl|lia|]. now apply enabled_nonempty.
    + destruct (N.eqb_spec (N.of_nat m) (N.of_nat (2 ^ size p - 1))) as [Em|]; [|reflexivity]. exfalso.
      assert (Hx : In x (enabled p (N.of_nat m))) by (rewrite E; now left). apply in_enabled in Hx as (X1 & X2 & _).
      rewrite Em, ones_mask in X2 by exact X1. discriminate.
Qed.
Lemma has_fold_add s : forall m i, has (fold_left add s m) i = true <-> In i s \/ has m i = true.
Proof.
  induction s as [|a s IH]; intros m i; cbn [fold_left In]; [tauto|]. rewrite IH, has_add, orb_true_iff, Nat.eqb_eq. intuition congruence.
Qed.
Lemma cube_condition p : satisfies_cube_condition p = true.
Proof.
  unfold satisfies_cube_condition. apply forallb_forall. intros m Hm. apply filter_In in Hm as [_ Hi]. apply forallb_forall. intros k _.
  cbv zeta. destruct (negb _); [reflexivity|]. apply is_ideal_spec. intros j Hj Hin i Hlt Hp. apply has_fold_add. right.
  apply has_fold_add in Hin as [Hin|Hin].
  - apply in_subset, in_enabled in Hin as (_ & _ & H). now apply H.
  - rewrite is_ideal_spec in Hi. now apply (Hi j).
Qed.

(** * Linear extensions. *)
Fixpoint valid (p : poset) (m : N) (l : list nat) : Prop :=
  match l with [] => True | j :: l => In j (enabled p m) /\ valid p (add m j) l end.
Lemma le_rec_in p : forall k m cur l, In l (le_rec p k m cur) <-> exists s, l = cur ++ s /\ length s = k /\ valid p m s.
Proof.
  induction k as [|k IH]; intros m cur l; cbn [le_rec].
  - split.
    + intros [<-|[]]. exists []. rewrite app_nil_r. easy.
    + intros (s & -> & Hs & _). destruct s; [|discriminate]. rewrite app_nil_r. now left.
  - rewrite in_flat_map. split.
    + intros (j & Hj & H). apply IH in H as (s & -> & Hs & Hv). exists (j :: s). rewrite <- app_assoc. cbn. split; [reflexivity|]. split; [lia|easy].
    + intros (s & -> & Hs & Hv). destruct s as [|j s]; [discriminate|]. destruct Hv as [Hj Hv]. exists j. split; [exact Hj|]. apply IH.
      exists s. rewrite <- app_assoc. cbn in *. split; [reflexivity|]. split; [lia|exact Hv].
Qed.
Lemma le_rec_nodup p : forall k m cur, NoDup (le_rec p k m cur).
Proof.
  induction k as [|k IH]; intros m cur; cbn [le_rec]; [constructor; [easy|constructor]|].
  assert (G : forall l, NoDup l -> NoDup (flat_map (fun j => le_rec p k (add m j) (cur ++ [j])) l)).
  { induction l as [|j l IHl]; intros Hn; cbn; [constructor|]. inversion Hn as [|? ? H1 H2]; subst.
    assert (Hd : forall x, In x (le_rec p k (add m j) (cur ++ [j])) -> ~ In x (flat_map (fun j => le_rec p k (add m j) (cur ++ [j])) l)).
    { intros x Hx Hy. apply in_flat_map in Hy as (i & Hi & Hy). apply le_rec_in in Hx as (s & -> & _). apply le_rec_in in Hy as (s' & E & _).
      rewrite <- !app_assoc in E. apply app_inv_head in E. injection E as -> _. contradiction. }
    generalize (IH (add m j) (cur ++ [j])) (IHl H2). revert Hd. generalize (le_rec p k (add m j) (cur ++ [j])) (flat_map (fun j => le_rec p k (add m j) (cur ++ [j])) l).
    clear. intros a b Hd Ha Hb. induction a as [|x a IH]; cbn; [exact Hb|]. inversion Ha as [|? ? H1 H2]; subst. constructor.
    - intros H. apply in_app_or in H as [H|H]; [contradiction|]. apply (Hd x); [now left|exact H].
    - apply IH; [|exact H2]. intros y Hy. apply Hd. now right. }
  apply G, enabled_nodup.
Qed.
Definition before_ok (p : poset) (l : list nat) : Prop := ForallOrdPairs (fun x y => prec p y x = false) l.
Lemma valid_props p : forall l m, valid p m l ->
  NoDup l /\ (forall x, In x l -> x < size p /\ has m x = false) /\ before_ok p l.
Proof.
  induction l as [|j l IH]; intros m Hv; [split; [constructor|]; split; [intros x []|constructor]|]. destruct Hv as [Hj Hv].
  destruct (IH _ Hv) as (H1 & H2 & H3). apply in_enabled in Hj as (J1 & J2 & J3).
  assert (Hl : forall x, In x l -> x < size p /\ has m x = false /\ x <> j).
  { intros x Hx. destruct (H2 x Hx) as [Hlt Hm]. rewrite has_add in Hm. apply orb_false_iff in Hm as [Hm1 Hm2]. apply Nat.eqb_neq in Hm1. easy. }
  split; [|split].
  - constructor; [|exact H1]. intros Hin. now destruct (Hl j Hin) as (_ & _ & ?).
  - intros x [<-|Hx]; [easy|]. destruct (Hl x Hx) as (? & ? & _). easy.
  - constructor; [|exact H3]. apply Forall_forall. intros x Hx. destruct (Hl x Hx) as (Hlt & Hm & _).
    destruct (prec p x j) eqn:E; [|reflexivity]. rewrite (J3 x Hlt E) in Hm. discriminate.
Qed.
Lemma valid_intro p : acyclic p -> forall l m, NoDup l -> (forall x, In x l -> x < size p /\ has m x = false) -> before_ok p l ->
  (forall i, i < size p -> has m i = true \/ In i l) -> valid p m l.
Proof.
  intros Ha. induction l as [|j l IH]; intros m Hn Hr Hb Hall; [exact I|]. inversion Hn as [|? ? N1 N2]; subst. inversion Hb as [|? ? B1 B2]; subst.
  split.
  - apply in_enabled. destruct (Hr j (or_introl eq_refl)) as [R1 R2]. split; [exact R1|]. split; [exact R2|]. intros i Hi Hp.
    destruct (Hall i Hi) as [H|[<-|H]]; [exact H| |].
    + rewrite (Ha j R1) in Hp. discriminate.
    + rewrite Forall_forall in B1. rewrite (B1 i H) in Hp. discriminate.
  - apply IH; [exact N2| |exact B2|].
    + intros x Hx. destruct (Hr x (or_intror Hx)) as [R1 R2]. split; [exact R1|]. rewrite has_add, R2, orb_false_r. apply Nat.eqb_neq. intros ->. contradiction.
    + intros i Hi. destruct (Hall i Hi) as [H|[<-|H]]; [left; now rewrite has_add, H, orb_true_r|left; apply has_add_same|now right].
Qed.
Lemma extensions_spec p l : acyclic p -> In l (linear_extensions p) <-> Permutation l (seq 0 (size p)) /\ before_ok p l.
Proof.
  intros Ha. unfold linear_extensions. rewrite le_rec_in. split.
  - intros (s & -> & Hl & Hv). cbn [app]. destruct (valid_props p s 0 Hv) as (H1 & H2 & H3). split; [|exact H3].
    apply NoDup_Permutation_bis; [exact H1|rewrite seq_length; lia|]. intros x Hx. apply in_seq. destruct (H2 x Hx). lia.
  - intros [Hp Hb]. exists l. split; [reflexivity|]. split; [now rewrite (Permutation_length Hp), seq_length|].
    apply valid_intro; [exact Ha| | |exact Hb|].
    + apply Permutation_NoDup with (seq 0 (size p)); [now symmetry|apply seq_NoDup].
    + intros x Hx. split; [|apply has_zero]. apply (Permutation_in _ Hp), in_seq in Hx. lia.
    + intros i Hi. right. apply (Permutation_in _ (Permutation_sym Hp)), in_seq. lia.
Qed.

(** Adjacent exchanges of independent steps connect all extensions. *)
Inductive commute (p : poset) : list nat -> list nat -> Prop :=
| c_swap a x y b : independent p x y = true -> commute p (a ++ x :: y :: b) (a ++ y :: x :: b).
Notation connected p := (clos_refl_trans (list nat) (commute p)).
Lemma connected_cons p x l l' : connected p l l' -> connected p (x :: l) (x :: l').
Proof.
  induction 1 as [a b H|a|a b c _ IH1 _ IH2]; [|apply rt_refl|eapply rt_trans; eassumption].
  apply rt_step. destruct H as [a u v b H]. exact (c_swap p (x :: a) u v b H).
Qed.
Lemma bubble p x b : forall a, (forall y, In y a -> independent p y x = true) -> connected p (a ++ x :: b) (x :: a ++ b).
Proof.
  induction a as [|y a IH]; intros H; [apply rt_refl|]. cbn [app]. apply rt_trans with (y :: x :: a ++ b).
  - apply connected_cons, IH. intros z Hz. apply H. now right.
  - apply rt_step. apply (c_swap p [] y x (a ++ b)). apply H. now left.
Qed.
Lemma fop_remove {A} (R : A -> A -> Prop) a x b : ForallOrdPairs R (a ++ x :: b) -> ForallOrdPairs R (a ++ b) /\ forall y, In y a -> R y x.
Proof.
  induction a as [|y a IH]; cbn; intros H; inversion H as [|? ? H1 H2]; subst; [split; [exact H2|intros ? []]|].
  destruct (IH H2) as [I1 I2]. rewrite Forall_forall in H1. split.
  - constructor; [|exact I1]. apply Forall_forall. intros z Hz. apply H1. apply in_app_or in Hz. apply in_or_app. cbn. tauto.
  - intros z [<-|Hz]; [apply H1, in_or_app; right; now left|auto].
Qed.
Lemma extensions_connected p : forall l l', Permutation l l' -> NoDup l -> before_ok p l -> before_ok p l' -> connected p l' l.
Proof.
  induction l as [|x l IH]; intros l' Hp Hn Hb Hb'.
  - apply Permutation_nil in Hp as ->. apply rt_refl.
  - destruct (in_split x l') as (a & b & ->); [apply (Permutation_in _ Hp); now left|].
    apply Permutation_cons_app_inv in Hp. inversion Hn as [|? ? N1 N2]; subst. inversion Hb as [|? ? B1 B2]; subst.
    apply fop_remove in Hb' as [Hb1 Hb2]. apply rt_trans with (x :: a ++ b).
    + apply bubble. intros y Hy. assert (Hyl : In y l) by (apply (Permutation_in _ (Permutation_sym Hp)), in_or_app; now left).
      rewrite Forall_forall in B1. unfold independent. rewrite (B1 y Hyl), (Hb2 y Hy). destruct (Nat.eqb_spec y x) as [->|]; [contradiction|reflexivity].
    + apply connected_cons. apply IH; auto.
Qed.

(** The canonical extension. *)
Lemma fold_min l : forall a, (forall x, In x l -> a <= x) -> fold_left Nat.min l a = a.
Proof. induction l as [|b l IH]; intros a H; cbn; [reflexivity|]. rewrite Nat.min_l by (apply H; now left). apply IH. intros x Hx. apply H. now right. Qed.
Lemma filter_seq_head f n : forall a x l, List.filter f (seq a n) = x :: l -> forall y, In y l -> x <= y.
Proof.
  induction n as [|n IH]; intros a x l; cbn; [discriminate|]. destruct (f a).
  - intros [= <- <-] y Hy. apply filter_In in Hy as [Hy _]. apply in_seq in Hy. lia.
  - apply IH.
Qed.
Lemma enabled_min p m : list_min (enabled p m) = match enabled p m with [] => None | x :: _ => Some x end.
Proof.
  destruct (enabled p m) as [|x l] eqn:E; [reflexivity|]. cbn. f_equal. apply fold_min. unfold enabled in E. exact (filter_seq_head _ _ _ _ _ E).
Qed.
Inductive lex : list nat -> list nat -> Prop :=
| lex_eq l : lex l l
| lex_lt x y l l' : x < y -> lex (x :: l) (y :: l')
| lex_cons x l l' : lex l l' -> lex (x :: l) (x :: l').
Fixpoint greedy (p : poset) (k : nat) (m : N) : option (list nat) :=
  match k with
  | O => Some []
  | S k => match enabled p m with [] => None | x :: _ => match greedy p k (add m x) with Some l => Some (x :: l) | None => None end end
  end.
Lemma canonical_greedy p : forall k m cur, canonical_rec p k m cur = match greedy p k m with Some l => Some (cur ++ l) | None => None end.
Proof.
  induction k as [|k IH]; intros m cur; cbn [canonical_rec greedy]; [now rewrite app_nil_r|]. rewrite enabled_min.
  destruct (enabled p m) as [|x l]; [reflexivity|]. rewrite IH. destruct (greedy p k (add m x)); [|reflexivity]. now rewrite <- app_assoc.
Qed.
Lemma greedy_spec p : transitive p -> acyclic p -> forall k m taken, NoDup taken -> (forall x, In x taken <-> x < size p /\ has m x = true) ->
  k + length taken = size p -> exists l, greedy p k m = Some l /\ length l = k /\ valid p m l /\ forall l', length l' = k -> valid p m l' -> lex l l'.
Proof.
  intros Ht Ha. induction k as [|k IH]; intros m taken Hn Hin Hk; cbn [greedy].
  - exists []. split; [reflexivity|]. split; [reflexivity|]. split; [exact I|]. intros [|]; [constructor|discriminate].
  - destruct (enabled p m) as [|x l] eqn:E.
    + exfalso. assert (incl (seq 0 (size p)) taken).
      { intros j Hj. apply in_seq in Hj. apply Hin. split; [lia|]. apply (enabled_nonempty p m Ht Ha E). lia. }
      apply NoDup_incl_length in H; [|apply seq_NoDup]. rewrite seq_length in H. lia.
    + assert (Hx : In x (enabled p m)) by (rewrite E; now left). pose proof Hx as Hx'. apply in_enabled in Hx' as (X1 & X2 & _).
      destruct (IH (add m x) (x :: taken)) as (s & Es & S1 & S2 & S3).
      * constructor; [|exact Hn]. intros H. apply Hin in H as [_ H]. congruence.
      * intros y. cbn [In]. rewrite has_add, orb_true_iff, Nat.eqb_eq, Hin. split; [intros [<-|[? ?]]; auto|]. intros [H1 [->|H2]]; auto.
      * cbn. lia.
      * rewrite Es. exists (x :: s). split; [reflexivity|]. split; [cbn; lia|]. split; [split; [rewrite E; now left|exact S2]|].
        intros [|y l'] Hl Hv; [discriminate|]. destruct Hv as [Hy Hv]. destruct (Nat.eq_dec y x) as [->|Hne].
        -- apply lex_cons, S3; [cbn in Hl; lia|exact Hv].
        -- apply lex_lt. rewrite E in Hy. destruct Hy as [->|Hy]; [easy|]. unfold enabled in E. pose proof (filter_seq_head _ _ _ _ _ E y Hy). lia.
Qed.

(** * Permutations. *)
Lemma set_nth_app {A} (p : list A) a s x : set_nth (p ++ a :: s) (length p) x = p ++ x :: s.
Proof. induction p as [|b p IH]; cbn; [reflexivity|]. now rewrite IH. Qed.
Lemma set_nth_length {A} (l : list A) : forall i x, length (set_nth l i x) = length l.
Proof. induction l as [|a l IH]; intros [|i] x; cbn; auto. Qed.
Lemma swap_same p a s : swap (p ++ a :: s) (length p) (length p) = p ++ a :: s.
Proof. unfold swap. rewrite nth_middle, !set_nth_app. reflexivity. Qed.
Lemma swap_app p a m b s : swap (p ++ a :: m ++ b :: s) (length p) (length (p ++ a :: m)) = p ++ b :: m ++ a :: s.
Proof.
  unfold swap. rewrite nth_middle. replace (p ++ a :: m ++ b :: s) with ((p ++ a :: m) ++ b :: s) at 2 by (rewrite <- app_assoc; reflexivity).
  rewrite nth_middle, set_nth_app. replace (p ++ b :: m ++ b :: s) with ((p ++ b :: m) ++ b :: s) by (rewrite <- app_assoc; reflexivity).
  replace (length (p ++ a :: m)) with (length (p ++ b :: m)) by (rewrite !app_length; reflexivity). rewrite set_nth_app, <- app_assoc. reflexivity.
Qed.
Lemma perm_rec_in : forall k pre s l, length s = k -> In l (perm_rec k (pre ++ s) (length pre)) <-> exists s', Permutation s' s /\ l = pre ++ s'.
Proof.
  induction k as [|k IH]; intros pre s l Hs; cbn [perm_rec].
  - destruct s; [|discriminate]. split.
    + intros [<-|[]]. exists []. easy.
    + intros (s' & Hp & ->). apply Permutation_sym, Permutation_nil in Hp as ->. now left.
  - rewrite in_flat_map. destruct s as [|a s]; [discriminate|]. cbn in Hs.
    assert (Hpre : forall b, length pre + 1 = length (pre ++ [b])) by (intros b; now rewrite app_length).
    split.
    + intros (j & Hj & H). apply in_seq in Hj. rewrite app_length in Hj. cbn [length] in Hj. destruct (Nat.eq_dec j (length pre)) as [->|Hne].
      * rewrite swap_same in H. replace (pre ++ a :: s) with ((pre ++ [a]) ++ s) in H by (rewrite <- app_assoc; reflexivity).
        rewrite (Hpre a) in H. apply IH in H as (s' & Hp & ->); [|lia]. exists (a :: s'). split; [now constructor|]. now rewrite <- app_assoc.
      * assert (Hn : nth_error s (j - length pre - 1) <> None) by (apply nth_error_Some; lia).
        destruct (nth_error s (j - length pre - 1)) as [b|] eqn:En; [|easy]. apply nth_error_split in En as (m & s2 & -> & Hm).
        replace j with (length (pre ++ a :: m)) in H by (rewrite app_length; cbn; lia). rewrite swap_app in H.
        replace (pre ++ b :: m ++ a :: s2) with ((pre ++ [b]) ++ m ++ a :: s2) in H by (rewrite <- app_assoc; reflexivity).
        rewrite (Hpre b) in H. apply IH in H as (s' & Hp & ->); [|rewrite app_length in *; cbn in *; lia].
        exists (b :: s'). split; [|now rewrite <- app_assoc]. rewrite Hp. rewrite <- (Permutation_middle m s2 a), perm_swap.
        constructor. apply Permutation_middle.
    + intros (s' & Hp & ->). destruct s' as [|b s']; [apply Permutation_nil in Hp; discriminate|].
      assert (Hb : In b (a :: s)) by (apply (Permutation_in _ Hp); now left).
      destruct (Nat.eq_dec b a) as [->|Hne].
      * exists (length pre). split; [apply in_seq; rewrite app_length; cbn; lia|]. rewrite swap_same.
        replace (pre ++ a :: s) with ((pre ++ [a]) ++ s) by (rewrite <- app_assoc; reflexivity). rewrite (Hpre a). apply IH; [lia|].
        exists s'. split; [now apply Permutation_cons_inv in Hp|now rewrite <- app_assoc].
      * destruct Hb as [<-|Hb]; [easy|]. apply in_split in Hb as (m & s2 & ->). exists (length (pre ++ a :: m)). split.
        -- apply in_seq. rewrite !app_length. cbn. rewrite app_length. cbn. lia.
        -- rewrite swap_app. replace (pre ++ b :: m ++ a :: s2) with ((pre ++ [b]) ++ m ++ a :: s2) by (rewrite <- app_assoc; reflexivity).
           rewrite (Hpre b). apply IH; [rewrite app_length in *; cbn in *; lia|]. exists s'. split; [|now rewrite <- app_assoc].
           apply Permutation_cons_inv with b. rewrite Hp. rewrite <- (Permutation_middle m s2 b), <- (Permutation_middle m s2 a). apply perm_swap.
Qed.
Lemma perm_rec_length : forall k arr i, length arr = i + k -> length (perm_rec k arr i) = fact k.
Proof.
  induction k as [|k IH]; intros arr i Hl; cbn [perm_rec]; [reflexivity|].
  assert (G : forall l, length (flat_map (fun j => perm_rec k (swap arr i j) (i + 1)) l) = length l * fact k).
  { induction l as [|j l IHl]; cbn; [reflexivity|]. rewrite app_length, IHl, IH; [reflexivity|]. unfold swap. rewrite !set_nth_length. lia. }
  rewrite G, seq_length. replace (length arr - i) with (S k) by lia. reflexivity.
Qed.

(** * Operations. *)
Lemma nth_set_nth {A} (l : list A) d : forall i x j, nth j (set_nth l i x) d = if (j =? i) && (i <? length l) then x else nth j l d.
Proof.
  induction l as [|a l IH]; intros [|i] x [|j]; cbn [set_nth nth length Nat.eqb andb]; try reflexivity.
  - destruct (j =? i); reflexivity.
  - rewrite IH. reflexivity.
Qed.
Lemma contains_spec l x : contains l x = true <-> In x l.
Proof. unfold contains. rewrite existsb_exists. split; [intros (y & Hy & E); apply Nat.eqb_eq in E; now subst|]. intros H. exists x. split; [exact H|apply Nat.eqb_refl]. Qed.
Lemma bernstein_spec a b : bernstein_independent a b = true <-> write a <> write b /\ ~ In (write a) (reads b) /\ ~ In (write b) (reads a).
Proof.
  unfold bernstein_independent. rewrite !andb_true_iff, !negb_true_iff, Nat.eqb_neq, <- !not_true_iff_false, !contains_spec. tauto.
Qed.
Lemma reads_set a b v state : ~ In (write a) (reads b) ->
  map (fun r => nth r (set_nth state (write a) v) 0%Z) (reads b) = map (fun r => nth r state 0%Z) (reads b).
Proof.
  intros H. apply map_ext_in. intros r Hr. rewrite nth_set_nth. destruct (Nat.eqb_spec r (write a)) as [->|]; [contradiction|reflexivity].
Qed.
Lemma apply_commute a b state : bernstein_independent a b = true -> apply a (apply b state) = apply b (apply a state).
Proof.
  intros H. apply bernstein_spec in H as (H1 & H2 & H3). unfold apply. rewrite (reads_set b a) by exact H3. rewrite (reads_set a b) by exact H2.
  apply nth_ext with (d := 0%Z) (d' := 0%Z); [now rewrite !set_nth_length|]. intros j _. rewrite !nth_set_nth, !set_nth_length.
  destruct (Nat.eqb_spec j (write a)) as [E1|], (Nat.eqb_spec j (write b)) as [E2|]; cbn [andb]; try reflexivity. congruence.
Qed.
Lemma in_conflicts ops i j : In (i, j) (conflicts ops) <-> i < j < length ops /\ bernstein_independent (nth i ops idle) (nth j ops idle) = false.
Proof.
  unfold conflicts. rewrite in_flat_map. split.
  - intros (a & Ha & H). apply in_seq in Ha. apply in_flat_map in H as (b & Hb & H). apply in_seq in Hb.
    destruct (bernstein_independent (nth a ops idle) (nth b ops idle)) eqn:E; [destruct H|]. destruct H as [[= <- <-]|[]]. split; [lia|exact E].
  - intros [H E]. exists i. split; [apply in_seq; lia|]. apply in_flat_map. exists j. split; [apply in_seq; lia|]. rewrite E. now left.
Qed.
Lemma conflicts_range ops : in_range (length ops) (conflicts ops).
Proof. intros a b H. apply in_conflicts in H. lia. Qed.
Lemma trace_prec_lt ops i j : prec (trace_poset ops) i j = true -> i < j.
Proof.
  unfold trace_poset. rewrite poset_new_spec by apply conflicts_range. induction 1 as [a b H|a b c _ H1 _ H2]; [|lia].
  apply in_conflicts in H. lia.
Qed.
Lemma trace_acyclic ops : acyclic (trace_poset ops).
Proof. intros i _. destruct (prec (trace_poset ops) i i) eqn:E; [|reflexivity]. apply trace_prec_lt in E. lia. Qed.
Lemma trace_independent ops x y : x < length ops -> y < length ops -> independent (trace_poset ops) x y = true ->
  bernstein_independent (nth x ops idle) (nth y ops idle) = true.
Proof.
  intros Hx Hy H. unfold independent in H. apply andb_true_iff in H as [H H3]. apply andb_true_iff in H as [H1 H2].
  apply negb_true_iff in H1, H2, H3. apply Nat.eqb_neq in H1.
  assert (G : forall a b, a < b < length ops -> prec (trace_poset ops) a b = false -> bernstein_independent (nth a ops idle) (nth b ops idle) = true).
  { intros a b Hab Hp. destruct (bernstein_independent (nth a ops idle) (nth b ops idle)) eqn:E; [reflexivity|].
    assert (prec (trace_poset ops) a b = true); [|congruence]. unfold trace_poset. rewrite poset_new_spec by apply conflicts_range.
    apply t_step. apply in_conflicts. easy. }
  destruct (lt_dec x y) as [L|L]; [apply G; [lia|exact H2]|].
  assert (E : bernstein_independent (nth y ops idle) (nth x ops idle) = true) by (apply G; [lia|exact H3]).
  apply bernstein_spec in E as (E1 & E2 & E3). apply bernstein_spec. repeat split; auto.
Qed.
Lemma run_commute ops l l' init : (forall x, In x l -> x < length ops) -> commute (trace_poset ops) l l' -> run ops l init = run ops l' init.
Proof.
  intros Hr H. destruct H as [a x y b H]. unfold run. rewrite !fold_left_app. cbn [fold_left]. f_equal.
  assert (Hb : bernstein_independent (nth x ops idle) (nth y ops idle) = true).
  { apply trace_independent; [apply Hr, in_or_app; right; now left|apply Hr, in_or_app; right; right; now left|exact H]. }
  symmetry. now apply apply_commute.
Qed.
Lemma run_connected ops l l' init : connected (trace_poset ops) l l' -> (forall x, In x l -> x < length ops) ->
  run ops l init = run ops l' init /\ forall x, In x l' -> x < length ops.
Proof.
  induction 1 as [a b H|a|a b c _ IH1 _ IH2]; intros Hr.
  - split; [now apply run_commute|]. destruct H as [a x y b H]. intros z Hz. apply Hr. apply in_app_or in Hz. apply in_or_app. cbn in *. tauto.
  - easy.
  - destruct (IH1 Hr) as [E1 Hb]. destruct (IH2 Hb) as [E2 Hc]. split; [congruence|exact Hc].
Qed.
