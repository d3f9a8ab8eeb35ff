(** Proofs about the direct-addressed integer tables. *)
From Coq Require Import ZArith List Lia.
From stdpp Require Import list gmap.
From Verif Require Import MachInt IntMapModel.
Open Scope Z_scope.

Definition isset (ws : list Z) (idx : Z) : bool :=
  match ws !! Z.to_nat (idx / 64) with Some w => Z.testbit w (idx mod 64) | None => false end.

Lemma idx_bit idx : 0 <= idx -> dense_bit idx = 2 ^ (idx mod 64).
Proof. intros H. unfold dense_bit. rewrite Z.shiftl_1_l. f_equal. apply (Z.land_ones idx 6). lia. Qed.
Lemma idx_word idx : Z.shiftr idx 6 = idx / 64.
Proof. rewrite Z.shiftr_div_pow2 by lia. reflexivity. Qed.
Lemma land_pow2_zero w i : 0 <= i -> (Z.land w (2 ^ i) =? 0) = negb (Z.testbit w i).
Proof.
  intros Hi. destruct (Z.testbit w i) eqn:E; cbn.
  - apply Z.eqb_neq. intros H. apply (f_equal (fun x => Z.testbit x i)) in H.
    rewrite Z.land_spec, E, Z.pow2_bits_true, Z.bits_0 in H by lia. discriminate.
  - apply Z.eqb_eq. apply Z.bits_inj'. intros n Hn. rewrite Z.land_spec, Z.bits_0.
    destruct (Z.eq_dec n i) as [-> | N]; [rewrite E; reflexivity |]. rewrite Z.pow2_bits_false by lia. apply andb_false_r.
Qed.
Lemma word_set ws idx w : 0 <= idx -> ws !! Z.to_nat (idx / 64) = Some w -> (Z.land w (dense_bit idx) =? 0) = negb (isset ws idx).
Proof. intros Hi E. unfold isset. rewrite E, idx_bit by lia. apply land_pow2_zero. apply Z.mod_pos_bound. lia. Qed.
Lemma isset_insert ws idx w j : 0 <= idx -> 0 <= j -> ws !! Z.to_nat (idx / 64) = Some w ->
  isset (<[Z.to_nat (idx / 64) := Z.lor w (dense_bit idx)]> ws) j = if decide (j = idx) then true else isset ws j.
Proof.
  intros Hi Hj E. unfold isset. pose proof (lookup_lt_Some _ _ _ E) as L. rewrite idx_bit by lia.
  pose proof (Z.mod_pos_bound idx 64 ltac:(lia)). pose proof (Z.mod_pos_bound j 64 ltac:(lia)).
  pose proof (Z.div_pos idx 64 ltac:(lia) ltac:(lia)). pose proof (Z.div_pos j 64 ltac:(lia) ltac:(lia)).
  pose proof (Z.div_mod idx 64 ltac:(lia)). pose proof (Z.div_mod j 64 ltac:(lia)).
  destruct (decide (j = idx)) as [-> | N].
  - rewrite list_lookup_insert by exact L. rewrite Z.lor_spec, Z.pow2_bits_true by lia. apply orb_true_r.
  - destruct (decide (j / 64 = idx / 64)) as [D | D].
    + rewrite D, list_lookup_insert, E by exact L. rewrite Z.lor_spec, Z.pow2_bits_false by lia. apply orb_false_r.
    + rewrite list_lookup_insert_ne by lia. reflexivity.
Qed.
Lemma word_in n idx (ws : list Z) : 0 <= idx < Z.of_nat n * 64 -> length ws = n -> exists w, ws !! Z.to_nat (idx / 64) = Some w.
Proof.
  intros H L. apply lookup_lt_is_Some_2. rewrite L. pose proof (Z.div_lt_upper_bound idx 64 (Z.of_nat n) ltac:(lia) ltac:(lia)).
  pose proof (Z.div_pos idx 64 ltac:(lia) ltac:(lia)). lia.
Qed.
Lemma div_ceil64_ge n : (n <= div_ceil64 n * 64)%nat.
Proof. unfold div_ceil64. pose proof (Nat.div_mod (n + 63) 64 ltac:(lia)). pose proof (Nat.mod_upper_bound (n + 63) 64 ltac:(lia)). lia. Qed.
Lemma isset_repeat n idx : isset (repeat 0 n) idx = false.
Proof.
  unfold isset. destruct (repeat 0 n !! _) as [w |] eqn:E; [| reflexivity].
  apply elem_of_list_lookup_2, elem_of_list_In, repeat_spec in E. subst w. apply Z.bits_0.
Qed.

Lemma index_in lo key n : is_i64 lo -> is_i64 key -> lo <= key < lo + n -> n <= 2 ^ 63 -> dense_index lo key = key - lo.
Proof.
  intros Hl Hk Hw Hn. unfold dense_index, wrap_i64, two64. rewrite (Z.mod_small (key - lo)) by lia.
  rewrite (proj2 (Z.ltb_lt (key - lo) (2 ^ 63))) by lia. apply Z.mod_small. lia.
Qed.

(** [LogosDenseI64Map]. *)
Record dense_inv (l : Z) (slots : nat) (m : dense) (M : gmap Z Z) : Prop := DenseInv {
  di_lo : lo m = l; di_data : length (data m) = slots; di_words : length (present m) = div_ceil64 slots;
  di_look : forall idx, 0 <= idx < Z.of_nat slots -> M !! (l + idx) = if isset (present m) idx then data m !! Z.to_nat idx else None;
  di_len : dlen m = size M }.
Lemma dense_inv_new l slots : dense_inv l slots (dense_with_bounds l slots) ∅.
Proof.
  split; cbn.
  - reflexivity.
  - apply repeat_length.
  - apply repeat_length.
  - intros idx H. rewrite isset_repeat. apply lookup_empty.
  - rewrite map_size_empty. reflexivity.
Qed.
Lemma dense_insert_spec l slots m M key v : is_i64 l -> is_i64 key -> Z.of_nat slots <= 2 ^ 63 -> l <= key < l + Z.of_nat slots ->
  dense_inv l slots m M -> exists m', dense_insert m key v = Some m' /\ dense_inv l slots m' (<[key := v]> M).
Proof.
  intros Hl Hk Hs Hw I. unfold dense_insert. rewrite (di_lo _ _ _ _ I), (index_in l key (Z.of_nat slots)) by assumption.
  set (idx := key - l). assert (0 <= idx < Z.of_nat slots) as Hi by (unfold idx; lia). rewrite idx_word. pose proof (div_ceil64_ge slots).
  destruct (word_in (div_ceil64 slots) idx (present m)) as [w Ew]; [lia | apply I |].
  destruct (lookup_lt_is_Some_2 (data m) (Z.to_nat idx)) as [x Ex]; [rewrite (di_data _ _ _ _ I); lia |].
  rewrite Ew, Ex. cbn [mbind option_bind]. rewrite (word_set _ _ _ (proj1 Hi) Ew).
  pose proof (di_look _ _ _ _ I idx Hi) as Hlook. replace (l + idx) with key in Hlook by (unfold idx; lia).
  assert (forall P, length P = div_ceil64 slots -> (forall j, 0 <= j -> isset P j = if decide (j = idx) then true else isset (present m) j) ->
    forall n, n = size (<[key := v]> M) -> dense_inv l slots (Dense (<[Z.to_nat idx := v]> (data m)) P l n) (<[key := v]> M)) as K.
  { intros P LP HP n ->. split; cbn [lo data present dlen].
    - reflexivity.
    - rewrite insert_length. apply I.
    - exact LP.
    - intros j Hj. rewrite HP by lia. destruct (decide (j = idx)) as [-> | N].
      + replace (l + idx) with key by (unfold idx; lia). rewrite lookup_insert, list_lookup_insert; [reflexivity |]. rewrite (di_data _ _ _ _ I). lia.
      + rewrite lookup_insert_ne by (unfold idx in N; lia). rewrite list_lookup_insert_ne by lia. apply I. exact Hj.
    - reflexivity. }
  destruct (isset (present m) idx) eqn:Eb; cbn [negb].
  - eexists. split; [reflexivity |]. apply K.
    + apply I.
    + intros j Hj. destruct (decide (j = idx)) as [-> | ?]; [exact Eb | reflexivity].
    + rewrite map_size_insert, Hlook, Ex. cbn. apply I.
  - eexists. split; [reflexivity |]. apply K.
    + rewrite insert_length. apply I.
    + intros j Hj. apply isset_insert; [lia | lia | exact Ew].
    + rewrite map_size_insert, Hlook. cbn. f_equal. apply I.
Qed.
Lemma dense_get_spec l slots m M key : is_i64 l -> is_i64 key -> Z.of_nat slots <= 2 ^ 63 -> l <= key < l + Z.of_nat slots ->
  dense_inv l slots m M -> dense_get m key = Some (M !! key) /\ dense_contains m key = Some (bool_decide (is_Some (M !! key))).
Proof.
  intros Hl Hk Hs Hw I. unfold dense_get, dense_contains. rewrite (di_lo _ _ _ _ I), (index_in l key (Z.of_nat slots)) by assumption.
  set (idx := key - l). assert (0 <= idx < Z.of_nat slots) as Hi by (unfold idx; lia). rewrite idx_word. pose proof (div_ceil64_ge slots).
  destruct (word_in (div_ceil64 slots) idx (present m)) as [w Ew]; [lia | apply I |].
  destruct (lookup_lt_is_Some_2 (data m) (Z.to_nat idx)) as [x Ex]; [rewrite (di_data _ _ _ _ I); lia |].
  rewrite Ew, Ex. cbn [mbind option_bind]. rewrite (word_set _ _ _ (proj1 Hi) Ew).
  pose proof (di_look _ _ _ _ I idx Hi) as Hlook. replace (l + idx) with key in Hlook by (unfold idx; lia). rewrite Hlook, Ex.
  destruct (isset (present m) idx); cbn; split; reflexivity.
Qed.

(** [LogosDenseI64MapNoPresence]. *)
Record bare_inv (l : Z) (slots : nat) (m : bare) (M : gmap Z Z) (n : nat) : Prop := BareInv {
  bi_lo : blo m = l; bi_data : length (bdata m) = slots;
  bi_look : forall idx, 0 <= idx < Z.of_nat slots -> bdata m !! Z.to_nat idx = Some (default 0 (M !! (l + idx)));
  bi_len : blen m = n }.
Lemma bare_inv_new l slots : bare_inv l slots (bare_with_bounds l slots) ∅ 0.
Proof.
  split; cbn; try reflexivity; [apply repeat_length |]. intros idx H. rewrite lookup_empty. cbn.
  destruct (repeat 0 slots !! Z.to_nat idx) as [x |] eqn:E.
  - apply elem_of_list_lookup_2, elem_of_list_In, repeat_spec in E. congruence.
  - apply lookup_ge_None in E. rewrite repeat_length in E. lia.
Qed.
Lemma bare_insert_spec l slots m M n key v : is_i64 l -> is_i64 key -> Z.of_nat slots <= 2 ^ 63 -> l <= key < l + Z.of_nat slots ->
  bare_inv l slots m M n -> exists m', bare_insert m key v = Some m' /\ bare_inv l slots m' (<[key := v]> M) (S n).
Proof.
  intros Hl Hk Hs Hw I. unfold bare_insert. rewrite (bi_lo _ _ _ _ _ I), (index_in l key (Z.of_nat slots)) by assumption.
  rewrite (bi_look _ _ _ _ _ I (key - l)) by lia. cbn [mbind option_bind]. eexists. split; [reflexivity |]. split; cbn [blo bdata blen].
  - reflexivity.
  - rewrite insert_length. apply I.
  - intros j Hj. destruct (decide (j = key - l)) as [-> | N].
    + replace (l + (key - l)) with key by lia. rewrite lookup_insert, list_lookup_insert; [reflexivity |]. rewrite (bi_data _ _ _ _ _ I). lia.
    + rewrite lookup_insert_ne, list_lookup_insert_ne by lia. apply I. exact Hj.
  - rewrite (bi_len _ _ _ _ _ I). reflexivity.
Qed.
Lemma bare_get_spec l slots m M n key : is_i64 l -> is_i64 key -> Z.of_nat slots <= 2 ^ 63 -> l <= key < l + Z.of_nat slots ->
  bare_inv l slots m M n -> bare_get m key = Some (Some (default 0 (M !! key))).
Proof.
  intros Hl Hk Hs Hw I. unfold bare_get. rewrite (bi_lo _ _ _ _ _ I), (index_in l key (Z.of_nat slots)) by assumption.
  rewrite (bi_look _ _ _ _ _ I (key - l)) by lia. replace (l + (key - l)) with key by lia. reflexivity.
Qed.

(** [LogosDenseI64Set]; the window is rounded up to whole words. *)
Record dset_inv (l : Z) (words : nat) (m : dset) (M : gset Z) : Prop := DsetInv {
  si_lo : slo m = l; si_words : length (spresent m) = words;
  si_look : forall idx, 0 <= idx < Z.of_nat words * 64 -> isset (spresent m) idx = bool_decide (l + idx ∈ M);
  si_len : slen m = size M }.
Lemma dset_inv_new l slots : dset_inv l (div_ceil64 slots) (dset_with_bounds l slots) ∅.
Proof.
  split; cbn.
  - reflexivity.
  - apply repeat_length.
  - intros idx H. rewrite isset_repeat. symmetry. apply bool_decide_eq_false. set_solver.
  - reflexivity.
Qed.
Lemma dset_insert_spec l words m M key : is_i64 l -> is_i64 key -> Z.of_nat words * 64 <= 2 ^ 63 -> l <= key < l + Z.of_nat words * 64 ->
  dset_inv l words m M -> exists m', dset_insert m key = Some m' /\ dset_inv l words m' ({[key]} ∪ M).
Proof.
  intros Hl Hk Hs Hw I. unfold dset_insert. rewrite (si_lo _ _ _ _ I), (index_in l key (Z.of_nat words * 64)) by assumption.
  set (idx := key - l). assert (0 <= idx < Z.of_nat words * 64) as Hi by (unfold idx; lia). rewrite idx_word.
  destruct (word_in words idx (spresent m)) as [w Ew]; [lia | apply I |].
  rewrite Ew. cbn [mbind option_bind]. rewrite (word_set _ _ _ (proj1 Hi) Ew).
  pose proof (si_look _ _ _ _ I idx Hi) as Hlook. replace (l + idx) with key in Hlook by (unfold idx; lia).
  destruct (isset (spresent m) idx) eqn:Eb; cbn [negb]; symmetry in Hlook.
  - apply bool_decide_eq_true in Hlook. eexists. split; [reflexivity |]. replace ({[key]} ∪ M) with M by set_solver. exact I.
  - apply bool_decide_eq_false in Hlook. eexists. split; [reflexivity |]. split; cbn [slo spresent slen].
    + reflexivity.
    + rewrite insert_length. apply I.
    + intros j Hj. rewrite isset_insert; [| lia | lia | exact Ew]. destruct (decide (j = idx)) as [-> | N].
      * symmetry. apply bool_decide_eq_true. replace (l + idx) with key by (unfold idx; lia). set_solver.
      * rewrite (si_look _ _ _ _ I j Hj). apply bool_decide_ext. assert (l + j <> key) by (unfold idx in N; lia). set_solver.
    + rewrite size_union by set_solver. rewrite size_singleton, (si_len _ _ _ _ I). reflexivity.
Qed.
Lemma dset_contains_spec l words m M key : is_i64 l -> is_i64 key -> Z.of_nat words * 64 <= 2 ^ 63 -> l <= key < l + Z.of_nat words * 64 ->
  dset_inv l words m M -> dset_contains m key = Some (bool_decide (key ∈ M)).
Proof.
  intros Hl Hk Hs Hw I. unfold dset_contains. rewrite (si_lo _ _ _ _ I), (index_in l key (Z.of_nat words * 64)) by assumption.
  set (idx := key - l). assert (0 <= idx < Z.of_nat words * 64) as Hi by (unfold idx; lia). rewrite idx_word.
  destruct (word_in words idx (spresent m)) as [w Ew]; [lia | apply I |].
  rewrite Ew. cbn [mbind option_bind]. rewrite (word_set _ _ _ (proj1 Hi) Ew), negb_involutive, (si_look _ _ _ _ I idx Hi).
  replace (l + idx) with key by (unfold idx; lia). reflexivity.
Qed.
