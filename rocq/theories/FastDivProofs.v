(** Correctness of the precomputed division (Granlund-Montgomery). *)
From Coq Require Import ZArith Bool Lia List.
From Verif Require Import MachInt FastDivModel.
Open Scope Z_scope.

Lemma land_pred_pow2 (p : positive) :
  Z.land (Zpos p) (Zpos p - 1) = 0 -> Zpos p = 2 ^ ctz_pos p /\ 0 <= ctz_pos p.
Proof.
  induction p as [p IH|p IH|]; intros H.
  - exfalso.
    assert (E : Z.land (Zpos p~1) (Zpos p~1 - 1) = 2 * Zpos p).
    { replace (Zpos p~1 - 1) with (2 * Zpos p) by lia.
      replace (Zpos p~1) with (2 * Zpos p + 1) by lia.
      apply Z.bits_inj'; intros n Hn. rewrite Z.land_spec.
      destruct (Z.eq_dec n 0) as [->|Hn0].
      - rewrite Z.testbit_even_0, andb_false_r. reflexivity.
      - replace n with (Z.succ (n - 1)) by lia.
        rewrite Z.testbit_odd_succ, Z.testbit_even_succ by lia.
        now rewrite andb_diag. }
    rewrite E in H. lia.
  - assert (E : Z.land (Zpos p) (Zpos p - 1) = 0).
    { replace (Zpos p~0 - 1) with (2 * (Zpos p - 1) + 1) in H by lia.
      change (Z.pos p~0) with (2 * Z.pos p) in H.
      apply Z.bits_inj'; intros n Hn. rewrite Z.land_spec, Z.bits_0.
      assert (B : Z.testbit (Z.land (2 * Z.pos p) (2 * (Z.pos p - 1) + 1)) (Z.succ n) = false).
      { rewrite H. apply Z.bits_0. }
      rewrite Z.land_spec, Z.testbit_even_succ, Z.testbit_odd_succ in B by lia.
      exact B. }
    destruct (IH E) as [IH1 IH2].
    change (ctz_pos p~0) with (1 + ctz_pos p).
    split; [|lia].
    rewrite Z.pow_add_r by lia. change (Z.pos p~0) with (2 * Z.pos p). rewrite IH1 at 1. lia.
  - simpl. split; [reflexivity|lia].
Qed.

Lemma land_pred_zero_of_pow2 k : 0 <= k -> Z.land (2 ^ k) (2 ^ k - 1) = 0.
Proof.
  intros Hk. replace (2 ^ k - 1) with (Z.ones k) by (rewrite Z.ones_equiv; lia).
  rewrite Z.land_ones by lia. apply Z.mod_same. apply Z.pow_nonzero; lia.
Qed.

Lemma more_bits k : 0 <= k < 64 ->
  Z.land (Z.lor k SHIFT_PATH) SHIFT_PATH <> 0 /\
  Z.land (Z.lor k SHIFT_PATH) SHIFT_MASK = k /\
  Z.land k SHIFT_PATH = 0 /\ Z.land k ADD_MARKER = 0 /\
  Z.land (Z.lor k ADD_MARKER) SHIFT_PATH = 0 /\
  Z.land (Z.lor k ADD_MARKER) ADD_MARKER <> 0 /\
  Z.land (Z.lor k ADD_MARKER) SHIFT_MASK = k.
Proof.
  intros H.
  assert (A : forall n : nat, (n < 64)%nat ->
    (fun k =>
    negb (Z.land (Z.lor k SHIFT_PATH) SHIFT_PATH =? 0) &&
    (Z.land (Z.lor k SHIFT_PATH) SHIFT_MASK =? k) &&
    (Z.land k SHIFT_PATH =? 0) && (Z.land k ADD_MARKER =? 0) &&
    (Z.land (Z.lor k ADD_MARKER) SHIFT_PATH =? 0) &&
    negb (Z.land (Z.lor k ADD_MARKER) ADD_MARKER =? 0) &&
    (Z.land (Z.lor k ADD_MARKER) SHIFT_MASK =? k)) (Z.of_nat n) = true).
  { assert (F : forallb (fun n => (fun k =>
    negb (Z.land (Z.lor k SHIFT_PATH) SHIFT_PATH =? 0) &&
    (Z.land (Z.lor k SHIFT_PATH) SHIFT_MASK =? k) &&
    (Z.land k SHIFT_PATH =? 0) && (Z.land k ADD_MARKER =? 0) &&
    (Z.land (Z.lor k ADD_MARKER) SHIFT_PATH =? 0) &&
    negb (Z.land (Z.lor k ADD_MARKER) ADD_MARKER =? 0) &&
    (Z.land (Z.lor k ADD_MARKER) SHIFT_MASK =? k)) (Z.of_nat n)) (seq 0 64) = true)
      by (vm_compute; reflexivity).
    rewrite forallb_forall in F. intros n Hn. apply F. apply in_seq. lia. }
  specialize (A (Z.to_nat k) ltac:(lia)). rewrite Z2Nat.id in A by lia. cbv beta in A.
  rewrite !andb_true_iff, !negb_true_iff, !Z.eqb_eq, !Z.eqb_neq in A. tauto.
Qed.

Lemma div_magic (M d e N n : Z) :
  0 < d -> 0 < N -> M * d = N + e -> 0 <= e -> 0 <= n -> n * e < N ->
  M * n / N = n / d.
Proof.
  intros Hd HN HM He Hn Hne.
  pose proof (Z.div_mod n d ltac:(lia)) as D.
  pose proof (Z.mod_pos_bound n d Hd) as B.
  set (q := n / d) in *. set (r := n mod d) in *.
  symmetry. apply Z.div_unique with (r := M * n - N * q). 2: ring.
  left.
  (* d * (M n - N q) = (N+e) n - N (n - r) = e n + N r *)
  assert (E : d * (M * n - N * q) = e * n + N * r).
  { replace (d * (M * n - N * q)) with (M * d * n - N * (d * q)) by ring.
    rewrite HM. replace (d * q) with (n - r) by lia. ring. }
  split.
  - nia.
  - assert (d * (M * n - N * q) < d * N); [|nia].
    rewrite E. nia.
Qed.

Lemma log2_facts d : is_u64 d -> 0 < d -> 0 <= Z.log2 d < 64 /\ 2 ^ Z.log2 d <= d < 2 ^ (Z.log2 d + 1).
Proof.
  intros [H1 H2] H.
  pose proof (Z.log2_spec d H). pose proof (Z.log2_nonneg d).
  assert (Z.log2 d < 64) by (apply Z.log2_lt_pow2; auto).
  replace (Z.log2 d + 1) with (Z.succ (Z.log2 d)) by lia. lia.
Qed.

Theorem new_div_correct d n : 1 <= d < two64 -> is_u64 n ->
  exists s, new d = Some s /\ div s n = Some (n / d) /\ dvs s = d.
Proof.
  intros Hd Hn. unfold new.
  destruct (Z.eqb_spec d 0) as [?|Hd0]; [lia|].
  destruct (Z.eqb_spec (Z.land d (d - 1)) 0) as [E|NE].
  - (* power of two *)
    eexists; split; [reflexivity|]. split; [|reflexivity].
    destruct d as [|p|p]; try lia.
    destruct (land_pred_pow2 p E) as [P1 P2].
    assert (ctz_pos p < 64).
    { apply (Z.pow_lt_mono_r_iff 2); try lia. rewrite <- P1. apply Hd. }
    unfold div; cbn [more ctz].
    destruct (more_bits (ctz_pos p) ltac:(lia)) as (B1 & B2 & _).
    destruct (Z.eqb_spec (Z.land (Z.lor (ctz_pos p) SHIFT_PATH) SHIFT_PATH) 0) as [X|X]; [congruence|].
    cbn [negb]. rewrite B2, Z.shiftr_div_pow2 by lia. now rewrite <- P1.
  - (* not a power of two *)
    destruct (log2_facts d) as [K1 K2]; [unfold is_u64; lia|lia|].
    set (k0 := Z.log2 d) in *.
    assert (Ek : 63 - clz d = k0).
    { unfold clz. destruct (Z.eqb_spec d 0); [lia|]. fold k0. lia. }
    rewrite Ek.
    assert (NP : d <> 2 ^ k0).
    { intros Ed. apply NE. rewrite Ed. apply land_pred_zero_of_pow2. lia. }
    assert (Pk : 0 < 2 ^ k0) by (apply Z.pow_pos_nonneg; lia).
    assert (EN : 2 ^ (64 + k0) = two64 * 2 ^ k0) by (rewrite Z.pow_add_r by lia; reflexivity).
    rewrite Z.pow_add_r in K2 by lia. change (2 ^ 1) with 2 in K2.
    pose proof two64_pos as T64.
    assert (K63 : 2 ^ k0 * 2 <= two64).
    { change two64 with (2 ^ 63 * 2). apply Z.mul_le_mono_nonneg_r; [lia|]. apply Z.pow_le_mono_r; lia. }
    set (P := 2 ^ k0) in *. cbv zeta. rewrite EN.
    pose proof (Z.div_mod (two64 * P) d ltac:(lia)) as DM.
    pose proof (Z.mod_pos_bound (two64 * P) d ltac:(lia)) as RB.
    set (m := two64 * P / d) in *. set (r := (two64 * P) mod d) in *.
    assert (Hm : 0 <= m /\ m + 1 < two64).
    { split; [nia|].
      destruct (Z.lt_ge_cases (m + 1) two64) as [L|G]; [exact L|exfalso].
      assert (d * (two64 - 1) <= d * m) by (apply Z.mul_le_mono_nonneg_l; lia).
      assert (two64 * (d - P) < two64 * 1) by lia.
      assert (d - P < 1); [|lia]. apply (Z.mul_lt_mono_pos_l two64); lia. }
    assert (Wm : wrap64 m = m) by (apply wrap64_small; unfold is_u64; lia).
    assert (Wr : wrap64 r = r) by (apply wrap64_small; unfold is_u64; lia).
    rewrite Wm, Wr.
    rewrite (checked_u64_ok (d - r)) by (unfold is_u64; lia).
    unfold is_u64 in Hn.
    destruct (Z.ltb_spec (d - r) P) as [LT|GE].
    + rewrite checked_u64_ok by (unfold is_u64; lia).
      eexists; split; [reflexivity|]. split; [|reflexivity].
      unfold div; cbn [more magic].
      destruct (more_bits k0 ltac:(lia)) as (_ & _ & B3 & B4 & _).
      rewrite B3, B4. cbn [Z.eqb negb].
      rewrite !Z.shiftr_div_pow2 by lia. change (2 ^ 64) with two64. fold P.
      assert (Q1 : 0 <= (m + 1) * n / two64 < two64).
      { split; [apply Z.div_pos; nia|]. apply Z.div_lt_upper_bound; nia. }
      rewrite wrap64_small by exact Q1.
      rewrite Z.div_div by lia.
      f_equal. apply div_magic with (e := d - r); nia.
    + assert (Bump : (if (d <=? wrap64 (r * 2)) || (wrap64 (r * 2) <? r) then 1 else 0)
                     = (if d <=? 2 * r then 1 else 0)).
      { unfold wrap64. destruct (Z.le_gt_cases two64 (r * 2)) as [G|L].
        - replace ((r * 2) mod two64) with (r * 2 - two64)
            by (apply Z.mod_unique with (q := 1); lia).
          destruct (Z.leb_spec d (2 * r)); [|lia].
          destruct (Z.ltb_spec (r * 2 - two64) r); [|lia]. now rewrite orb_true_r.
        - rewrite Z.mod_small by lia.
          destruct (Z.leb_spec d (2 * r)); destruct (Z.leb_spec d (r * 2));
            destruct (Z.ltb_spec (r * 2) r); try lia; reflexivity. }
      rewrite Bump. clear Bump.
      set (b := if d <=? 2 * r then 1 else 0).
      assert (Hb : b = 0 /\ 2 * r < d \/ b = 1 /\ d <= 2 * r).
      { unfold b. destruct (Z.leb_spec d (2 * r)); [right|left]; split; auto; lia. }
      (* the full 65-bit multiplier *)
      set (M := 2 * m + b + 1).
      set (e := M * d - two64 * P * 2).
      assert (He : 0 < e <= d).
      { unfold e, M. assert (Em : d * m = two64 * P - r) by lia.
        replace ((2 * m + b + 1) * d) with (2 * (d * m) + b * d + d) by ring.
        rewrite Em. destruct Hb as [[-> ?]|[-> ?]]; lia. }
      assert (HM : two64 < M /\ M < 2 * two64).
      { split.
        - (* two64 * P * 2 / d > two64 since d < 2P *)
          assert (two64 * d < M * d); [|nia]. unfold e in He. nia.
        - assert (M * d <= two64 * P * 2 + d) by (unfold e in He; lia).
          assert (two64 * P * 2 + d < 2 * two64 * d); [|nia].
          assert (d < two64 * 2 * (d - P)); [|nia]. nia. }
      assert (W2 : wrap64 (wrap64 (m * 2) + b) + 1 = M - two64).
      { unfold wrap64. rewrite Zplus_mod_idemp_l.
        assert (Heq : (m * 2 + b) mod two64 = m * 2 + b - two64).
        { symmetry. apply Z.mod_unique with (q := 1); unfold M in HM; lia. }
        rewrite Heq. unfold M. lia. }
      rewrite W2. rewrite checked_u64_ok by (unfold is_u64; lia).
      eexists; split; [reflexivity|]. split; [|reflexivity].
      unfold div; cbn [more magic].
      destruct (more_bits k0 ltac:(lia)) as (_ & _ & _ & _ & B5 & B6 & B7).
      rewrite B5. destruct (Z.eqb_spec (Z.land (Z.lor k0 ADD_MARKER) ADD_MARKER) 0) as [X|_]; [congruence|].
      cbn [Z.eqb negb]. rewrite B7.
      rewrite Z.shiftr_div_pow2 by lia. change (2 ^ 64) with two64.
      set (q := (M - two64) * n / two64).
      assert (Hq : 0 <= q <= n).
      { split; [apply Z.div_pos; nia|]. apply Z.div_le_upper_bound; nia. }
      rewrite wrap64_small by (unfold is_u64; lia).
      rewrite checked_u64_ok by (unfold is_u64; lia).
      rewrite (Z.shiftr_div_pow2 (n - q)) by lia. change (2 ^ 1) with 2.
      assert (Et : (n - q) / 2 + q = (n + q) / 2).
      { replace (n + q) with (n - q + q * 2) by lia. rewrite Z.div_add by lia. lia. }
      rewrite Et.
      assert (0 <= (n + q) / 2 < two64).
      { split; [apply Z.div_pos; lia|]. apply Z.div_lt_upper_bound; lia. }
      rewrite wrap64_small by (unfold is_u64; lia).
      rewrite Z.shiftr_div_pow2 by lia. fold P.
      rewrite Z.div_div by lia.
      assert (Eq2 : n + q = M * n / two64).
      { unfold q. replace (M * n) with ((M - two64) * n + n * two64) by ring.
        rewrite Z.div_add by lia. lia. }
      rewrite Eq2, Z.div_div by lia.
      f_equal. apply div_magic with (e := e); try lia; try nia.
Qed.

Theorem new_rem_correct d n : 1 <= d < two64 -> is_u64 n ->
  exists s, new d = Some s /\ rem s n = Some (n mod d).
Proof.
  intros Hd Hn. destruct (new_div_correct d n Hd Hn) as (s & E1 & E2 & E3).
  exists s. split; [exact E1|]. unfold rem. rewrite E2, E3.
  pose proof (Z.div_mod n d ltac:(lia)). pose proof (Z.mod_pos_bound n d ltac:(lia)).
  unfold is_u64 in Hn.
  assert (0 <= n / d) by (apply Z.div_pos; lia).
  rewrite wrap64_small by (unfold is_u64; nia).
  rewrite checked_u64_ok by (unfold is_u64; nia). f_equal. lia.
Qed.
