(** The remaining descriptions of [IntColModel], and the whole encoder. *)
From Coq Require Import ZArith List Lia.
From stdpp Require Import list.
From Verif Require Import MachInt WireModel WireProofs IntColModel IntColProofs IntColRound.
Open Scope Z_scope.

(** ** Polynomials *)
Lemma checked_diffs_cons a b v : checked_diffs (a :: b :: v) = (d ← checked_i64 (b - a); ds ← checked_diffs (b :: v); Some (d :: ds)).
Proof. reflexivity. Qed.
Lemma checked_diffs_i64 v ds : checked_diffs v = Some ds -> i64s ds.
Proof.
  revert ds. induction v as [|a [|b v'] IH]; intros ds H; [injection H as <-; constructor|injection H as <-; constructor|].
  rewrite checked_diffs_cons in H.
  destruct (checked_i64 (b - a)) as [d|] eqn:D; [|discriminate]. cbn [mbind option_bind] in H.
  destruct (checked_diffs (b :: v')) as [t|] eqn:T; [|discriminate]. cbn [mbind option_bind] in H. injection H as <-.
  constructor; [|apply IH; reflexivity]. unfold checked_i64 in D. destruct (in_i64 (b - a)) eqn:I; [|discriminate].
  injection D as <-. apply in_i64_spec, I.
Qed.
Lemma hd_i64 v : i64s v -> is_i64 (hd 0 v).
Proof. intros H. destruct v; [cbn; unfold is_i64; lia|]. now inversion H. Qed.
Lemma poly_search_spec rounds : forall seeds prev v out, i64s seeds -> poly_search rounds seeds prev v = Some out ->
  i64s out /\ (length seeds < length out <= length seeds + rounds)%nat /\ reconstruct_poly out (length v) = v.
Proof.
  induction rounds as [|rounds IH]; intros seeds prev v out S H; cbn [poly_search] in H; [discriminate|].
  destruct (length prev <? 2)%nat; [discriminate|].
  destruct (checked_diffs prev) as [next|] eqn:N; [|discriminate]. cbn [mbind option_bind] in H.
  pose proof (hd_i64 next (checked_diffs_i64 _ _ N)) as HI.
  assert (S' : i64s (seeds ++ [hd 0 next])) by (apply Forall_app; split; [exact S|constructor; [exact HI|constructor]]).
  assert (L' : length (seeds ++ [hd 0 next]) = Datatypes.S (length seeds)) by (rewrite app_length; cbn; lia).
  destruct ((2 <=? length next)%nat && forallb (fun x => x =? hd 0 next) next).
  - case_bool_decide as B; [|discriminate]. injection H as <-. split; [exact S'|]. split; [rewrite L'; lia|exact B].
  - apply IH in H as (A & B & C); [|exact S']. split; [exact A|]. split; [rewrite L' in B; lia|exact C].
Qed.
Lemma poly_ok levels v e : i64s v -> short v -> poly_cand v = Some e -> decodes levels e v.
Proof.
  intros H S E. unfold poly_cand in E. destruct (detect_poly_generator v) as [seeds|] eqn:D; [|discriminate].
  cbn [mbind option_bind] in E. injection E as <-. unfold detect_poly_generator in D.
  destruct (length v <? 3)%nat; [discriminate|].
  apply poly_search_spec in D as (I & L & R); [|constructor; [apply hd_i64, H|constructor]].
  cbn [length] in L. unfold MAX_POLY_DEGREE in L.
  eexists _, _. split; [reflexivity|]. intros rest max M.
  assert (DEG : (Z.of_nat MAX_POLY_DEGREE <? len seeds - 1) = false) by (apply Z.ltb_ge; unfold len, MAX_POLY_DEGREE; lia).
  assert (CNT : Datatypes.S (Z.to_nat (len seeds - 1)) = length seeds) by (unfold len; lia).
  tag_branch; cbn [app read_byte mbind option_bind]; rewrite DEG; rd; rewrite bounded_len by exact M; cbn [mbind option_bind];
  rewrite CNT, read_n_zz by exact I; cbn [mbind option_bind]; rewrite R; reflexivity.
Qed.

(** ** Linear recurrences *)
Lemma cramer_spec k m b d js : forall cs, cramer k m b d js = Some (Some cs) -> length cs = length js /\ i64s cs.
Proof.
  induction js as [|j js IH]; intros cs H; cbn [cramer] in H.
  - injection H as <-. split; [reflexivity|constructor].
  - destruct (det_i128 k (set_col j m b)) as [dj|]; [|discriminate].
    destruct ((dj =? - 2 ^ 127) && (d =? -1)); [discriminate|].
    destruct (negb (Z.rem dj d =? 0)); [discriminate|].
    destruct (in_i64 (Z.quot dj d)) eqn:I; [|discriminate].
    destruct (cramer k m b d js) as [[cs'|]|] eqn:C; try discriminate. injection H as <-.
    destruct (IH cs' eq_refl) as [A B]. split; [cbn; lia|]. constructor; [apply in_i64_spec, I|exact B].
Qed.
Lemma solve_recurrence_spec v k cs : solve_recurrence v k = Some (Some cs) -> length cs = k /\ i64s cs.
Proof.
  unfold solve_recurrence. destruct (det_i128 k _) as [d|]; [|discriminate]. destruct (d =? 0); [discriminate|].
  intros H. apply cramer_spec in H as [A B]. rewrite seq_length in A. auto.
Qed.
Lemma recur_search_spec v ks : forall cs seeds, recur_search v ks = Some (Some (cs, seeds)) ->
  exists k, In k ks /\ length cs = k /\ i64s cs /\ seeds = take k v /\ reconstruct_recurrence cs seeds (length v) = v.
Proof.
  induction ks as [|k ks IH]; intros cs seeds H; cbn [recur_search] in H; [discriminate|].
  destruct (solve_recurrence v k) as [[cs'|]|] eqn:SR; [| |discriminate].
  - case_bool_decide as B.
    + injection H as <- <-. apply solve_recurrence_spec in SR as [L I]. exists k. split; [left; reflexivity|]. auto.
    + apply IH in H as (k' & I & R). exists k'. split; [right; exact I|exact R].
  - apply IH in H as (k' & I & R). exists k'. split; [right; exact I|exact R].
Qed.
Lemma i64s_take k v : i64s v -> i64s (take k v).
Proof. intros H. apply Forall_take, H. Qed.
Lemma recur_ok levels v found e : i64s v -> short v -> detect_linear_recurrence v = Some found -> recur_cand v found = Some e -> decodes levels e v.
Proof.
  intros H S D E. destruct found as [[cs seeds]|]; [|discriminate]. cbn [recur_cand mbind option_bind] in E. injection E as <-.
  unfold detect_linear_recurrence in D. apply recur_search_spec in D as (k & I & L & IC & SD & R).
  apply in_seq in I. unfold MAX_RECUR_ORDER in I.
  assert (KL : (k <= length v)%nat) by (pose proof (Nat.div_le_upper_bound (length v) 2 (length v)); lia).
  assert (IS : i64s seeds) by (rewrite SD; apply i64s_take, H).
  assert (LS : length seeds = k) by (rewrite SD, take_length; lia).
  eexists _, _. split; [reflexivity|]. intros rest max M.
  assert (G : (len cs =? 0) || (Z.of_nat MAX_RECUR_ORDER <? len cs) = false).
  { apply orb_false_iff. unfold len, MAX_RECUR_ORDER. split; [apply Z.eqb_neq; lia|apply Z.ltb_ge; lia]. }
  assert (CK : Z.to_nat (len cs) = length cs) by (unfold len; lia).
  assert (CK2 : length seeds = length cs) by lia.
  tag_branch; cbn [app read_byte mbind option_bind]; rewrite G; rd; rewrite bounded_len by exact M; cbn [mbind option_bind];
  rewrite CK; rewrite <- ?app_assoc, read_n_zz by exact IC; cbn [mbind option_bind];
  rewrite <- CK2, read_n_zz by exact IS; cbn [mbind option_bind]; rewrite R; reflexivity.
Qed.

(** ** Generator expressions *)
Fixpoint gen_size (e : gen) : nat :=
  match e with
  | GIndex | GConst _ => 1
  | GBin _ a b => S (gen_size a + gen_size b)
  | GSelect _ l r t f => S (gen_size l + gen_size r + gen_size t + gen_size f)
  end.
Fixpoint gen_height (e : gen) : nat :=
  match e with
  | GIndex | GConst _ => 1
  | GBin _ a b => S (Nat.max (gen_height a) (gen_height b))
  | GSelect _ l r t f => S (Nat.max (Nat.max (gen_height l) (gen_height r)) (Nat.max (gen_height t) (gen_height f)))
  end.
Fixpoint gen_consts (e : gen) : Prop :=
  match e with
  | GIndex => True
  | GConst c => is_i64 c
  | GBin _ a b => gen_consts a /\ gen_consts b
  | GSelect _ l r t f => gen_consts l /\ gen_consts r /\ gen_consts t /\ gen_consts f
  end.
Lemma gop_of_tag op : gop_of (gop_tag op) = Some op. Proof. destruct op; reflexivity. Qed.
Lemma gcmp_of_tag op : gcmp_of (gcmp_tag op) = Some op. Proof. destruct op; reflexivity. Qed.
Lemma deserialize_serialize e : forall levels budget rest, gen_consts e ->
  (gen_height e <= levels)%nat -> (gen_size e <= budget)%nat ->
  deserialize_gen levels (serialize_gen e ++ rest) budget = Some (e, rest, (budget - gen_size e)%nat).
Proof.
  induction e as [|c|op a IHa b IHb|op l IHl r IHr t IHt f IHf]; intros levels budget rest C H S; cbn [gen_size gen_height gen_consts] in *;
    (destruct levels as [|levels]; [lia|]); (destruct budget as [|budget]; [lia|]).
  - cbn. now rewrite Nat.sub_0_r.
  - cbn [serialize_gen deserialize_gen app]. change (1 =? 0) with false. change (1 =? 1) with true. cbv iota.
    unfold zw. rewrite read_write_uvarint by (apply zigzag_range; exact C). cbn [mbind option_bind].
    rewrite unzigzag_zigzag by exact C. cbn [Nat.sub]. now rewrite Nat.sub_0_r.
  - cbn [serialize_gen deserialize_gen app].
    assert (T0 : (gop_tag op =? 0) = false) by (destruct op; reflexivity).
    assert (T1 : (gop_tag op =? 1) = false) by (destruct op; reflexivity).
    rewrite T0, T1, gop_of_tag, <- app_assoc, IHa by (tauto || lia). cbn [mbind option_bind].
    rewrite IHb by (tauto || lia). cbn [mbind option_bind]. do 2 f_equal. lia.
  - cbn [serialize_gen deserialize_gen app]. change (7 =? 0) with false. change (7 =? 1) with false. change (gop_of 7) with (@None gop).
    change (7 =? 7) with true. cbv iota. rewrite gcmp_of_tag. cbn [mbind option_bind]. rewrite <- !app_assoc.
    rewrite IHl by (tauto || lia). cbn [mbind option_bind]. rewrite IHr by (tauto || lia). cbn [mbind option_bind].
    rewrite IHt by (tauto || lia). cbn [mbind option_bind]. rewrite IHf by (tauto || lia). cbn [mbind option_bind].
    do 2 f_equal. lia.
Qed.
Lemma modular_eval a b p i : (1 <= p <= 16)%nat -> 0 <= i -> gen_eval (modular_gen a b p) i = modular_at a b p i.
Proof.
  intros P I. unfold modular_gen, modular_at. cbn [gen_eval].
  destruct (Z.eqb_spec (Z.of_nat p) 0) as [E|_]; [lia|].
  rewrite Z.rem_mod_nonneg by lia. pose proof (Z.mod_pos_bound i (Z.of_nat p) ltac:(lia)).
  rewrite (wrap_i64_id (i mod Z.of_nat p)) by (unfold is_i64; change (2 ^ 63) with 9223372036854775808; lia). reflexivity.
Qed.
Lemma expand_ext f g n : forall i, 0 <= i -> (forall j, 0 <= j -> f j = g j) -> expand f i n = expand g i n.
Proof. induction n as [|n IH]; intros i I H; cbn; [reflexivity|]. rewrite H by exact I. f_equal. apply IH; [lia|exact H]. Qed.
Lemma gen_ok levels v e : i64s v -> short v -> gen_cand v = Some e -> decodes levels e v.
Proof.
  intros H S E. unfold gen_cand in E. destruct (detect_modular_affine v) as [g|] eqn:D; [|discriminate].
  cbn [mbind option_bind] in E. injection E as <-. unfold detect_modular_affine in D.
  destruct v as [|a [|b v']] eqn:EV; try discriminate. rewrite <- EV in *.
  destruct (length v <? 4)%nat; [discriminate|].
  destruct (find _ _) as [p|] eqn:F; [|discriminate]. cbn [mbind option_bind] in D. injection D as <-.
  apply find_some in F as [I F]. apply in_seq in I. apply andb_true_iff in F as [_ F].
  assert (P : (1 <= p <= 16)%nat) by lia.
  assert (HA : is_i64 a) by (rewrite EV in H; now inversion H).
  set (bb := wrap_i64 (b - a)) in *.
  assert (GC : gen_consts (modular_gen a bb p)).
  { cbn. split; [exact HA|]. split; [apply wrap_i64_range|]. split; [exact Logic.I|].
    unfold is_i64. change (2 ^ 63) with 9223372036854775808. lia. }
  eexists _, _. split; [reflexivity|]. intros rest max M.
  tag_branch; rewrite <- app_assoc, deserialize_serialize by (exact GC || (cbn; unfold MAX_GEN_NODES, MAX_GEN_DEPTH; lia));
  cbn [mbind option_bind]; rd; rewrite bounded_len by exact M; cbn [mbind option_bind];
  rewrite (expand_ext _ (modular_at a bb p)) by (lia || (intros j J; apply modular_eval; assumption));
  rewrite agrees_expand by exact F; reflexivity.
Qed.

(** ** Differences *)
Lemma delta_read_ok v : forall prev rest, i64s v -> delta_read (length v) prev (delta_tail prev v ++ rest) = Some (v, rest).
Proof.
  induction v as [|x v IH]; intros prev rest H; [reflexivity|]. inversion H as [|? ? HX HV]; subst.
  cbn [length delta_read delta_tail]. rd. rewrite wrap_i64_back by exact HX. rewrite IH by exact HV. reflexivity.
Qed.
Lemma delta_ok levels v : i64s v -> short v -> decodes levels (delta_encode v) v.
Proof.
  intros H S. eexists _, _. split; [reflexivity|]. intros rest max M.
  tag_branch; rd; (destruct v as [|x v]; [reflexivity|]);
  (assert (N0 : (len (x :: v) =? 0) = false) by (apply Z.eqb_neq; unfold len; cbn; lia)); rewrite N0;
  inversion H as [|? ? HX HV]; subst; rd;
  replace (Z.to_nat (len (x :: v) - 1)) with (length v) by (unfold len; cbn; lia);
  rewrite delta_read_ok by exact HV; reflexivity.
Qed.
Lemma dod_read_ok v : forall prev d rest, i64s v -> is_i64 prev ->
  dod_read (length v) prev d (dod_tail prev d v ++ rest) = Some (v, rest).
Proof.
  induction v as [|x v IH]; intros prev d rest H P; [reflexivity|]. inversion H as [|? ? HX HV]; subst.
  cbn [length dod_read dod_tail]. rd. rewrite (wrap_i64_back (wrap_i64 (x - prev)) d) by apply wrap_i64_range.
  rewrite wrap_i64_back by exact HX. rewrite IH by assumption. reflexivity.
Qed.
Lemma dod_ok levels v : i64s v -> short v -> decodes levels (dod_encode v) v.
Proof.
  intros H S. eexists _, _. split; [reflexivity|]. intros rest max M.
  tag_branch; rd; (destruct v as [|x [|y v]]; [reflexivity| |]); inversion H as [|? ? HX HV]; subst.
  1,3: change (len [x] =? 0) with false; change (len [x] =? 1) with true; cbv iota; rd; reflexivity.
  all: inversion HV as [|? ? HY HV2]; subst;
    (assert (N0 : (len (x :: y :: v) =? 0) = false) by (apply Z.eqb_neq; unfold len; cbn; lia));
    (assert (N1 : (len (x :: y :: v) =? 1) = false) by (apply Z.eqb_neq; unfold len; cbn; lia)); rewrite N0, N1; cbv zeta; do 2 rd;
    replace (Z.to_nat (len (x :: y :: v) - 2)) with (length v) by (unfold len; cbn; lia);
    rewrite wrap_i64_back by exact HY; rewrite dod_read_ok by assumption; reflexivity.
Qed.

(** ** Byte column *)
Lemma take_bytes_app l rest : take_bytes (len l) (l ++ rest) = Some (l, rest).
Proof.
  unfold take_bytes, len. rewrite app_length. destruct (Z.ltb_spec (Z.of_nat (length l + length rest)) (Z.of_nat (length l))); [lia|].
  rewrite Nat2Z.id, take_app, drop_app. reflexivity.
Qed.
Lemma bytes_ok levels v e : i64s v -> short v -> bytes_cand v = Some e -> decodes levels e v.
Proof.
  intros H S E. unfold bytes_cand in E. destruct (negb (length v =? 0)%nat && all_bytes v); [|discriminate]. injection E as <-.
  eexists _, _. split; [reflexivity|]. intros rest max M. tag_branch; rd; apply take_bytes_app.
Qed.

(** ** Frame of reference *)
Lemma fold_min_spec v : forall x, fold_left Z.min v x <= x /\ Forall (fun y => fold_left Z.min v x <= y) v /\ (fold_left Z.min v x = x \/ In (fold_left Z.min v x) v).
Proof.
  induction v as [|y v IH]; intros x; cbn [fold_left]; [split; [lia|]; split; [constructor|left; reflexivity]|].
  destruct (IH (Z.min x y)) as (A & B & C). split; [lia|]. split; [constructor; [lia|exact B]|].
  destruct C as [C|C]; [|right; right; exact C]. rewrite C. destruct (Z.min_spec x y) as [[_ E]|[_ E]]; rewrite E; [left|right; left]; reflexivity.
Qed.
Lemma fold_max_spec v : forall x, x <= fold_left Z.max v x /\ Forall (fun y => y <= fold_left Z.max v x) v /\ (fold_left Z.max v x = x \/ In (fold_left Z.max v x) v).
Proof.
  induction v as [|y v IH]; intros x; cbn [fold_left]; [split; [lia|]; split; [constructor|left; reflexivity]|].
  destruct (IH (Z.max x y)) as (A & B & C). split; [lia|]. split; [constructor; [lia|exact B]|].
  destruct C as [C|C]; [|right; right; exact C]. rewrite C. destruct (Z.max_spec x y) as [[_ E]|[_ E]]; rewrite E; [right; left|left]; reflexivity.
Qed.
Lemma list_min_max v : i64s v -> is_i64 (list_min v) /\ is_i64 (list_max v) /\ Forall (fun y => list_min v <= y <= list_max v) v.
Proof.
  intros H. destruct v as [|x v].
  - split; [cbn; unfold is_i64; lia|]. split; [cbn; unfold is_i64; lia|constructor].
  - inversion H as [|? ? HX HV]; subst. unfold i64s in HV. rewrite List.Forall_forall in HV. cbn [list_min list_max].
    destruct (fold_min_spec v x) as (A & B & C). destruct (fold_max_spec v x) as (A' & B' & C').
    split; [destruct C as [->|C]; [exact HX|apply HV, C]|]. split; [destruct C' as [->|C']; [exact HX|apply HV, C']|].
    constructor; [lia|]. rewrite List.Forall_forall in B, B' |- *. intros y Y. split; [apply B, Y|apply B', Y].
Qed.
Lemma wrap64_sub x y : is_i64 x -> is_i64 y -> y <= x -> wrap64 (wrap64 x - wrap64 y) = x - y.
Proof.
  intros X Y L. unfold wrap64. rewrite <- Zminus_mod. apply Z.mod_small. unfold is_i64 in *.
  change two64 with (2 * 2 ^ 63). lia.
Qed.
Lemma bit_length_spec x : 0 <= x -> x < 2 ^ Z.of_nat (bit_length x) /\ (bit_length x = 0%nat <-> x = 0).
Proof.
  intros X. unfold bit_length. destruct (Z.eqb_spec x 0) as [->|N]; [split; [reflexivity|tauto]|].
  split; [|split; [discriminate|congruence]]. pose proof (Z.log2_spec x ltac:(lia)). pose proof (Z.log2_nonneg x).
  rewrite Nat2Z.inj_succ, Z2Nat.id by lia. lia.
Qed.
Lemma bit_length_le x w : 0 <= x < 2 ^ Z.of_nat w -> (bit_length x <= w)%nat.
Proof.
  intros X. unfold bit_length. destruct (Z.eqb_spec x 0) as [->|N]; [lia|].
  assert (Z.log2 x < Z.of_nat w) by (apply Z.log2_lt_pow2; lia). pose proof (Z.log2_nonneg x). lia.
Qed.
Lemma packed_read vals width rest : (1 <= width <= 64)%nat -> Forall (fun x => 0 <= x < 2 ^ Z.of_nat width) vals -> short vals ->
  (two64 <=? len vals * Z.of_nat width) = false /\
  take_bytes ((len vals * Z.of_nat width + 7) / 8) (bitpack vals width ++ rest) = Some (bitpack vals width, rest) /\
  bitunpack (bitpack vals width) (len vals) (Z.of_nat width) = Some vals.
Proof.
  intros W R S.
  assert (B : len vals * Z.of_nat width < two64).
  { unfold short, len in *. change (2 ^ 28) with 268435456 in S. change two64 with 18446744073709551616. nia. }
  split; [apply Z.leb_gt; exact B|]. split; [|apply bitunpack_bitpack; assumption].
  destruct (bitpack_props vals width) as [L _]. destruct (Nat.eqb_spec width 0) as [E|_]; [lia|].
  replace ((len vals * Z.of_nat width + 7) / 8) with (len (bitpack vals width)); [apply take_bytes_app|].
  unfold len. rewrite L, div_ceil8_Z, Nat2Z.inj_mul. reflexivity.
Qed.
Lemma map_len {A B} (f : A -> B) l : len (map f l) = len l. Proof. unfold len. now rewrite map_length. Qed.
Lemma repeat_all (x : Z) v : Forall (fun y => y = x) v -> repeat x (length v) = v.
Proof. induction 1 as [|y v -> H IH]; [reflexivity|]. cbn. now rewrite IH. Qed.
Lemma for_ok levels v : i64s v -> short v -> decodes levels (for_encode v) v.
Proof.
  intros H S. destruct (list_min_max v H) as (MI & MA & R).
  eexists _, _. split; [reflexivity|]. intros rest max M.
  tag_branch; do 2 rd.
  all: destruct v as [|v0 v'] eqn:EV; [reflexivity|]; rewrite <- EV in *;
    cbn [app read_byte mbind option_bind];
    assert (MM : list_min v <= list_max v) by (rewrite EV in R |- *; inversion R as [|? ? RX _]; subst; lia);
    rewrite wrap64_sub by assumption;
    set (w := bit_length (list_max v - list_min v));
    (destruct (bit_length_spec (list_max v - list_min v) ltac:(lia)) as [BL BZ]); fold w in BL, BZ;
    assert (W64 : (w <= 64)%nat) by (apply bit_length_le; unfold is_i64 in *; change (2 ^ Z.of_nat 64) with (2 * 2 ^ 63); lia);
    (destruct (Z.ltb_spec 64 (Z.of_nat w)) as [|_]; [lia|]);
    destruct (Nat.ltb_spec 0 w) as [WP|WZ].
  1,3: destruct (Z.eqb_spec (Z.of_nat w) 0) as [|_]; [lia|];
    set (rs := map (fun x => wrap64 (wrap64 x - wrap64 (list_min v))) v);
    assert (ER : rs = map (fun x => x - list_min v) v) by
      (apply map_ext_in; intros y Y; unfold i64s in H; rewrite List.Forall_forall in H, R; specialize (R y Y);
       apply wrap64_sub; [apply H, Y|exact MI|lia]);
    assert (RR : Forall (fun x => 0 <= x < 2 ^ Z.of_nat w) rs) by
      (rewrite ER; apply List.Forall_forall; intros y Y; apply in_map_iff in Y as (x & <- & X);
       rewrite List.Forall_forall in R; specialize (R x X); lia);
    assert (LR : len v = len rs) by (unfold rs; now rewrite map_len); rewrite LR;
    (destruct (packed_read rs w rest) as (A & B & C); [lia|exact RR|unfold short in *; lia|]);
    rewrite A, B; cbn [mbind option_bind]; rewrite C; cbn [mbind option_bind]; do 2 f_equal;
    rewrite ER, map_map; rewrite <- (map_id v) at 2; apply map_ext_in; intros y Y;
    unfold i64s in H; rewrite List.Forall_forall in H;
    (destruct (wrap64_i64 y (H y Y)) as [_ WY]); rewrite <- WY at 2; f_equal; unfold wrap64;
    rewrite Zplus_mod_idemp_r; f_equal; lia.
  all: assert (W0 : w = 0%nat) by lia; rewrite W0; change (Z.of_nat 0 =? 0) with true; cbv iota;
    do 2 f_equal; unfold len; rewrite Nat2Z.id; apply repeat_all;
    apply (Forall_impl _ _ _ R); intros y Y; apply BZ in W0; lia.
Qed.
