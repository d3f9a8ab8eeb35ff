(** Runs, dictionaries, shift registers, and the whole encoder of [IntColModel]. *)
From Coq Require Import ZArith List Lia.
From stdpp Require Import list.
From Verif Require Import MachInt WireModel WireProofs IntColModel IntColProofs IntColRound IntColRound2.
Open Scope Z_scope.

(** ** Runs *)
Definition spread (runs : list (Z * Z)) : list Z := flat_map (fun '(x, n) => repeat x (Z.to_nat n)) runs.
Lemma spread_app a b : spread (a ++ b) = spread a ++ spread b.
Proof. apply flat_map_app. Qed.
Lemma runs_of_spec v : forall acc, i64s v -> Forall (fun '(x, n) => is_i64 x /\ 1 <= n) acc ->
  Forall (fun '(x, n) => is_i64 x /\ 1 <= n) (runs_of acc v) /\ spread (runs_of acc v) = spread (rev acc) ++ v.
Proof.
  induction v as [|x v IH]; intros acc H A; cbn [runs_of].
  - split; [apply Forall_rev, A|now rewrite app_nil_r].
  - inversion H as [|? ? HX HV]; subst. destruct acc as [|[y n] acc].
    + destruct (IH [(x, 1)]) as [B C]; [exact HV|constructor; [split; [exact HX|lia]|constructor]|].
      split; [exact B|]. rewrite C. reflexivity.
    + inversion A as [|? ? HYN HA]; subst. destruct HYN as [HY HN]. destruct (Z.eqb_spec y x) as [->|N].
      * destruct (IH ((x, n + 1) :: acc)) as [B C]; [exact HV|constructor; [split; [exact HX|lia]|exact HA]|].
        split; [exact B|]. rewrite C. cbn [rev]. rewrite !spread_app. cbn [spread flat_map]. rewrite !app_nil_r.
        replace (Z.to_nat (n + 1)) with (Z.to_nat n + 1)%nat by lia. rewrite repeat_app. cbn. now rewrite <- !app_assoc.
      * destruct (IH ((x, 1) :: (y, n) :: acc)) as [B C]; [exact HV|constructor; [split; [exact HX|lia]|exact A]|].
        split; [exact B|]. rewrite C. cbn [rev]. rewrite !spread_app. cbn [spread flat_map]. rewrite !app_nil_r.
        change (Z.to_nat 1) with 1%nat. cbn [repeat]. now rewrite <- !app_assoc.
Qed.
Lemma rle_read_ok runs : forall acc rest, Forall (fun '(x, n) => is_i64 x /\ 1 <= n) runs -> len acc + len (spread runs) <= 2 ^ 28 ->
  rle_read (length runs) acc (flat_map (fun '(x, n) => zw x ++ write_uvarint n) runs ++ rest) = Some (acc ++ spread runs, rest).
Proof.
  induction runs as [|[x n] runs IH]; intros acc rest H L; [cbn; now rewrite app_nil_r|].
  inversion H as [|? ? HXN HR]; subst. destruct HXN as [HX HN]. cbn [length rle_read flat_map spread] in *.
  unfold len in L. rewrite app_length, repeat_length in L.
  rewrite <- !app_assoc. rewrite read_zz_zw by exact HX. cbn [mbind option_bind].
  rewrite read_write_uvarint by (unfold is_u64; change two64 with 18446744073709551616; change (2 ^ 28) with 268435456 in L; lia).
  cbn [mbind option_bind]. destruct (Z.ltb_spec RLE_MAX_TOTAL (len acc + n)) as [B|_]; [unfold RLE_MAX_TOTAL, len in B; lia|].
  rewrite IH; [|exact HR|].
  - unfold spread. cbn [flat_map]. now rewrite <- app_assoc.
  - unfold len. rewrite app_length, repeat_length. fold (spread runs) in L. lia.
Qed.
Lemma spread_length runs : Forall (fun '(x, n) => is_i64 x /\ 1 <= n) runs -> (length runs <= length (spread runs))%nat.
Proof.
  induction 1 as [|[x n] runs XN H IH]; [cbn; lia|]. destruct XN as [_ N]. unfold spread in *. cbn [flat_map length]. rewrite app_length, repeat_length. lia.
Qed.
Lemma rle_ok levels v : i64s v -> short v -> decodes levels (rle_encode v) v.
Proof.
  intros H S. destruct (runs_of_spec v [] H (Forall_nil_2 _)) as [A B]. cbn [rev spread flat_map app] in B.
  pose proof (spread_length _ A) as L. rewrite B in L.
  eexists _, _. split; [reflexivity|]. intros rest max M. rewrite <- app_assoc.
  assert (SR : short (runs_of [] v)) by (unfold short, len in *; lia).
  assert (RL : len (@nil Z) + len (spread (runs_of [] v)) <= 2 ^ 28) by (rewrite B; unfold short, len in *; cbn [length]; lia).
  tag_branch; rewrite read_write_uvarint by (apply short_u64, SR); cbn [mbind option_bind];
  unfold len at 1; rewrite Nat2Z.id, rle_read_ok by assumption; rewrite B; reflexivity.
Qed.

(** ** Dictionary *)
Lemma index_of_spec x dict : match index_of x dict with Some i => dict !! i = Some x | None => ~ In x dict end.
Proof.
  induction dict as [|y dict IH]; cbn [index_of]; [intros []|]. destruct (Z.eqb_spec y x) as [->|N]; [reflexivity|].
  destruct (index_of x dict) as [i|]; cbn [fmap option_fmap option_map]; [exact IH|]. intros [E|I]; [congruence|exact (IH I)].
Qed.
Lemma prefix_lookup_Some (a b : list Z) i x : a !! i = Some x -> a `prefix_of` b -> b !! i = Some x.
Proof. intros A [c ->]. now apply lookup_app_l_Some. Qed.
Lemma dict_loop_spec v : forall dict, i64s v -> i64s dict ->
  let '(dict', idx) := dict_loop dict v in
  i64s dict' /\ dict `prefix_of` dict' /\ (length dict' <= length dict + length v)%nat /\ Forall2 (fun i x => dict' !! i = Some x) idx v.
Proof.
  induction v as [|x v IH]; intros dict H D; cbn [dict_loop].
  - split; [exact D|]. split; [reflexivity|]. split; [cbn; lia|constructor].
  - inversion H as [|? ? HX HV]; subst. pose proof (index_of_spec x dict) as I.
    destruct (index_of x dict) as [i|].
    + specialize (IH dict HV D). destruct (dict_loop dict v) as [dict' idx]. destruct IH as (A & P & L & F).
      split; [exact A|]. split; [exact P|]. split; [cbn; lia|]. constructor; [|exact F]. eapply prefix_lookup_Some; eassumption.
    + assert (D2 : i64s (dict ++ [x])) by (apply Forall_app; split; [exact D|constructor; [exact HX|constructor]]).
      specialize (IH (dict ++ [x]) HV D2). destruct (dict_loop (dict ++ [x]) v) as [dict' idx]. destruct IH as (A & P & L & F).
      split; [exact A|]. split; [etrans; [|exact P]; apply prefix_app_r; reflexivity|].
      split; [rewrite app_length in L; cbn in *; lia|]. constructor; [|exact F].
      eapply prefix_lookup_Some; [|exact P]. rewrite lookup_app_r by lia. rewrite Nat.sub_diag. reflexivity.
Qed.
Lemma dict_mapM (dict : list Z) (idx : list nat) (v : list Z) : Forall2 (fun i x => dict !! i = Some x) idx v ->
  mapM (fun ix => dict !! Z.to_nat ix) (map Z.of_nat idx) = Some v.
Proof.
  induction 1 as [|i x idx v E F IH]; [reflexivity|]. cbn [map mapM]. rewrite Nat2Z.id, E. cbn [mbind option_bind].
  rewrite IH. reflexivity.
Qed.
Lemma dict_ok levels v : i64s v -> short v -> decodes levels (dict_encode v) v.
Proof.
  intros H S. unfold dict_encode. pose proof (dict_loop_spec v [] H (Forall_nil_2 _)) as DL.
  destruct (dict_loop [] v) as [dict idx]. destruct DL as (D & _ & L & F). cbn [length] in L.
  pose proof (Forall2_length _ _ _ F) as LI.
  set (iw := if (length dict <=? 1)%nat then 0%nat else bit_length (len dict - 1)).
  eexists _, _. split; [reflexivity|]. intros rest max M.
  assert (SD : short dict) by (unfold short, len in *; lia).
  assert (IW : (iw <= 64)%nat).
  { unfold iw. destruct (Nat.leb_spec (length dict) 1); [lia|]. apply bit_length_le. unfold short, len in *.
    change (2 ^ 28) with 268435456 in SD. change (2 ^ Z.of_nat 64) with 18446744073709551616. lia. }
  assert (CD : Z.to_nat (len dict) = length dict) by (unfold len; lia).
  tag_branch; rd; rewrite CD, read_n_zz by exact D; cbn [mbind option_bind]; rd; cbn [app read_byte mbind option_bind];
  (destruct (Z.ltb_spec 64 (Z.of_nat iw)) as [|_]; [lia|]); destruct (Nat.ltb_spec 0 iw) as [WP|WZ].
  1,3: destruct (Z.eqb_spec (Z.of_nat iw) 0) as [|_]; [lia|];
    assert (RR : Forall (fun x => 0 <= x < 2 ^ Z.of_nat iw) (map Z.of_nat idx)) by
      (apply List.Forall_forall; intros y Y; apply in_map_iff in Y as (i & <- & I);
       apply elem_of_list_In, elem_of_list_lookup in I as [k K];
       (destruct (Forall2_lookup_l _ _ _ _ _ F K) as (x & _ & E)); apply lookup_lt_Some in E; unfold iw;
       unfold iw in WP; destruct (Nat.leb_spec (length dict) 1); [lia|];
       pose proof (bit_length_spec (len dict - 1) ltac:(unfold len; lia)) as [BL _]; unfold len in BL |- *; lia);
    assert (LR : len v = len (map Z.of_nat idx)) by (rewrite map_len; unfold len; lia); rewrite LR;
    (destruct (packed_read (map Z.of_nat idx) iw rest) as (A & B & C); [lia|exact RR|unfold short in *; lia|]);
    rewrite A, B; cbn [mbind option_bind]; rewrite C; cbn [mbind option_bind]; rewrite (dict_mapM _ _ _ F); reflexivity.
  all: assert (W0 : iw = 0%nat) by lia; rewrite W0; change (Z.of_nat 0 =? 0) with true; cbv iota;
    assert (D1 : (length dict <= 1)%nat) by
      (unfold iw in W0; destruct (Nat.leb_spec (length dict) 1) as [LL|LL]; [exact LL|];
       pose proof (bit_length_spec (len dict - 1) ltac:(unfold len; lia)) as [_ BZ]; apply BZ in W0; unfold len in W0; lia);
    (destruct v as [|v0 v'] eqn:EV; [reflexivity|]); rewrite <- EV in *;
    (assert (NZ : (0 <? len v) = true) by (apply Z.ltb_lt; rewrite EV; unfold len; cbn; lia)); rewrite NZ;
    (assert (ALL : Forall (fun x => head dict = Some x) v) by
      (apply List.Forall_forall; intros y Y; apply elem_of_list_In, elem_of_list_lookup in Y as [k K];
       (destruct (Forall2_lookup_r _ _ _ _ _ F K) as (i & _ & E)); pose proof (lookup_lt_Some _ _ _ E);
       replace i with 0%nat in E by lia; rewrite head_lookup; exact E));
    (destruct (head dict) as [x|] eqn:HD; [|rewrite EV in ALL; inversion ALL; discriminate]);
    cbn [mbind option_bind]; unfold len; rewrite Nat2Z.id; do 2 f_equal; apply repeat_all;
    apply (Forall_impl _ _ _ ALL); intros y Y; congruence.
Qed.

(** ** Shift registers *)
Lemma byte_bits_round : forall x, 0 <= x < 256 -> byte_of_bits (map (fun j => Z.testbit (x mod 256) (Z.of_nat j)) (seq 0 8)) = x.
Proof.
  assert (B : forallb (fun k => byte_of_bits (map (fun j => Z.testbit (Z.of_nat k mod 256) (Z.of_nat j)) (seq 0 8)) =? Z.of_nat k) (seq 0 256) = true) by (vm_compute; reflexivity).
  intros x X. rewrite forallb_forall in B. specialize (B (Z.to_nat x)). rewrite in_seq in B. specialize (B ltac:(lia)).
  apply Z.eqb_eq in B. rewrite Z2Nat.id in B by lia. exact B.
Qed.
Lemma bytes_to_bits_length v : length (bytes_to_bits v) = (8 * length v)%nat.
Proof. induction v as [|x v IH]; [reflexivity|]. cbn [bytes_to_bits flat_map]. rewrite app_length. fold (bytes_to_bits v). rewrite IH. cbn. lia. Qed.
Lemma chunks8_bits v : forall fuel, (length v <= fuel)%nat ->
  chunks8 fuel (bytes_to_bits v) = map (fun x => map (fun j => Z.testbit (x mod 256) (Z.of_nat j)) (seq 0 8)) v.
Proof.
  induction v as [|x v IH]; intros fuel F; [destruct fuel; reflexivity|]. cbn [length] in F. destruct fuel as [|fuel]; [lia|].
  cbn [bytes_to_bits flat_map]. fold (bytes_to_bits v). cbn [seq map app chunks8]. cbn [take drop]. rewrite take_0, drop_0. f_equal. apply IH. lia.
Qed.
Lemma bits_round v : all_bytes v = true -> bits_to_bytes (bytes_to_bits v) = v.
Proof.
  intros B. unfold bits_to_bytes. rewrite chunks8_bits by (rewrite bytes_to_bits_length; lia). rewrite map_map.
  rewrite <- (map_id v) at 2. apply map_ext_in. intros x X. apply byte_bits_round.
  unfold all_bytes in B. rewrite forallb_forall in B. specialize (B x X). apply andb_true_iff in B as [A C].
  apply Z.leb_le in A. apply Z.ltb_lt in C. lia.
Qed.
Lemma bm_inv s : forall k, (k <= length s)%nat ->
  let st := foldl (bm_step s) (bm_init (length s)) (seq 0 k) in
  length (bm_c st) = S (length s) /\ length (bm_b st) = S (length s) /\ (bm_l st <= k)%nat.
Proof.
  induction k as [|k IH]; intros K.
  - cbn. rewrite repeat_length. lia.
  - rewrite seq_S, foldl_app. cbn [foldl Nat.add]. destruct IH as (A & B & C); [lia|].
    set (st := foldl (bm_step s) (bm_init (length s)) (seq 0 k)) in *. unfold bm_step.
    destruct (discrepancy s (bm_c st) (bm_l st) k).
    + destruct (2 * bm_l st <=? k)%nat; cbn [bm_c bm_b bm_l]; unfold bm_update; rewrite imap_length; repeat split; try assumption; lia.
    + cbn [bm_c bm_b bm_l]. repeat split; try assumption; lia.
Qed.
Lemma bm_taps s : let '(l, taps) := berlekamp_massey_gf2 s in length taps = l.
Proof.
  unfold berlekamp_massey_gf2. destruct (bm_inv s (length s)) as (A & _ & C); [lia|].
  rewrite take_length, drop_length, A. lia.
Qed.
Lemma bits_back l : map (fun x => x =? 1) (map Z.b2z l) = l.
Proof. rewrite map_map. rewrite <- (map_id l) at 2. apply map_ext. intros []; reflexivity. Qed.
Lemma bits_small l : Forall (fun x => 0 <= x < 2 ^ Z.of_nat 1) (map Z.b2z l).
Proof. apply List.Forall_forall. intros x X. apply in_map_iff in X as (b & <- & _). destruct b; cbn; lia. Qed.
Lemma lfsr_ok levels best v e : i64s v -> short v -> lfsr_cand best v = Some e -> decodes levels e v.
Proof.
  intros H S E. unfold lfsr_cand in E.
  destruct (negb (length v =? 0)%nat && (length v <=? LFSR_MAX_BYTES)%nat && (length v <=? length best)%nat && all_bytes v) eqn:G; [|discriminate].
  apply andb_true_iff in G as [G AB]. apply andb_true_iff in G as [G _]. apply andb_true_iff in G as [_ G]. apply Nat.leb_le in G.
  unfold LFSR_MAX_BYTES in G.
  destruct (detect_lfsr_bytes v) as [[[l taps] seed]|] eqn:D; [|discriminate]. cbn [mbind option_bind] in E. injection E as <-.
  unfold detect_lfsr_bytes in D. pose proof (bm_taps (bytes_to_bits v)) as BT.
  destruct (berlekamp_massey_gf2 (bytes_to_bits v)) as [l' taps'].
  destruct ((l' =? 0)%nat || (length (bytes_to_bits v) <=? l')%nat) eqn:G2; [discriminate|].
  apply orb_false_iff in G2 as [_ G2]. apply Nat.leb_gt in G2.
  case_bool_decide as R; [|discriminate]. injection D as -> -> <-.
  pose proof (bytes_to_bits_length v) as LB.
  assert (LS : length (take l (bytes_to_bits v)) = l) by (rewrite take_length; lia).
  eexists _, _. split; [reflexivity|]. intros rest max M. rewrite <- !app_assoc.
  assert (UL : is_u64 (Z.of_nat l)) by (unfold is_u64; change two64 with 18446744073709551616; lia).
  assert (T64 : (two64 <=? Z.of_nat (length v) * 8) = false) by (apply Z.leb_gt; change two64 with 18446744073709551616; lia).
  assert (LT : (Z.of_nat (length v) * 8 <? Z.of_nat l) = false) by (apply Z.ltb_ge; lia).
  set (seed := take l (bytes_to_bits v)) in *.
  destruct (packed_read (map Z.b2z taps) 1 (bitpack (map Z.b2z seed) 1 ++ rest)) as (_ & B1 & C1);
    [lia|apply bits_small|unfold short, len; rewrite map_length, BT; change (2 ^ 28) with 268435456; lia|].
  destruct (packed_read (map Z.b2z seed) 1 rest) as (_ & B2 & C2);
    [lia|apply bits_small|unfold short, len; rewrite map_length, LS; change (2 ^ 28) with 268435456; lia|].
  unfold len in B1, C1, B2, C2. rewrite map_length in B1, C1, B2, C2. rewrite BT in B1, C1. rewrite LS in B2, C2.
  change (Z.of_nat 1) with 1 in *. rewrite Z.mul_1_r in B1, B2.
  assert (TB : Z.to_nat (Z.of_nat (length v) * 8) = length (bytes_to_bits v)) by lia.
  tag_branch; rewrite read_write_uvarint by (apply short_u64, S); cbn [mbind option_bind]; rewrite bounded_len by exact M;
  cbn [mbind option_bind]; rewrite read_write_uvarint by exact UL; cbn [mbind option_bind];
  rewrite T64, LT, B1; cbn [mbind option_bind]; rewrite C1; cbn [mbind option_bind]; rewrite B2; cbn [mbind option_bind];
  rewrite C2; cbn [mbind option_bind]; rewrite !bits_back, TB, R, bits_round by exact AB; reflexivity.
Qed.

(** ** Registers with carry *)
Lemma from_le_app a b : from_le (a ++ b) = from_le a + 256 ^ len a * from_le b.
Proof.
  induction a as [|x a IH]; cbn [app from_le]; [unfold len; cbn [length]; change (256 ^ Z.of_nat 0) with 1; lia|].
  rewrite IH. unfold len. cbn [length]. rewrite Nat2Z.inj_succ, Z.pow_succ_r by lia. ring.
Qed.
Lemma from_le_trim l : from_le (rev (trim_front l)) = from_le (rev l).
Proof.
  induction l as [|b l IH]; [reflexivity|]. cbn [trim_front]. destruct (Z.eqb_spec b 0) as [->|N]; [|reflexivity].
  rewrite IH. cbn [rev]. rewrite from_le_app. cbn [from_le]. lia.
Qed.
Lemma trim_length l : (length (trim_front l) <= length l)%nat.
Proof. induction l as [|b l IH]; [reflexivity|]. cbn. destruct (b =? 0); cbn; lia. Qed.
Lemma limbs_of_bound x : 0 <= x -> x < 256 ^ Z.of_nat (8 * limbs_of x).
Proof.
  intros X. unfold limbs_of. destruct (Z.eqb_spec x 0) as [->|N]; [reflexivity|].
  pose proof (Z.log2_spec x ltac:(lia)) as [_ U]. pose proof (Z.log2_nonneg x) as LN.
  pose proof (Z.div_mod (Z.log2 x) 64 ltac:(lia)) as DM. pose proof (Z.mod_pos_bound (Z.log2 x) 64 ltac:(lia)) as MB.
  pose proof (Z.div_pos (Z.log2 x) 64 LN ltac:(lia)).
  apply Z.lt_le_trans with (1 := U). change 256 with (2 ^ 8). rewrite <- Z.pow_mul_r by lia. apply Z.pow_le_mono_r; [lia|].
  rewrite Nat2Z.inj_mul, Z2Nat.id by lia. lia.
Qed.
Lemma magnitude_round x : 0 <= x -> from_le (magnitude_bytes x) = x.
Proof.
  intros X. unfold magnitude_bytes. rewrite from_le_trim, rev_involutive. apply from_le_bytes. split; [exact X|apply limbs_of_bound, X].
Qed.
Lemma magnitude_length x : (length (magnitude_bytes x) <= 8 * limbs_of x)%nat.
Proof. unfold magnitude_bytes. rewrite rev_length. etrans; [apply trim_length|]. rewrite rev_length, le_bytes_length. lia. Qed.
Lemma bigint_round x rest : Z.log2 (Z.abs x) < 2 ^ 60 -> read_bigint (write_bigint x ++ rest) = Some (x, rest).
Proof.
  intros B. unfold write_bigint. cbn [app read_bigint]. rewrite <- app_assoc.
  pose proof (magnitude_length (Z.abs x)) as ML.
  rewrite read_write_uvarint.
  - cbn [mbind option_bind]. rewrite take_bytes_app. cbn [mbind option_bind]. rewrite magnitude_round by lia.
    destruct (Z.ltb_spec x 0); [change (1 =? 0) with false|change (0 =? 0) with true]; cbv iota; do 2 f_equal; lia.
  - unfold is_u64, len. split; [lia|]. unfold limbs_of in ML. destruct (Z.eqb_spec (Z.abs x) 0) as [E|N]; [change two64 with 18446744073709551616; lia|].
    rename B into L.
    assert (D : Z.log2 (Z.abs x) / 64 <= Z.log2 (Z.abs x)).
    { pose proof (Z.log2_nonneg (Z.abs x)). apply Z.div_le_upper_bound; lia. }
    pose proof (Z.div_pos (Z.log2 (Z.abs x)) 64 (Z.log2_nonneg _) ltac:(lia)).
    change (2 ^ 60) with 1152921504606846976 in L. change two64 with 18446744073709551616. lia.
Qed.
Lemma euclid_bound rounds : forall N k r0 t0 r1 t1, 0 <= N -> 0 <= r0 <= N -> 0 <= r1 <= N -> 0 <= k ->
  Z.abs t0 <= (N + 1) ^ k -> Z.abs t1 <= (N + 1) ^ k ->
  let '(p, q) := euclid_loop rounds N r0 t0 r1 t1 in Z.abs p <= N /\ Z.abs q <= (N + 1) ^ (k + Z.of_nat rounds).
Proof.
  induction rounds as [|rounds IH]; intros N k r0 t0 r1 t1 HN R0 R1 K T0 T1; cbn [euclid_loop].
  - split; [lia|]. now rewrite Z.add_0_r.
  - assert (STEP : (N + 1) ^ k <= (N + 1) ^ (k + Z.of_nat (S rounds))) by (apply Z.pow_le_mono_r; lia).
    destruct (Z.eqb_spec r1 0) as [->|N0]; cbn [orb]; [split; lia|].
    destruct (Z.leb_spec (r1 * r1) N); [split; lia|].
    assert (Q : 0 <= Z.quot r0 r1 <= N).
    { rewrite Z.quot_div_nonneg by lia. split; [apply Z.div_pos; lia|]. apply Z.div_le_upper_bound; nia. }
    specialize (IH N (k + 1) r1 t1 (Z.rem r0 r1) (t0 - Z.quot r0 r1 * t1)).
    replace (k + 1 + Z.of_nat rounds) with (k + Z.of_nat (S rounds)) in IH by lia. apply IH; try lia.
    + pose proof (Z.rem_bound_pos r0 r1). lia.
    + etrans; [exact T1|]. apply Z.pow_le_mono_r; lia.
    + rewrite Z.pow_add_r, Z.pow_1_r by lia. nia.
Qed.
Lemma two_adic_value_bound bits : 0 <= two_adic_value bits < 2 ^ len bits.
Proof.
  induction bits as [|b bits IH]; [change (2 ^ len (@nil bool)) with 1; cbn [two_adic_value fold_right]; lia|]. cbn [two_adic_value fold_right]. fold (two_adic_value bits).
  unfold len in *. cbn [length]. rewrite Nat2Z.inj_succ, Z.pow_succ_r by lia. destruct b; cbn [Z.b2z]; lia.
Qed.
Lemma quot_abs_le a b : b <> 0 -> Z.abs (Z.quot a b) <= Z.abs a.
Proof.
  intros N. rewrite <- Z.quot_abs by exact N. rewrite Z.quot_div_nonneg by lia.
  apply Z.div_le_upper_bound; nia.
Qed.
Lemma log2_abs_le x k : 0 <= k -> Z.abs x <= 2 ^ k -> Z.log2 (Z.abs x) <= k.
Proof. intros K X. apply Z.log2_le_mono in X. now rewrite Z.log2_pow2 in X. Qed.
Lemma two_adic_small bits p q : (length bits <= 2048)%nat -> two_adic_reconstruct bits = Some (p, q) ->
  Z.log2 (Z.abs p) < 2 ^ 60 /\ Z.log2 (Z.abs q) < 2 ^ 60 /\ Z.odd q = true.
Proof.
  intros L H. unfold two_adic_reconstruct in H. destruct bits as [|b0 bits'] eqn:EB; [discriminate|]. rewrite <- EB in *. clear EB.
  pose proof (two_adic_value_bound bits) as VB.
  assert (NP : 1 <= 2 ^ len bits) by (pose proof (Z.pow_pos_nonneg 2 (len bits)); unfold len in *; lia).
  set (R := (2 * length bits + 3)%nat) in *.
  pose proof (euclid_bound R (2 ^ len bits) 0 (2 ^ len bits) 0 (two_adic_value bits) 1) as EBD.
  destruct (euclid_loop R (2 ^ len bits) (2 ^ len bits) 0 (two_adic_value bits) 1) as [p0 q0].
  destruct EBD as [PB QB]; try (rewrite ?Z.pow_0_r; lia). rewrite Z.add_0_l in QB.
  assert (QB2 : Z.abs q0 <= 2 ^ ((len bits + 1) * Z.of_nat R)).
  { etrans; [exact QB|]. rewrite Z.pow_mul_r by (unfold len; lia). apply Z.pow_le_mono_l. split; [lia|].
    rewrite Z.pow_add_r, Z.pow_1_r by (unfold len; lia). lia. }
  destruct (q0 =? 0); [discriminate|].
  destruct (if q0 <? 0 then (- p0, - q0) else (p0, q0)) as [p1 q1] eqn:E1.
  assert (A1 : Z.abs p1 = Z.abs p0 /\ Z.abs q1 = Z.abs q0).
  { destruct (q0 <? 0); injection E1 as <- <-; rewrite ?Z.abs_opp; split; reflexivity. }
  destruct (if negb (Z.gcd p1 q1 =? 0) && negb (Z.gcd p1 q1 =? 1) then (Z.quot p1 (Z.gcd p1 q1), Z.quot q1 (Z.gcd p1 q1)) else (p1, q1)) as [p2 q2] eqn:E2.
  assert (A2 : Z.abs p2 <= Z.abs p1 /\ Z.abs q2 <= Z.abs q1).
  { destruct (negb (Z.gcd p1 q1 =? 0) && negb (Z.gcd p1 q1 =? 1)) eqn:G; injection E2 as <- <-; [|split; reflexivity].
    apply andb_true_iff in G as [G _]. apply negb_true_iff, Z.eqb_neq in G. split; apply quot_abs_le; exact G. }
  destruct A1 as [AP AQ]. destruct A2 as [BP BQ]. rewrite AP in BP. rewrite AQ in BQ.
  destruct (Z.odd q2) eqn:O; cbn [negb] in H; [|discriminate]. injection H as <- <-.
  assert (LP : Z.log2 (Z.abs p2) <= len bits) by (apply log2_abs_le; [unfold len; lia|etrans; eassumption]).
  assert (LQ : Z.log2 (Z.abs q2) <= (len bits + 1) * Z.of_nat R) by (apply log2_abs_le; [unfold len; lia|etrans; eassumption]).
  clear PB QB QB2 BP BQ VB NP. change (2 ^ 60) with 1152921504606846976. unfold len, R in *.
  split; [lia|]. split; [nia|exact O].
Qed.
Lemma fcsr_ok levels best v e : i64s v -> short v -> fcsr_cand best v = Some e -> decodes levels e v.
Proof.
  intros H S E. unfold fcsr_cand in E.
  destruct (negb (length v =? 0)%nat && (length v <=? FCSR_MAX_BYTES)%nat && (length v <=? length best)%nat && all_bytes v) eqn:G; [|discriminate].
  apply andb_true_iff in G as [G AB]. apply andb_true_iff in G as [G _]. apply andb_true_iff in G as [_ G]. apply Nat.leb_le in G.
  unfold FCSR_MAX_BYTES in G.
  destruct (detect_fcsr_bytes v) as [[p q]|] eqn:D; [|discriminate]. cbn [mbind option_bind] in E. injection E as <-.
  unfold detect_fcsr_bytes in D. pose proof (bytes_to_bits_length v) as LB.
  destruct (two_adic_reconstruct (bytes_to_bits v)) as [[p' q']|] eqn:T; [|discriminate]. cbn [mbind option_bind] in D.
  case_bool_decide as R; [|discriminate]. injection D as -> ->.
  apply two_adic_small in T as (PB & QB & O); [|lia].
  exists T_INTS_FCSR, (write_uvarint (len v) ++ write_bigint p ++ write_bigint q). split; [reflexivity|]. intros rest max M.
  rewrite <- (app_assoc (write_uvarint (len v))), <- (app_assoc (write_bigint p)).
  assert (T64 : (two64 <=? Z.of_nat (length v) * 8) = false) by (apply Z.leb_gt; change two64 with 18446744073709551616; lia).
  assert (TB : Z.to_nat (Z.of_nat (length v) * 8) = length (bytes_to_bits v)) by lia.
  tag_branch; rewrite read_write_uvarint by (apply short_u64, S); cbn [mbind option_bind]; rewrite bounded_len by exact M;
  cbn [mbind option_bind]; rewrite bigint_round by exact PB; cbn [mbind option_bind]; rewrite bigint_round by exact QB;
  cbn [mbind option_bind]; rewrite O; cbn [negb]; rewrite T64, TB, R, bits_round by exact AB; reflexivity.
Qed.

(** ** The encoder *)
Definition nest (levels : nat) (v : list Z) : Prop := (length v < 2 ^ (levels + 2))%nat \/ (9 <= levels)%nat.
Lemma consider_ind (P : list Z -> Prop) best cand : P best -> (forall c, cand = Some c -> P c) -> P (consider best cand).
Proof. intros B C. destruct cand as [c|]; cbn [consider]; [|exact B]. destruct (length c <? length best)%nat; [apply C; reflexivity|exact B]. Qed.
Lemma emit_unfold fuel v : emit fuel v =
  (let best := consider (consider (plain v) (affine_cand v)) (geometric_cand v) in
   best ← match detect_period v with
          | None => Some best
          | Some p => match fuel with
                      | O => Some best
                      | S fuel => block ← emit fuel (take p v); Some (consider best (Some (T_INTS_PERIODIC :: write_uvarint (len v) ++ block)))
                      end
          end;
   found ← detect_linear_recurrence v;
   let best := consider (consider best (sparse_cand v)) (poly_cand v) in
   let best := consider (consider best (recur_cand v found)) (gen_cand v) in
   let best := consider (consider best (Some (delta_encode v))) (Some (dod_encode v)) in
   let best := consider (consider best (bytes_cand v)) (Some (for_encode v)) in
   let best := consider (consider best (Some (rle_encode v))) (Some (dict_encode v)) in
   let best := consider best (lfsr_cand best v) in
   Some (consider best (fcsr_cand best v))).
Proof. destruct fuel; reflexivity. Qed.
Lemma consider_dec levels v best cand : decodes levels best v -> (forall c, cand = Some c -> decodes levels c v) -> decodes levels (consider best cand) v.
Proof. apply (consider_ind (fun e => decodes levels e v)). Qed.
Lemma emit_ok fuel : forall v levels e, i64s v -> short v -> nest levels v -> emit fuel v = Some e -> decodes levels e v.
Proof.
  induction fuel as [|fuel IH]; intros v levels e H S N E; rewrite emit_unfold in E; cbv zeta in E.
  all: set (b0 := consider (consider (plain v) (affine_cand v)) (geometric_cand v)) in E.
  all: assert (B0 : decodes levels b0 v) by
    (apply consider_ind; [apply consider_ind; [apply plain_ok; assumption|intros c C; eapply affine_ok; eassumption]
                         |intros c C; eapply geometric_ok; eassumption]).
  all: match type of E with (mbind _ ?m = _) => destruct m as [b1|] eqn:P; [|discriminate] end; cbn [mbind option_bind] in E.
  all: assert (B1 : decodes levels b1 v).
  - destruct (detect_period v); injection P as <-; exact B0.
  - destruct (detect_linear_recurrence v) as [found|] eqn:F; [|discriminate]. cbn [mbind option_bind] in E. apply (inj Some) in E. rewrite <- E. clear E.
    repeat first [ exact B1 | apply consider_dec; [|intros c C; first
      [ eapply sparse_ok; eassumption | eapply poly_ok; eassumption | eapply recur_ok; eassumption | eapply gen_ok; eassumption
      | eapply bytes_ok; eassumption | eapply lfsr_ok; eassumption | eapply fcsr_ok; eassumption
      | injection C as <-; first [apply delta_ok|apply dod_ok|apply for_ok|apply rle_ok|apply dict_ok]; assumption ]] ].
  - destruct (detect_period v) as [p|] eqn:DP; [|injection P as <-; exact B0].
    destruct (emit fuel (take p v)) as [block|] eqn:EB; [|discriminate]. cbn [mbind option_bind] in P. apply (inj Some) in P. rewrite <- P.
    apply consider_dec; [exact B0|]. intros c C. apply (inj Some) in C. rewrite <- C.
    destruct (detect_period_spec v p DP) as (PB & P512 & _).
    assert (TL : length (take p v) = p) by (rewrite take_length; pose proof (Nat.div_le_upper_bound (length v) 2 (length v)); lia).
    destruct levels as [|levels].
    { destruct N as [N|N]; [|lia]. cbn in N. assert ((length v / 2 < 2)%nat) by (apply Nat.div_lt_upper_bound; lia). lia. }
    apply periodic_ok with p; [assumption..|]. apply IH with (4 := EB).
    + apply i64s_take, H.
    + unfold short, len in *. rewrite TL. pose proof (Nat.div_le_upper_bound (length v) 2 (length v)). lia.
    + unfold nest. rewrite TL. destruct N as [N|N].
      * left. cbn [Nat.add Nat.pow] in N. assert ((length v / 2 < 2 ^ (levels + 2))%nat) by (apply Nat.div_lt_upper_bound; lia). lia.
      * left. apply Nat.le_lt_trans with (1 := P512). apply Nat.lt_le_trans with (2 ^ (8 + 2))%nat; [apply Nat.ltb_lt; reflexivity|].
        apply Nat.pow_le_mono_r; lia.
  - destruct (detect_linear_recurrence v) as [found|] eqn:F; [|discriminate]. cbn [mbind option_bind] in E. apply (inj Some) in E. rewrite <- E. clear E.
    repeat first [ exact B1 | apply consider_dec; [|intros c C; first
      [ eapply sparse_ok; eassumption | eapply poly_ok; eassumption | eapply recur_ok; eassumption | eapply gen_ok; eassumption
      | eapply bytes_ok; eassumption | eapply lfsr_ok; eassumption | eapply fcsr_ok; eassumption
      | injection C as <-; first [apply delta_ok|apply dod_ok|apply for_ok|apply rle_ok|apply dict_ok]; assumption ]] ].
Qed.
