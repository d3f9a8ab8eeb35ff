(** Every description of [IntColModel] decodes to the column it was made from. *)
From Coq Require Import ZArith List Lia.
From stdpp Require Import list.
From Verif Require Import MachInt WireModel WireProofs IntColModel IntColProofs.
Open Scope Z_scope.

Definition i64s (v : list Z) : Prop := Forall is_i64 v.
Definition decodes (levels : nat) (e v : list Z) : Prop :=
  exists tag body, e = tag :: body /\
  forall rest max, len v <= max -> decode_body levels tag max (body ++ rest) = Some (v, rest).

Lemma wrap_i64_id x : is_i64 x -> wrap_i64 x = x.
Proof.
  intros [A B]. unfold wrap_i64, two64. change (2 ^ 64) with 18446744073709551616. change (2 ^ 63) with 9223372036854775808 in *.
  destruct (Z.lt_ge_cases x 0) as [N|P].
  - replace (x mod 18446744073709551616) with (x + 18446744073709551616).
    + destruct (Z.ltb_spec (x + 18446744073709551616) 9223372036854775808); lia.
    + symmetry. rewrite <- (Z.mod_add x 1) by lia. apply Z.mod_small. lia.
  - rewrite Z.mod_small by lia. destruct (Z.ltb_spec x 9223372036854775808); lia.
Qed.
Lemma wrap_i64_range x : is_i64 (wrap_i64 x).
Proof.
  unfold wrap_i64, is_i64. pose proof (Z.mod_pos_bound x two64 eq_refl) as B. unfold two64 in *.
  change (2 ^ 64) with 18446744073709551616 in *. change (2 ^ 63) with 9223372036854775808 in *.
  destruct (Z.ltb_spec (x mod 18446744073709551616) 9223372036854775808); lia.
Qed.
Lemma wrap_i64_eqm x : exists k, wrap_i64 x = x + k * two64.
Proof.
  unfold wrap_i64. pose proof (Z.div_mod x two64 ltac:(discriminate)) as D.
  destruct (x mod two64 <? 2 ^ 63); [exists (- (x / two64))|exists (- (x / two64) - 1)]; lia.
Qed.
Lemma wrap_i64_shift x k : wrap_i64 (x + k * two64) = wrap_i64 x.
Proof. unfold wrap_i64. rewrite Z.mod_add by discriminate. reflexivity. Qed.
Lemma wrap_i64_back x y : is_i64 x -> wrap_i64 (y + wrap_i64 (x - y)) = x.
Proof.
  intros X. destruct (wrap_i64_eqm (x - y)) as [k ->].
  replace (y + (x - y + k * two64)) with (x + k * two64) by lia. rewrite wrap_i64_shift. apply wrap_i64_id, X.
Qed.

Lemma read_zz_zw x rest : is_i64 x -> read_zz (zw x ++ rest) = Some (x, rest).
Proof.
  intros X. unfold read_zz, zw. rewrite read_write_uvarint by (apply zigzag_range; exact X).
  cbn [mbind option_bind]. now rewrite unzigzag_zigzag.
Qed.
Lemma read_n_zz l rest : i64s l -> read_n read_zz (length l) (flat_map zw l ++ rest) = Some (l, rest).
Proof.
  induction l as [|x l IH]; intros H; [reflexivity|]. inversion H as [|? ? HX HL]; subst.
  cbn [length read_n flat_map]. rewrite <- app_assoc, read_zz_zw by exact HX. cbn [mbind option_bind].
  rewrite IH by exact HL. reflexivity.
Qed.
Lemma bounded_len {A} (v : list A) max : len v <= max -> bounded (len v) max = Some (length v).
Proof. intros H. unfold bounded. apply Z.leb_le in H. rewrite H. unfold len. now rewrite Nat2Z.id. Qed.

Definition short {A} (v : list A) : Prop := len v <= 2 ^ 28.
Lemma short_u64 {A} (v : list A) : short v -> is_u64 (len v).
Proof. unfold short, is_u64, len. intros H. change two64 with 18446744073709551616. change (2 ^ 28) with 268435456 in H. lia. Qed.

(** Select the branch of the decoder for a given tag. *)
Ltac tag_branch :=
  match goal with |- decode_body ?l _ _ _ = _ => destruct l end;
  cbn [decode_body];
  repeat match goal with |- (if ?a =? ?b then _ else _) = _ =>
    let r := eval compute in (a =? b) in change (a =? b) with r; cbv iota end.
Ltac rd := rewrite <- ?app_assoc; first
  [ rewrite read_zz_zw by (assumption || apply wrap_i64_range)
  | rewrite read_write_uvarint by (assumption || (apply short_u64; assumption)) ]; cbn [mbind option_bind].

Lemma agrees_expand f v : forall i, agrees f i v = true -> expand f i (length v) = v.
Proof.
  induction v as [|x v IH]; intros i H; [reflexivity|]. cbn [agrees] in H. apply andb_true_iff in H as [A B].
  apply Z.eqb_eq in A. cbn [length expand]. rewrite A. f_equal. apply IH, B.
Qed.
Lemma geo_agrees_expand ratio v : forall cur, geo_agrees cur ratio v = true -> geo_expand cur ratio (length v) = v.
Proof.
  induction v as [|x v IH]; intros cur H; [reflexivity|]. cbn [geo_agrees] in H. apply andb_true_iff in H as [A B].
  apply Z.eqb_eq in A. subst. cbn [length geo_expand]. f_equal. apply IH, B.
Qed.

(** ** Plain *)
Lemma existsb_negative v : existsb (fun x => x <? 0) v = false -> Forall (fun x => 0 <= x) v.
Proof.
  induction v as [|x v IH]; intros H; [constructor|]. cbn [existsb] in H. apply orb_false_iff in H as [A B].
  constructor; [apply Z.ltb_ge in A; exact A|apply IH, B].
Qed.
Lemma wrap64_i64 x : is_i64 x -> is_u64 (wrap64 x) /\ wrap_i64 (wrap64 x) = x.
Proof.
  intros X. split; [apply wrap64_range|]. unfold wrap64. unfold wrap_i64. rewrite Z.mod_mod by discriminate.
  fold (wrap_i64 x). apply wrap_i64_id, X.
Qed.
Lemma header_bits n (s : bool) : 0 <= n < 2 ^ 62 ->
  let h := Z.lor (wrap64 (Z.shiftl n 1)) (Z.b2z s) in
  is_u64 h /\ Z.shiftr h 1 = n /\ (Z.land h 1 =? 1) = s.
Proof.
  intros N h.
  assert (E : h = 2 * n + Z.b2z s).
  { unfold h. rewrite Z.shiftl_mul_pow2 by lia. change (2 ^ 1) with 2.
    rewrite wrap64_small by (unfold is_u64, two64; change (2 ^ 64) with (4 * 2 ^ 62); lia).
    rewrite (Z.mul_comm n 2). destruct s; cbn [Z.b2z].
    - apply Z.bits_inj'. intros j J. rewrite Z.lor_spec.
      destruct (Z.eq_dec j 0) as [->|NJ].
      + rewrite Z.testbit_even_0, Z.testbit_odd_0. reflexivity.
      + replace j with (Z.succ (j - 1)) by lia. rewrite Z.testbit_even_succ, Z.testbit_odd_succ by lia.
        change 1 with (2 * 0 + 1) at 2. rewrite Z.testbit_odd_succ by lia. rewrite Z.testbit_0_l. apply orb_false_r.
    - rewrite Z.lor_0_r. lia. }
  rewrite E. split; [|split].
  - unfold is_u64, two64. change (2 ^ 64) with (4 * 2 ^ 62). destruct s; cbn [Z.b2z]; lia.
  - rewrite Z.shiftr_div_pow2 by lia. change (2 ^ 1) with 2. rewrite Z.mul_comm, Z.div_add_l by lia.
    destruct s; [change (Z.b2z true / 2) with 0|change (Z.b2z false / 2) with 0]; lia.
  - change 1 with (Z.ones 1) at 1. rewrite Z.land_ones by lia. change (2 ^ 1) with 2.
    rewrite Z.mul_comm, Z.add_comm, Z.mod_add by lia. destruct s; reflexivity.
Qed.
Lemma read_n_plain (s : bool) v rest : i64s v -> (s = false -> Forall (fun x => 0 <= x) v) ->
  exists us, read_n read_uvarint (length v) (flat_map (fun x => write_uvarint (if s then zigzag x else wrap64 x)) v ++ rest) = Some (us, rest)
    /\ map (if s then unzigzag else wrap_i64) us = v.
Proof.
  induction v as [|x v IH]; intros H S; [exists []; split; reflexivity|]. inversion H as [|? ? HX HV]; subst.
  destruct IH as (us & E & M); [exact HV|intros F; specialize (S F); now inversion S|].
  exists ((if s then zigzag x else wrap64 x) :: us). cbn [length read_n flat_map map]. rewrite <- app_assoc.
  rewrite read_write_uvarint by (destruct s; [apply zigzag_range; exact HX|apply wrap64_range]).
  cbn [mbind option_bind]. rewrite E. cbn [mbind option_bind]. split; [reflexivity|].
  destruct s; (f_equal; [|exact M]); [apply unzigzag_zigzag, HX|apply wrap64_i64, HX].
Qed.
Lemma plain_ok levels v : i64s v -> short v -> decodes levels (plain v) v.
Proof.
  intros H S. exists T_INTS, (leb128_encode v). split; [reflexivity|]. intros rest max M. unfold leb128_encode.
  set (s := existsb (fun x => x <? 0) v).
  destruct (header_bits (len v) s) as (U & SH & LA).
  { unfold short, len in *. change (2 ^ 28) with 268435456 in S. change (2 ^ 62) with 4611686018427387904. lia. }
  tag_branch; rewrite <- app_assoc, read_write_uvarint by exact U; cbn [mbind option_bind];
  rewrite SH, bounded_len by exact M; cbn [mbind option_bind];
  (destruct (read_n_plain s v rest H) as (us & E & MM); [apply existsb_negative|]);
  rewrite E; cbn [mbind option_bind]; rewrite LA, MM; reflexivity.
Qed.

(** ** Closed forms *)
Lemma affine_ok levels v e : i64s v -> short v -> affine_cand v = Some e -> decodes levels e v.
Proof.
  intros H S E. unfold affine_cand in E. destruct (detect_affine v) as [[base stride]|] eqn:D; [|discriminate].
  cbn [mbind option_bind] in E. injection E as <-.
  unfold detect_affine in D. destruct v as [|a [|b v']] eqn:EV; try discriminate. rewrite <- EV in *.
  destruct (agrees (affine_at a (wrap_i64 (b - a))) 0 v) eqn:A; [|discriminate]. injection D as <- <-.
  assert (HA : is_i64 a) by (rewrite EV in H; now inversion H).
  eexists _, _. split; [reflexivity|]. intros rest max M.
  tag_branch; do 3 rd; rewrite bounded_len by exact M; cbn [mbind option_bind]; rewrite agrees_expand by exact A; reflexivity.
Qed.
Lemma quot_i64 a b : is_i64 a -> is_i64 b -> b <> 0 -> (a =? - 2 ^ 63) && (b =? -1) = false -> is_i64 (Z.quot a b).
Proof.
  unfold is_i64. intros A B N H.
  assert (Q : Z.abs (Z.quot a b) <= Z.abs a).
  { rewrite <- Z.quot_abs by exact N. rewrite Z.quot_div_nonneg by lia.
    apply Z.le_trans with (Z.abs a / 1); [apply Z.div_le_compat_l; lia|rewrite Z.div_1_r; lia]. }
  destruct (Z.eq_dec a (- 2 ^ 63)) as [->|NA]; [|lia].
  destruct (Z.eq_dec b (-1)) as [->|NB]; [discriminate|].
  destruct (Z.lt_ge_cases b 0) as [L|G]; [|].
  - assert (Q2 : Z.quot (- 2 ^ 63) b <= 2 ^ 62).
    { replace b with (- - b) by lia. rewrite Z.quot_opp_r by lia. rewrite Z.quot_opp_l by lia. rewrite Z.opp_involutive.
      rewrite Z.quot_div_nonneg by lia. replace (2 ^ 62) with (2 ^ 63 / 2) by reflexivity. apply Z.div_le_compat_l; lia. }
    change (2 ^ 63) with 9223372036854775808 in *. change (2 ^ 62) with 4611686018427387904 in *. lia.
  - assert (Z.quot (- 2 ^ 63) b <= 0).
    { rewrite Z.quot_opp_l by lia. pose proof (Z.quot_pos (2 ^ 63) b). lia. }
    change (2 ^ 63) with 9223372036854775808 in *. lia.
Qed.
Lemma geometric_ok levels v e : i64s v -> short v -> geometric_cand v = Some e -> decodes levels e v.
Proof.
  intros H S E. unfold geometric_cand in E. destruct (detect_geometric v) as [[base ratio]|] eqn:D; [|discriminate].
  cbn [mbind option_bind] in E. injection E as <-.
  unfold detect_geometric in D. destruct v as [|a [|b [|c v']]] eqn:EV; try discriminate. rewrite <- EV in *.
  destruct (Z.eqb_spec a 0) as [|NA]; [discriminate|].
  destruct ((b =? - 2 ^ 63) && (a =? -1)) eqn:OV; [discriminate|].
  destruct (negb (Z.rem b a =? 0)); [discriminate|].
  destruct ((Z.quot b a =? 0) || (Z.quot b a =? 1)); [discriminate|].
  destruct (geo_agrees a (Z.quot b a) v) eqn:A; [|discriminate]. injection D as <- <-.
  assert (HA : is_i64 a) by (rewrite EV in H; now inversion H).
  assert (HB : is_i64 b) by (rewrite EV in H; inversion H as [|? ? ? H2]; now inversion H2).
  pose proof (quot_i64 b a HB HA NA OV) as HQ.
  eexists _, _. split; [reflexivity|]. intros rest max M.
  tag_branch; do 3 rd; rewrite bounded_len by exact M; cbn [mbind option_bind]; rewrite geo_agrees_expand by exact A; reflexivity.
Qed.

Lemma nth_expand f : forall n i k, (k < n)%nat -> nth k (expand f i n) 0 = f (i + Z.of_nat k).
Proof.
  induction n as [|n IH]; intros i k K; [lia|]. cbn [expand]. destruct k as [|k]; cbn [nth]; [f_equal; lia|].
  rewrite IH by lia. f_equal. lia.
Qed.
Lemma expand_length f : forall n i, length (expand f i n) = n.
Proof. induction n as [|n IH]; intros i; cbn; [reflexivity|]. now rewrite IH. Qed.
Lemma nth_take_lt (v : list Z) p k : (k < p)%nat -> nth k (take p v) 0 = nth k v 0.
Proof. intros K. rewrite !nth_lookup. now rewrite lookup_take. Qed.
Lemma has_period_nth v p : (1 <= p)%nat -> has_period v p = true -> forall k, (k < length v)%nat -> nth k v 0 = nth (k mod p) v 0.
Proof.
  intros P H. unfold has_period in H. rewrite forallb_forall in H.
  induction k as [k IH] using lt_wf_ind. intros K. destruct (Nat.lt_ge_cases k p) as [L|G].
  - now rewrite Nat.mod_small.
  - specialize (H k). rewrite in_seq in H. specialize (H ltac:(lia)). apply Z.eqb_eq in H. rewrite H, IH by lia.
    f_equal. replace k with (k - p + 1 * p)%nat at 2 by lia. now rewrite Nat.mod_add by lia.
Qed.
Lemma period_expand v p : (1 <= p <= length v)%nat -> has_period v p = true ->
  expand (fun i => nth (Z.to_nat (i mod Z.of_nat p)) (take p v) 0) 0 (length v) = v.
Proof.
  intros P H. apply (nth_ext _ _ 0 0); [apply expand_length|]. intros k K. rewrite expand_length in K.
  rewrite nth_expand by exact K. rewrite Z.add_0_l, <- Nat2Z.inj_mod, Nat2Z.id.
  assert ((k mod p < p)%nat) by (apply Nat.mod_upper_bound; lia).
  rewrite nth_take_lt by assumption. symmetry. apply has_period_nth; [lia|exact H|exact K].
Qed.
Lemma detect_period_spec v p : detect_period v = Some p -> (2 <= p <= length v / 2)%nat /\ (p <= 512)%nat /\ has_period v p = true.
Proof.
  unfold detect_period. destruct (Nat.ltb_spec (length v) 4) as [|L]; [discriminate|]. intros F.
  apply find_some in F as [I H]. apply in_seq in I. unfold PERIOD_CAP in I.
  assert ((2 <= length v / 2)%nat) by (apply Nat.div_le_lower_bound; lia).
  split; [lia|]. split; [lia|exact H].
Qed.
Lemma periodic_ok levels v p block : i64s v -> short v -> detect_period v = Some p -> decodes levels block (take p v) ->
  decodes (S levels) (T_INTS_PERIODIC :: write_uvarint (len v) ++ block) v.
Proof.
  intros H S D (tag & body & -> & B). apply detect_period_spec in D as (P & _ & HP).
  assert (PL : (p <= length v)%nat) by (pose proof (Nat.div_le_upper_bound (length v) 2 (length v)); lia).
  eexists _, _. split; [reflexivity|]. intros rest max M. cbn [decode_body].
  repeat match goal with |- (if ?a =? ?b then _ else _) = _ =>
    let r := eval compute in (a =? b) in change (a =? b) with r; cbv iota end.
  rd. rewrite bounded_len by exact M. cbn [mbind option_bind app read_byte].
  rewrite B.
  2:{ unfold len in *. rewrite take_length. lia. }
  cbn [mbind option_bind]. unfold len at 1. rewrite take_length, Nat.min_l by lia.
  destruct (Z.eqb_spec (Z.of_nat p) 0) as [E0|_]; [lia|]. do 2 f_equal.
  unfold len. rewrite take_length, Nat.min_l by lia. apply period_expand; [lia|exact HP].
Qed.

(** ** Sparse *)
Lemma exceptions_read dom suf : forall pre prev rest, i64s (pre ++ suf) -> short (pre ++ suf) -> (prev <= length pre)%nat ->
  sparse_read (length (exceptions dom (length pre) suf)) (Z.of_nat prev) (pre ++ repeat dom (length suf))
    (sparse_tail prev (exceptions dom (length pre) suf) ++ rest) = Some (pre ++ suf, rest).
Proof.
  induction suf as [|x suf IH]; intros pre prev rest H S P; cbn [exceptions length repeat]; [reflexivity|].
  assert (E1 : pre ++ x :: suf = (pre ++ [x]) ++ suf) by (rewrite <- app_assoc; reflexivity).
  assert (L1 : length (pre ++ [x]) = Datatypes.S (length pre)) by (rewrite app_length; cbn; lia).
  destruct (Z.eqb_spec x dom) as [->|N].
  - rewrite <- L1. replace (pre ++ dom :: repeat dom (length suf)) with ((pre ++ [dom]) ++ repeat dom (length suf))
      by (rewrite <- app_assoc; reflexivity).
    rewrite E1. apply IH; [rewrite <- E1; exact H|rewrite <- E1; exact S|rewrite L1; lia].
  - cbn [length sparse_read sparse_tail].
    assert (LE : (length pre < length (pre ++ x :: suf))%nat) by (rewrite app_length; cbn; lia).
    assert (SH : Z.of_nat (length pre) < 2 ^ 28) by (unfold short, len in S; lia).
    change (2 ^ 28) with 268435456 in SH.
    rewrite <- !app_assoc.
    rewrite read_write_uvarint by (unfold is_u64; change two64 with 18446744073709551616; lia).
    cbn [mbind option_bind]. replace (Z.of_nat prev + Z.of_nat (length pre - prev)) with (Z.of_nat (length pre)) by lia.
    destruct (Z.leb_spec two64 (Z.of_nat (length pre))) as [B|_]; [change two64 with 18446744073709551616 in B; lia|].
    rewrite read_zz_zw by (apply Forall_app in H as [_ H]; now inversion H). cbn [mbind option_bind].
    assert (LT : (Z.of_nat (length pre) <? len (pre ++ dom :: repeat dom (length suf))) = true).
    { apply Z.ltb_lt. unfold len. rewrite app_length. cbn. lia. }
    rewrite LT. rewrite Nat2Z.id.
    replace (<[length pre := x]> (pre ++ dom :: repeat dom (length suf))) with ((pre ++ [x]) ++ repeat dom (length suf)).
    + rewrite E1. rewrite <- L1. apply IH; [rewrite <- E1; exact H|rewrite <- E1; exact S|lia].
    + rewrite insert_app_r_alt by lia. rewrite Nat.sub_diag. cbn. now rewrite <- app_assoc.
Qed.
Lemma exceptions_length dom v : forall i, (length (exceptions dom i v) <= length v)%nat.
Proof. induction v as [|x v IH]; intros i; cbn; [lia|]. destruct (x =? dom); cbn; specialize (IH (S i)); lia. Qed.
Lemma vote_in v : forall cand count, vote cand count v = cand \/ In (vote cand count v) v.
Proof.
  induction v as [|x v IH]; intros cand count; cbn [vote]; [left; reflexivity|].
  destruct (count =? 0).
  - right. destruct (IH x 1) as [->|I]; [left; reflexivity|right; exact I].
  - destruct (x =? cand); [destruct (IH cand (count + 1)) as [->|I]|destruct (IH cand (count - 1)) as [->|I]];
      (left; reflexivity) || (right; right; exact I).
Qed.
Lemma sparse_ok levels v e : i64s v -> short v -> sparse_cand v = Some e -> decodes levels e v.
Proof.
  intros H S E. unfold sparse_cand in E. destruct (detect_sparse v) as [[dom exc]|] eqn:D; [|discriminate].
  cbn [mbind option_bind] in E. injection E as <-. unfold detect_sparse in D.
  destruct v as [|v0 v'] eqn:EV; [discriminate|]. rewrite <- EV in *.
  destruct (length v <? 8)%nat; [discriminate|].
  destruct (length v / 4 <? _)%nat; [discriminate|]. injection D as <- <-.
  set (cand := vote v0 0 v).
  assert (HC : is_i64 cand).
  { unfold i64s in H. rewrite List.Forall_forall in H. unfold cand. destruct (vote_in v v0 0) as [->|I]; apply H; [rewrite EV; left; reflexivity|exact I]. }
  pose proof (exceptions_length cand v 0) as XL.
  assert (SX : short (exceptions cand 0 v)) by (unfold short, len in *; lia).
  eexists _, _. split; [reflexivity|]. intros rest max M.
  tag_branch; do 2 rd; rewrite bounded_len by exact M; cbn [mbind option_bind]; rd;
  rewrite bounded_len by (unfold len in *; lia); cbn [mbind option_bind];
  apply (exceptions_read cand v [] 0); try assumption; cbn; lia.
Qed.
