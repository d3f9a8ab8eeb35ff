(** Integer-column codec: C64 (the described column decodes to itself and is never larger than the
    plain form), C65 (generator expressions), C66 (what a decoded column can be). *)
From Coq Require Import ZArith List Lia.
From stdpp Require Import list.
From Verif Require Import MachInt WireModel WireProofs WireProps IntColModel IntColProofs IntColRound IntColRound2 IntColRound3 IntColBound IntColLocal IntColLimit.
Open Scope Z_scope.

(** * C64 *)

(** Inside a larger message: any cap that admits the column, any bytes after it, up to 23 periodic
    wrappers around it. *)
Theorem C64_embedded v e levels max rest : Forall is_i64 v -> len v <= 2 ^ 28 -> describe_int_seq v = Some e ->
  (9 <= levels)%nat -> len v <= max -> exists tag body, e = tag :: body /\ decode_body levels tag max (body ++ rest) = Some (v, rest).
Proof.
  intros H S E L M. destruct (emit_ok (length v) v levels e H S (or_intror L) E) as (tag & body & -> & D).
  exists tag, body. split; [reflexivity|]. apply D, M.
Qed.
Theorem C64_round_trip v e : Forall is_i64 v -> len v <= 2 ^ 28 -> describe_int_seq v = Some e -> decode_int_seq e = Some v.
Proof.
  intros H S E. destruct (C64_embedded v e DECODE_MAX_DEPTH DEFAULT_MAX_ELEMENTS [] H S E) as (tag & body & -> & D); [unfold DECODE_MAX_DEPTH; lia|exact S|].
  rewrite app_nil_r in D. unfold decode_int_seq. cbn [read_byte mbind option_bind]. rewrite D. reflexivity.
Qed.
(** No description is a proper prefix of another, and different columns have different ones. *)
Theorem C64_prefix_free v w e f rest : Forall is_i64 v -> Forall is_i64 w -> len v <= 2 ^ 28 -> len w <= 2 ^ 28 ->
  describe_int_seq v = Some e -> describe_int_seq w = Some f -> e = f ++ rest -> v = w /\ rest = [].
Proof.
  intros V W SV SW E F ->.
  destruct (C64_embedded w f 32 (2 ^ 28) rest W SW F ltac:(lia) SW) as (tag & body & -> & D).
  destruct (C64_embedded v _ 32 (2 ^ 28) [] V SV E ltac:(lia) SV) as (tag' & body' & EQ & D').
  injection EQ as <- <-. rewrite app_nil_r in D'. rewrite D in D'. injection D' as -> ->. now split.
Qed.
(** Never larger than the plain varint column, hence at most eleven bytes and ten per element. *)
Lemma leb_size v : Forall is_i64 v -> len v <= 2 ^ 28 -> (length (leb128_encode v) <= 10 + 10 * length v)%nat.
Proof.
  intros H S. unfold leb128_encode. cbv zeta. rewrite app_length.
  assert (A : (length (write_uvarint (Z.lor (wrap64 (Z.shiftl (len v) 1)) (Z.b2z (existsb (fun x => x <? 0) v)))%Z) <= 10)%nat).
  { apply uv_size. apply lor_u64; [apply wrap64_range|]. unfold is_u64. change two64 with 18446744073709551616. destruct (existsb _ v); cbn; lia. }
  assert (B : forall s w, Forall is_i64 w -> (length (flat_map (fun x => write_uvarint (if s : bool then zigzag x else wrap64 x)) w) <= 10 * length w)%nat).
  { intros s w. induction 1 as [|x w X W IH]; [cbn; lia|]. cbn [flat_map length]. rewrite app_length.
    assert ((length (write_uvarint (if s then zigzag x else wrap64 x)) <= 10)%nat); [|lia].
    apply uv_size. destruct s; [apply zigzag_range, X|apply wrap64_range]. }
  specialize (B (existsb (fun x => x <? 0) v) v H). lia.
Qed.
Theorem C64_never_larger v e : Forall is_i64 v -> len v <= 2 ^ 28 -> describe_int_seq v = Some e ->
  (length e <= 1 + length (leb128_encode v))%nat /\ (length e <= 11 + 10 * length v)%nat.
Proof.
  intros H S E. destruct (emit_sizes _ _ _ E) as (A & _). unfold plain in A. cbn [length] in A. pose proof (leb_size v H S). lia.
Qed.

(** An arithmetic progression of any length (with wrap-around) takes at most 31 bytes. *)
Lemma wrap_shift_eq a b k : b = a + k * two64 -> wrap_i64 b = wrap_i64 a.
Proof. intros ->. apply wrap_i64_shift. Qed.
Lemma affine_agrees base stride d : is_i64 base -> (exists k, stride = d + k * two64) -> forall v i,
  (forall j x, v !! j = Some x -> x = wrap_i64 (base + (i + Z.of_nat j) * d)) -> agrees (affine_at base stride) i v = true.
Proof.
  intros B [k ->]. induction v as [|x v IH]; intros i H; [reflexivity|]. cbn [agrees]. apply andb_true_iff. split.
  - apply Z.eqb_eq. rewrite (H 0%nat x eq_refl). unfold affine_at.
    destruct (wrap_i64_eqm (i * (d + k * two64))) as [m ->]. apply wrap_shift_eq with (k + m - k + i * k). rewrite Z.add_0_r || idtac.
    replace (i + Z.of_nat 0) with i by lia. ring.
  - apply IH. intros j y Y. rewrite (H (S j) y Y). f_equal. lia.
Qed.
Theorem C64_progression v e a d : Forall is_i64 v -> len v <= 2 ^ 28 -> (2 <= length v)%nat ->
  (forall i x, v !! i = Some x -> x = wrap_i64 (a + Z.of_nat i * d)) ->
  describe_int_seq v = Some e -> (length e <= 31)%nat.
Proof.
  intros H S L F E. destruct (emit_sizes _ _ _ E) as (_ & A & _).
  destruct v as [|x [|y v]]; [cbn in L; lia..|]. pose proof H as H0. inversion H0 as [|? ? X H1]; subst. inversion H1 as [|? ? Y _]; subst.
  assert (FX := F 0%nat x eq_refl). assert (FY := F 1%nat y eq_refl). cbn [Z.of_nat] in FX.
  rewrite Z.mul_0_l, Z.add_0_r in FX.
  assert (SD : exists k, wrap_i64 (y - x) = d + k * two64).
  { destruct (wrap_i64_eqm a) as [k1 E1]. destruct (wrap_i64_eqm (a + Z.of_nat 1 * d)) as [k2 E2]. destruct (wrap_i64_eqm (y - x)) as [k3 E3].
    exists (k3 + k2 - k1). rewrite E3, FX, FY, E1, E2. change (Z.of_nat 1) with 1. ring. }
  assert (AG : agrees (affine_at x (wrap_i64 (y - x))) 0 (x :: y :: v) = true).
  { apply affine_agrees with d; [exact X|exact SD|]. intros j z J. rewrite (F j z J). destruct (wrap_i64_eqm a) as [k1 E1].
    rewrite FX, E1. symmetry. apply wrap_shift_eq with k1. ring. }
  assert (C : affine_cand (x :: y :: v) = Some (T_INTS_AFFINE :: zw x ++ zw (wrap_i64 (y - x)) ++ write_uvarint (len (x :: y :: v)))).
  { unfold affine_cand, detect_affine. cbv zeta. rewrite AG. reflexivity. }
  specialize (A _ C). cbn [length] in A. rewrite !app_length in A.
  pose proof (zw_size x X). pose proof (zw_size _ (wrap_i64_range (y - x))). pose proof (uv_size _ (short_u64 (x :: y :: v) S)). lia.
Qed.

(** A column with [c] places where neighbours differ takes at most [31 + 20 c] bytes. *)
Fixpoint changes (v : list Z) : nat :=
  match v with
  | x :: ((y :: _) as t) => (if (x =? y)%Z then 0 else 1) + changes t
  | _ => 0
  end%nat.
Lemma runs_count v : forall x n acc, length (runs_of ((x, n) :: acc) v) = (S (length acc) + changes (x :: v))%nat.
Proof.
  induction v as [|y v IH]; intros x n acc.
  - cbn [runs_of changes]. rewrite rev_length. cbn. lia.
  - cbn [runs_of]. change (changes (x :: y :: v)) with ((if (x =? y)%Z then 0 else 1) + changes (y :: v))%nat.
    destruct (Z.eqb_spec x y) as [->|N]; rewrite IH; cbn [length]; lia.
Qed.
Lemma runs_bytes runs : Forall (fun '(x, n) => is_i64 x /\ 1 <= n) runs -> len (spread runs) <= 2 ^ 28 ->
  (length (flat_map (fun '(x, n) => zw x ++ write_uvarint n) runs) <= 20 * length runs)%nat.
Proof.
  induction 1 as [|[x n] runs [X N] R IH]; intros L; [cbn; lia|]. cbn [flat_map length]. rewrite !app_length.
  change (spread ((x, n) :: runs)) with (repeat x (Z.to_nat n) ++ spread runs) in L. unfold len in L. rewrite app_length, repeat_length in L.
  pose proof (zw_size x X). assert (is_u64 n) by (unfold is_u64; change two64 with 18446744073709551616; change (2 ^ 28) with 268435456 in L; lia).
  pose proof (uv_size n ltac:(assumption)). assert (len (spread runs) <= 2 ^ 28) by (unfold len; lia). specialize (IH ltac:(assumption)). lia.
Qed.
Theorem C64_runs v e : Forall is_i64 v -> len v <= 2 ^ 28 -> describe_int_seq v = Some e -> (length e <= 31 + 20 * changes v)%nat.
Proof.
  intros H S E. destruct (emit_sizes _ _ _ E) as (_ & _ & _ & _ & A & _).
  destruct (runs_of_spec v [] H ltac:(constructor)) as [R SP]. cbn [rev spread flat_map app] in SP.
  unfold rle_encode in A. cbv zeta in A. cbn [length] in A. rewrite app_length in A.
  assert (SR : len (spread (runs_of [] v)) <= 2 ^ 28) by (rewrite SP; exact S).
  pose proof (runs_bytes _ R SR) as B. pose proof (spread_length _ R) as C. rewrite SP in C.
  assert (U : (length (write_uvarint (len (runs_of [] v))) <= 10)%nat).
  { apply uv_size, short_u64. unfold short, len in *. lia. }
  assert (D : (length (runs_of [] v) <= 1 + changes v)%nat).
  { destruct v as [|x v]; [cbn; lia|]. cbn [runs_of]. rewrite runs_count. cbn [length]. lia. }
  lia.
Qed.
(** A column of values in a window of [2^w] takes at most [22] bytes and [w] bits per value. *)
Theorem C64_window v e lo w : Forall is_i64 v -> len v <= 2 ^ 28 -> describe_int_seq v = Some e -> (w <= 64)%nat ->
  Forall (fun x => lo <= x < lo + 2 ^ Z.of_nat w) v -> 8 * (len e - 22) <= len v * Z.of_nat w + 7.
Proof.
  intros H S E W R. destruct (emit_sizes _ _ _ E) as (_ & _ & _ & A & _). destruct (list_min_max v H) as (MN & MX & BD).
  unfold for_encode in A. cbv zeta in A. cbn [length] in A. rewrite !app_length in A.
  pose proof (uv_size _ (short_u64 v S)) as U. pose proof (zw_size _ MN) as Zs. unfold len at 1.
  destruct v as [|x v].
  { cbn [length] in A. change (len (@nil Z) * Z.of_nat w) with (0 * Z.of_nat w). lia. }
  assert (RG : 0 <= list_max (x :: v) - list_min (x :: v) < 2 ^ Z.of_nat w).
  { assert (IN : forall m, (m = list_min (x :: v) \/ m = list_max (x :: v)) -> In m (x :: v)).
    { intros m [->| ->]; cbn [list_min list_max In].
      - destruct (fold_min_spec v x) as (_ & _ & [->|I]); auto.
      - destruct (fold_max_spec v x) as (_ & _ & [->|I]); auto. }
    pose proof (proj1 (List.Forall_forall _ _) R _ (IN _ (or_introl eq_refl))) as R1. pose proof (proj1 (List.Forall_forall _ _) R _ (IN _ (or_intror eq_refl))) as R2.
    pose proof (proj1 (List.Forall_forall _ _) BD _ (IN _ (or_intror eq_refl))) as R3. cbv beta in *. lia. }
  rewrite wrap64_sub in A by (assumption || lia).
  pose proof (bit_length_le _ w RG) as BW. set (bw := bit_length (list_max (x :: v) - list_min (x :: v))) in *. cbn [length] in A.
  destruct (Nat.ltb_spec 0 bw) as [P|P].
  - match type of A with context [length (bitpack ?l ?k)] => destruct (bitpack_props l k) as [LEN _] end. rewrite LEN in A.
    destruct (Nat.eqb_spec bw 0); [lia|]. rewrite map_length in A.
    assert (DC : Z.of_nat (div_ceil8 (length (x :: v) * bw)) <= (len (x :: v) * Z.of_nat w + 7) / 8).
    { rewrite div_ceil8_Z. apply Z.div_le_mono; [lia|]. rewrite Nat2Z.inj_mul. unfold len.
      apply Z.add_le_mono_r. apply Z.mul_le_mono_nonneg_l; lia. }
    pose proof (Z.mul_div_le (len (x :: v) * Z.of_nat w + 7) 8 ltac:(lia)). unfold len in *. lia.
  - cbn [length] in A. assert (0 <= len (x :: v) * Z.of_nat w) by (unfold len; lia). unfold len in *. lia.
Qed.

(** The encoder answers on columns of values up to [2^30] in magnitude, and on any column of fewer
    than six values. *)
Theorem C64_answers v : Forall is_i64 v -> (Forall (fun x => Z.abs x <= 2 ^ 30) v \/ (length v < 6)%nat) -> exists e, describe_int_seq v = Some e.
Proof. intros H C. now apply emit_safe. Qed.
(** It does not answer on every column: the remainder in [solve_recurrence] overflows. *)
Theorem C64_answers_refuted : exists v, Forall is_i64 v /\ length v = 6%nat /\ describe_int_seq v = None.
Proof.
  exists [0; 4; -1; 6521908912666391104; -3260954456333195552; -6684258475328522460]. split; [|split; [reflexivity|vm_compute; reflexivity]].
  repeat constructor; unfold is_i64; vm_compute; congruence.
Qed.
Example C64_example : describe_int_seq [3; 10; 17; 24; 31; 38; 45; 52; 59; 66; 73; 80] = Some [32; 6; 14; 12] /\
  decode_int_seq [32; 6; 14; 12] = Some [3; 10; 17; 24; 31; 38; 45; 52; 59; 66; 73; 80] /\
  describe_int_seq [1; 1; 2; 3; 5; 8; 13; 21; 34; 55; 89; 144] = Some [82; 2; 12; 2; 2; 2; 2] /\
  decode_int_seq [82; 2; 12; 2; 2; 2; 2] = Some [1; 1; 2; 3; 5; 8; 13; 21; 34; 55; 89; 144] /\
  changes [7; 7; 7; 7; 9; 9] = 1%nat.
Proof. vm_compute. repeat split. Qed.
Example C64_example_hyps : Forall is_i64 [3; 10; 17; 24] /\ len [3; 10; 17; 24] <= 2 ^ 28 /\ Forall (fun x => Z.abs x <= 2 ^ 30) [3; 10; 17; 24] /\
  (forall i x, [3; 10; 17; 24] !! i = Some x -> x = wrap_i64 (3 + Z.of_nat i * 7)) /\ Forall (fun x => 3 <= x < 3 + 2 ^ Z.of_nat 5) [3; 10; 17; 24].
Proof.
  split; [repeat constructor; vm_compute; congruence|]. split; [vm_compute; congruence|]. split; [repeat constructor; vm_compute; congruence|].
  split; [|repeat constructor; vm_compute; congruence].
  intros i x H. do 4 (destruct i as [|i]; [injection H as <-; reflexivity|]). destruct i; discriminate.
Qed.

(** * C65 *)

Lemma deserialize_mono levels : forall levels' budget extra bs e r b, (levels <= levels')%nat -> deserialize_gen levels bs budget = Some (e, r, b) ->
  deserialize_gen levels' bs (budget + extra) = Some (e, r, (b + extra)%nat).
Proof.
  induction levels as [|levels IH]; intros levels' budget extra bs e r b L H; [discriminate|].
  destruct budget as [|budget]; [discriminate|]. destruct bs as [|tag bs]; [discriminate|]. destruct levels' as [|levels']; [lia|].
  cbn [Nat.add]. rewrite deserialize_node in *.
  destruct (tag =? 0). { now injection H as <- <- <-. }
  destruct (tag =? 1).
  { destruct (read_uvarint bs) as [[u bs1]|]; [|discriminate]. cbn [mbind option_bind] in *. now injection H as <- <- <-. }
  destruct (gop_of tag) as [op|].
  { destruct (deserialize_gen levels bs budget) as [[[a bs1] b1]|] eqn:A; [|discriminate]. cbn [mbind option_bind] in H.
    destruct (deserialize_gen levels bs1 b1) as [[[a2 bs2] b2]|] eqn:B; [|discriminate]. cbn [mbind option_bind] in H. injection H as <- <- <-.
    rewrite (IH levels' _ extra _ _ _ _ ltac:(lia) A). cbn [mbind option_bind]. rewrite (IH levels' _ extra _ _ _ _ ltac:(lia) B). reflexivity. }
  destruct (tag =? 7); [|discriminate]. destruct bs as [|t bs]; [discriminate|].
  destruct (gcmp_of t) as [op|]; [|discriminate]. cbn [mbind option_bind] in *.
  destruct (deserialize_gen levels bs budget) as [[[a1 bs1] b1]|] eqn:A; [|discriminate]. cbn [mbind option_bind] in H.
  destruct (deserialize_gen levels bs1 b1) as [[[a2 bs2] b2]|] eqn:B; [|discriminate]. cbn [mbind option_bind] in H.
  destruct (deserialize_gen levels bs2 b2) as [[[a3 bs3] b3]|] eqn:C; [|discriminate]. cbn [mbind option_bind] in H.
  destruct (deserialize_gen levels bs3 b3) as [[[a4 bs4] b4]|] eqn:D; [|discriminate]. cbn [mbind option_bind] in H. injection H as <- <- <-.
  rewrite (IH levels' _ extra _ _ _ _ ltac:(lia) A). cbn [mbind option_bind]. rewrite (IH levels' _ extra _ _ _ _ ltac:(lia) B). cbn [mbind option_bind].
  rewrite (IH levels' _ extra _ _ _ _ ltac:(lia) C). cbn [mbind option_bind]. rewrite (IH levels' _ extra _ _ _ _ ltac:(lia) D). reflexivity.
Qed.
(** A generator of at most 256 nodes and 33 levels is read back exactly, with its node count taken
    off the budget; any other is refused. *)
Theorem C65_round_trip e rest : gen_consts e -> (gen_size e <= 256)%nat -> (gen_height e <= 33)%nat ->
  deserialize_gen (S MAX_GEN_DEPTH) (serialize_gen e ++ rest) MAX_GEN_NODES = Some (e, rest, (256 - gen_size e)%nat).
Proof. intros C S H. now apply deserialize_serialize. Qed.
Theorem C65_refused e rest : gen_consts e -> (256 < gen_size e \/ 33 < gen_height e)%nat ->
  deserialize_gen (S MAX_GEN_DEPTH) (serialize_gen e ++ rest) MAX_GEN_NODES = None.
Proof.
  intros C SZ. destruct (deserialize_gen (S MAX_GEN_DEPTH) (serialize_gen e ++ rest) MAX_GEN_NODES) as [[[e' r'] b']|] eqn:D; [|reflexivity]. exfalso.
  destruct (deserialize_facts _ _ _ _ _ _ D) as (_ & _ & _ & HH & SS).
  pose proof (deserialize_mono (S MAX_GEN_DEPTH) (S MAX_GEN_DEPTH + gen_height e) _ (gen_size e) _ _ _ _ ltac:(lia) D) as M.
  rewrite deserialize_serialize in M by (exact C || lia). injection M as <- _ _. unfold MAX_GEN_DEPTH, MAX_GEN_NODES in *. lia.
Qed.
(** Whatever bytes arrive, a generator that is accepted is small, its evaluation at any index is an
    [i64], and only the bytes it occupies matter. *)
Theorem C65_sandbox bs e r b i : deserialize_gen (S MAX_GEN_DEPTH) bs MAX_GEN_NODES = Some (e, r, b) -> is_i64 i ->
  (gen_size e <= 256)%nat /\ (gen_height e <= 33)%nat /\ is_i64 (gen_eval e i) /\
  exists c, bs = c ++ r /\ forall r', deserialize_gen (S MAX_GEN_DEPTH) (c ++ r') MAX_GEN_NODES = Some (e, r', b).
Proof.
  intros D I. destruct (deserialize_facts _ _ _ _ _ _ D) as (c & -> & R & HH & SS). unfold MAX_GEN_DEPTH, MAX_GEN_NODES in *.
  split; [lia|]. split; [lia|]. split; [apply gen_eval_i64; [eapply deserialize_consts, D|exact I]|]. exists c. now split.
Qed.
(** Distinct generators have distinct encodings, neither a prefix of the other. *)
Theorem C65_prefix_free e f rest : gen_consts e -> gen_consts f -> serialize_gen e = serialize_gen f ++ rest -> e = f /\ rest = [].
Proof.
  intros E F H. set (L := (gen_height e + gen_height f)%nat). set (B := (gen_size e + gen_size f)%nat).
  pose proof (deserialize_serialize e L B [] E ltac:(lia) ltac:(lia)) as A. rewrite app_nil_r, H in A.
  rewrite (deserialize_serialize f L B rest F ltac:(lia) ltac:(lia)) in A. injection A as -> ->. now split.
Qed.
(** A generator found for a column reproduces it at every index. *)
Theorem C65_found v e i x : detect_modular_affine v = Some e -> v !! i = Some x -> gen_eval e (Z.of_nat i) = x.
Proof.
  unfold detect_modular_affine. destruct v as [|a [|v1 v]]; [discriminate..|]. destruct (_ <? _)%nat; [discriminate|]. cbv zeta.
  match goal with |- context [find ?f ?l] => destruct (find f l) as [p|] eqn:FD; [|discriminate] end. cbn [mbind option_bind]. intros E X.
  apply (inj Some) in E. rewrite <- E. apply find_some in FD as [IN AG]. apply in_seq in IN. apply andb_true_iff in AG as [_ AG].
  rewrite modular_eval by lia.
  apply agrees_expand in AG. pose proof (lookup_lt_Some _ _ _ X) as LT.
  pose proof (nth_expand (modular_at a (wrap_i64 (v1 - a)) p) (length (a :: v1 :: v)) 0 i LT) as N. rewrite AG in N.
  rewrite Z.add_0_l in N. rewrite <- N. apply nth_lookup_Some with (d := 0) in X. exact X.
Qed.
Fixpoint chain (n : nat) : gen := match n with O => GIndex | S n => GBin OAdd (GConst 1) (chain n) end.
Example C65_example : gen_size (modular_gen 5 3 4) = 7%nat /\ gen_height (modular_gen 5 3 4) = 4%nat /\ gen_consts (modular_gen 5 3 4) /\
  serialize_gen (modular_gen 5 3 4) = [2; 1; 10; 4; 1; 6; 6; 0; 1; 8] /\ map (gen_eval (modular_gen 5 3 4)) [0; 1; 2; 3; 4; 5] = [5; 8; 11; 14; 5; 8] /\
  detect_modular_affine [5; 8; 11; 14; 5; 8; 11; 14] = Some (modular_gen 5 3 4) /\
  gen_height (chain 40) = 41%nat /\ gen_consts (chain 1).
Proof. split; [reflexivity|]. split; [reflexivity|]. split; [repeat split; vm_compute; congruence|]. repeat split; vm_compute; congruence. Qed.

(** * C66 *)

(** The decoder reads a prefix; what follows is handed back untouched and does not matter. *)
Theorem C66_local levels tag max bs v r : decode_body levels tag max bs = Some (v, r) ->
  exists c, bs = c ++ r /\ forall r', decode_body levels tag max (c ++ r') = Some (v, r').
Proof. apply local_decode_body. Qed.
(** Every value decoded from bytes is an [i64]. *)
Theorem C66_values levels tag max bs v r : decode_body levels tag max bs = Some (v, r) -> Forall is_byte bs -> max <= 2 ^ 63 -> Forall is_i64 v.
Proof. apply decode_values. Qed.
(** The length of a decoded column. The generator kinds and the plain kind keep to the caller's cap;
    the byte and delta kinds are no longer than the input; runs keep to [2^28]; the packed kinds hold
    at most eight values per byte, or are constant. *)
Theorem C66_length levels tag max bs v r : decode_body levels tag max bs = Some (v, r) -> 0 <= max -> Forall is_byte bs ->
  (~ In tag [T_BYTES; T_INTS_DELTA; T_INTS_DOD; T_INTS_FOR; T_INTS_RLE; T_INTS_DICT] -> len v <= max) /\
  (In tag [T_BYTES; T_INTS_DELTA; T_INTS_DOD] -> len v <= len bs) /\
  (tag = T_INTS_RLE -> len v <= 2 ^ 28) /\
  (In tag [T_INTS_FOR; T_INTS_DICT] -> len v <= 8 * len bs \/ exists x, v = repeat x (length v)).
Proof.
  intros H M FB. repeat split.
  - intros C. eapply decode_capped; eassumption.
  - intros I. pose proof (decode_inline _ _ _ _ _ _ H I). unfold len. lia.
  - intros ->. eapply decode_runs, H.
  - intros I. eapply decode_packed; eassumption.
Qed.
(** The caller's cap does not bound the packed kinds: thirteen bytes decode to any number of copies
    below [2^64], whatever the cap. *)
Theorem C66_cap_refuted : forall max n, 0 <= n < 2 ^ 64 -> exists bs v, (length bs <= 13)%nat /\ Forall is_byte bs /\
  decode_body DECODE_MAX_DEPTH T_INTS_FOR max bs = Some (v, []) /\ len v = n.
Proof.
  intros max n N. assert (U : is_u64 n) by exact N. exists (write_uvarint n ++ zw 0 ++ [0]), (repeat 0 (Z.to_nat n)).
  pose proof (uv_size n U). split; [rewrite !app_length; change (length (zw 0)) with 1%nat; cbn [length]; lia|]. split.
  - apply Forall_app. split; [apply uv_bytes, U|]. repeat constructor; vm_compute; congruence.
  - split; [|unfold len; rewrite repeat_length; lia].
    generalize DECODE_MAX_DEPTH as lv. intros lv. tag_branch; (rd; rewrite read_zz_zw by (split; vm_compute; congruence); cbn [mbind option_bind read_byte]; reflexivity).
Qed.
(** Nor the dictionary kind, nor (up to [2^28]) runs. *)
Theorem C66_cap_dict_refuted : forall max n, 0 <= n < 2 ^ 64 -> exists bs v, (length bs <= 13)%nat /\ Forall is_byte bs /\
  decode_body DECODE_MAX_DEPTH T_INTS_DICT max bs = Some (v, []) /\ len v = n.
Proof.
  intros max n N. assert (U : is_u64 n) by exact N. exists (write_uvarint 1 ++ zw 7 ++ write_uvarint n ++ [0]), (repeat 7 (Z.to_nat n)).
  pose proof (uv_size n U). split; [rewrite !app_length; change (length (zw 7)) with 1%nat; change (length (write_uvarint 1)) with 1%nat; cbn [length]; lia|]. split.
  - repeat (apply Forall_app; split); try (apply uv_bytes, U); repeat constructor; vm_compute; congruence.
  - split; [|unfold len; rewrite repeat_length; lia].
    generalize DECODE_MAX_DEPTH as lv. intros lv.
    tag_branch; rewrite <- ?app_assoc; (rewrite read_write_uvarint by (split; vm_compute; congruence)); cbn [mbind option_bind];
    change (Z.to_nat 1) with 1%nat; cbn [read_n]; (rewrite read_zz_zw by (split; vm_compute; congruence)); cbn [mbind option_bind]; rd; cbn [mbind option_bind read_byte];
    change (64 <? 0) with false; change (0 =? 0) with true; cbv iota; (destruct (Z.ltb_spec 0 n) as [P|P]; [reflexivity|]; assert (n = 0) by lia; subst n; reflexivity).
Qed.
Theorem C66_cap_runs_refuted : forall max, exists bs v, (length bs <= 7)%nat /\ decode_body DECODE_MAX_DEPTH T_INTS_RLE max bs = Some (v, []) /\ len v = 2 ^ 28.
Proof.
  intros max. exists (write_uvarint 1 ++ zw 7 ++ write_uvarint (2 ^ 28)), (repeat 7 (Z.to_nat (2 ^ 28))). split; [vm_compute; lia|].
  split; [|unfold len; rewrite repeat_length; lia].
  rewrite <- (app_nil_r (write_uvarint (2 ^ 28))).
  generalize DECODE_MAX_DEPTH as lv. intros lv.
  tag_branch; (rewrite read_write_uvarint by (split; vm_compute; congruence)); cbn [mbind option_bind];
  change (Z.to_nat 1) with 1%nat; cbn [rle_read]; (rewrite read_zz_zw by (split; vm_compute; congruence)); cbn [mbind option_bind];
  (rewrite read_write_uvarint by (split; vm_compute; congruence)); cbn [mbind option_bind]; change (RLE_MAX_TOTAL <? len [] + 2 ^ 28) with false; reflexivity.
Qed.
(** Periodic blocks nest at most 32 deep: a chain of more wrappers is refused. *)
Theorem C66_depth n max rest : (32 < n)%nat ->
  decode_int_seq (concat (repeat [T_INTS_PERIODIC; 1] n) ++ rest) = None /\
  decode_body DECODE_MAX_DEPTH T_INTS_PERIODIC max (1 :: concat (repeat [T_INTS_PERIODIC; 1] n) ++ rest) = None.
Proof.
  assert (G : forall levels n max rest, (levels <= n)%nat -> decode_body levels T_INTS_PERIODIC max (1 :: concat (repeat [T_INTS_PERIODIC; 1] n) ++ rest) = None).
  { induction levels as [|levels IH]; intros k mx rs L; cbn [decode_body]; repeat match goal with |- (if ?a =? ?b then _ else _) = _ => let r := eval compute in (a =? b) in change (a =? b) with r; cbv iota end.
    - change (read_uvarint (1 :: ?l)) with (Some (1, l)). cbn [mbind option_bind]. destruct (bounded 1 mx); reflexivity.
    - change (read_uvarint (1 :: ?l)) with (Some (1, l)). cbn [mbind option_bind]. destruct (bounded 1 mx); [|reflexivity]. cbn [mbind option_bind].
      destruct k as [|k]; [lia|]. cbn [repeat concat app read_byte mbind option_bind]. rewrite IH by lia. reflexivity. }
  intros N. split; [|apply G; unfold DECODE_MAX_DEPTH; lia].
  destruct n as [|n]; [lia|]. unfold decode_int_seq. cbn [repeat concat app read_byte mbind option_bind]. rewrite G; [reflexivity|unfold DECODE_MAX_DEPTH; lia].
Qed.
Example C66_example : decode_body 32 T_INTS_AFFINE 100 [6; 14; 12; 99] = Some ([3; 10; 17; 24; 31; 38; 45; 52; 59; 66; 73; 80], [99]) /\
  decode_body 32 T_INTS_AFFINE 11 [6; 14; 12; 99] = None /\ decode_body 32 T_INTS_FOR 3 [5; 14; 0] = Some ([7; 7; 7; 7; 7], []) /\
  decode_body 32 T_BYTES 0 [2; 9; 8; 7] = Some ([9; 8], [7]) /\ Forall is_byte [6; 14; 12; 99].
Proof. vm_compute. repeat split; repeat constructor; congruence. Qed.
