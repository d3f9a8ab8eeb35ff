(** Proofs about the UUID layouts and the two text implementations of UuidModel. *)
From Coq Require Import ZArith List Bool Lia.
From Verif Require Import UuidModel.
Import ListNotations.
Local Open Scope Z_scope.
Local Ltac dlia := Z.div_mod_to_equations; lia.

(** ** Big-endian numbers *)
Lemma from_be_acc : forall l a, fold_left (fun a b => a * 256 + b) l a = a * 256 ^ Z.of_nat (length l) + from_be l.
Proof.
  unfold from_be. induction l as [|b l IH]; intros a; [cbn; lia|]. cbn [fold_left length]. rewrite (IH (a * 256 + b)), (IH (0 * 256 + b)).
  rewrite Nat2Z.inj_succ, Z.pow_succ_r by lia. lia.
Qed.
Lemma from_be_cons : forall b l, from_be (b :: l) = b * 256 ^ Z.of_nat (length l) + from_be l.
Proof. intros. unfold from_be at 1. cbn [fold_left]. rewrite from_be_acc. reflexivity. Qed.
Lemma from_be_app : forall a b, from_be (a ++ b) = from_be a * 256 ^ Z.of_nat (length b) + from_be b.
Proof. intros. unfold from_be at 1. rewrite fold_left_app. rewrite from_be_acc. reflexivity. Qed.
Lemma from_be_range : forall l, Forall byte l -> 0 <= from_be l < 256 ^ Z.of_nat (length l).
Proof.
  induction 1 as [|b l [H1 H2] _ IH]; [cbn; lia|]. rewrite from_be_cons. cbn [length]. rewrite Nat2Z.inj_succ, Z.pow_succ_r by lia.
  set (p := 256 ^ Z.of_nat (length l)) in *. nia.
Qed.
Lemma to_be_length : forall n v, length (to_be n v) = n.
Proof. induction n; intros; cbn; congruence. Qed.
Lemma to_be_byte : forall n v, Forall byte (to_be n v).
Proof. induction n; intros; cbn [to_be]; constructor; [apply Z.mod_pos_bound; lia|apply IHn]. Qed.
Lemma from_to_be : forall n v, from_be (to_be n v) = v mod 256 ^ Z.of_nat n.
Proof.
  induction n as [|n IH]; intros v; [cbn; symmetry; apply Z.mod_1_r|]. cbn [to_be]. rewrite from_be_cons, to_be_length, IH.
  rewrite Nat2Z.inj_succ, Z.pow_succ_r by lia. set (p := 256 ^ Z.of_nat n). assert (0 < p) by (apply Z.pow_pos_nonneg; lia).
  rewrite (Z.mul_comm 256 p), Z.rem_mul_r by lia. lia.
Qed.
Lemma to_be_from : forall n l, length l = n -> Forall byte l -> to_be n (from_be l) = l.
Proof.
  induction n as [|n IH]; intros l E H; [destruct l; [reflexivity|discriminate]|]. destruct l as [|b l]; [discriminate|].
  apply Forall_cons_iff in H as [Hb H]. injection E as E. cbn [to_be]. rewrite from_be_cons, E.
  pose proof (from_be_range l H) as R. rewrite E in R. set (p := 256 ^ Z.of_nat n) in *.
  assert (D : (b * p + from_be l) / p = b) by (rewrite Z.div_add_l by lia; rewrite (Z.div_small (from_be l)) by lia; lia).
  f_equal.
  - fold p. rewrite D. apply Z.mod_small. exact Hb.
  - assert (Q : forall m v w q, v = w + q * 256 ^ Z.of_nat m -> to_be m v = to_be m w).
    { clear. induction m as [|m IH]; intros v w q E; [reflexivity|]. cbn [to_be]. rewrite Nat2Z.inj_succ, Z.pow_succ_r in E by lia.
      f_equal; [|apply (IH v w (256 * q)); lia]. set (p := 256 ^ Z.of_nat m) in *. assert (0 < p) by (apply Z.pow_pos_nonneg; lia).
      subst v. replace (w + q * (256 * p)) with (w + (q * 256) * p) by lia. rewrite Z.div_add by lia. rewrite Z.mod_add by lia. reflexivity. }
    rewrite (Q n _ (from_be l) b) by (fold p; lia). apply IH; assumption.
Qed.
Lemma from_be_inj : forall a b, length a = length b -> Forall byte a -> Forall byte b -> from_be a = from_be b -> a = b.
Proof. intros a b L Ha Hb E. rewrite <- (to_be_from (length a) a), <- (to_be_from (length a) b) by auto. congruence. Qed.
(** The order of byte strings of one length is that of the numbers. *)
Lemma lex_from_be : forall a b, length a = length b -> Forall byte a -> Forall byte b -> lex_lt a b = true <-> from_be a < from_be b.
Proof.
  induction a as [|x a IH]; intros [|y b] L Ha Hb; try discriminate; [cbn; split; [discriminate|lia]|]. injection L as L.
  apply Forall_cons_iff in Ha as [Hx Ha]. apply Forall_cons_iff in Hb as [Hy Hb]. cbn [lex_lt]. rewrite !from_be_cons, <- L.
  pose proof (from_be_range a Ha) as Ra. pose proof (from_be_range b Hb) as Rb. rewrite <- L in Rb. set (p := 256 ^ Z.of_nat (length a)) in *.
  rewrite orb_true_iff, andb_true_iff, Z.ltb_lt, Z.eqb_eq, (IH b L Ha Hb). split.
  - intros [H | [-> H]]; nia.
  - intros H. destruct (Z.lt_trichotomy x y) as [? | [-> | ?]]; [left; assumption|right; split; [reflexivity|lia]|nia].
Qed.

(** ** Fields of a number *)
Lemma testbit_split : forall q r m i, 0 <= m -> 0 <= r < 2 ^ m -> 0 <= i -> Z.testbit (q * 2 ^ m + r) i = if i <? m then Z.testbit r i else Z.testbit q (i - m).
Proof.
  intros q r m i Hm Hr Hi. destruct (Z.ltb_spec i m).
  - rewrite <- (Z.mod_pow2_bits_low (q * 2 ^ m + r) m i) by lia. rewrite Z.add_comm, Z.mod_add by lia. rewrite Z.mod_small by lia. reflexivity.
  - replace q with ((q * 2 ^ m + r) / 2 ^ m) at 2 by (rewrite Z.div_add_l by lia; rewrite (Z.div_small r) by lia; lia).
    rewrite <- Z.shiftr_div_pow2 by lia. rewrite Z.shiftr_spec by lia. f_equal. lia.
Qed.
Lemma set_field : forall a b c x k n, 0 <= k -> 0 <= n -> 0 <= b < 2 ^ n -> 0 <= c < 2 ^ k -> 0 <= x < 2 ^ n ->
  Z.lor (Z.ldiff ((a * 2 ^ n + b) * 2 ^ k + c) (Z.shiftl (Z.ones n) k)) (Z.shiftl x k) = (a * 2 ^ n + x) * 2 ^ k + c.
Proof.
  intros a b c x k n Hk Hn Hb Hc Hx. apply Z.bits_inj'. intros i Hi. rewrite Z.lor_spec, Z.ldiff_spec, !Z.shiftl_spec by lia.
  rewrite (testbit_split (a * 2 ^ n + b) c k i), (testbit_split (a * 2 ^ n + x) c k i) by lia. destruct (Z.ltb_spec i k).
  - rewrite !(Z.testbit_neg_r _ (i - k)) by lia. rewrite andb_true_r, orb_false_r. reflexivity.
  - rewrite (testbit_split a b n (i - k)), (testbit_split a x n (i - k)) by lia. rewrite Z.testbit_ones by lia. destruct (Z.ltb_spec (i - k) n).
    + replace (0 <=? i - k) with true by (symmetry; apply Z.leb_le; lia). cbn. rewrite andb_false_r. reflexivity.
    + rewrite andb_false_r. cbn. rewrite andb_true_r.
      replace (Z.testbit x (i - k)) with false; [apply orb_false_r|]. symmetry. destruct (Z.eq_dec x 0) as [-> | Nz]; [apply Z.testbit_0_l|].
      apply Z.bits_above_log2; [lia|]. apply Z.log2_lt_pow2; [lia|]. apply Z.lt_le_trans with (2 ^ n); [lia|]. apply Z.pow_le_mono_r; lia.
Qed.
(** A number of 128 bits by its fields: 48 bits, the version, 12 bits, the variant, 62 bits. *)
Definition fields (a v c w e : Z) : Z := (((a * 2 ^ 4 + v) * 2 ^ 12 + c) * 2 ^ 2 + w) * 2 ^ 62 + e.
Lemma fields_of : forall x, x = fields (x / 2 ^ 80) (x / 2 ^ 76 mod 2 ^ 4) (x / 2 ^ 64 mod 2 ^ 12) (x / 2 ^ 62 mod 2 ^ 2) (x mod 2 ^ 62).
Proof.
  intros x. unfold fields.
  assert (S : forall y k n, 0 <= k -> 0 <= n -> y / 2 ^ (k + n) * 2 ^ n + y / 2 ^ k mod 2 ^ n = y / 2 ^ k).
  { intros y k n Hk Hn. rewrite Z.pow_add_r by lia. rewrite <- Z.div_div by lia. rewrite Z.mul_comm. symmetry. apply Z.div_mod. lia. }
  change (2 ^ 80) with (2 ^ (76 + 4)). rewrite S by lia. change (2 ^ 76) with (2 ^ (64 + 12)). rewrite S by lia.
  change (2 ^ 64) with (2 ^ (62 + 2)). rewrite S by lia. rewrite Z.mul_comm. apply Z.div_mod. lia.
Qed.
Lemma fields_range : forall a v c w e, 0 <= a < 2 ^ 48 -> 0 <= v < 2 ^ 4 -> 0 <= c < 2 ^ 12 -> 0 <= w < 2 ^ 2 -> 0 <= e < 2 ^ 62 -> 0 <= fields a v c w e < 2 ^ 128.
Proof. intros. unfold fields. lia. Qed.
Lemma fields_inj : forall a v c w e a' v' c' w' e', 0 <= v < 2 ^ 4 -> 0 <= c < 2 ^ 12 -> 0 <= w < 2 ^ 2 -> 0 <= e < 2 ^ 62 -> 0 <= v' < 2 ^ 4 -> 0 <= c' < 2 ^ 12 -> 0 <= w' < 2 ^ 2 -> 0 <= e' < 2 ^ 62 ->
  fields a v c w e = fields a' v' c' w' e' -> a = a' /\ v = v' /\ c = c' /\ w = w' /\ e = e'.
Proof. unfold fields. intros. lia. Qed.
Lemma stamp_fields : forall l ver a v c w e, from_be l = fields a v c w e -> 0 <= a < 2 ^ 48 -> 0 <= v < 2 ^ 4 -> 0 <= c < 2 ^ 12 -> 0 <= w < 2 ^ 2 -> 0 <= e < 2 ^ 62 -> 0 <= ver < 2 ^ 4 ->
  from_be (stamp l ver) = fields a ver c 2 e.
Proof.
  intros l ver a v c w e E Ha Hv Hc Hw He Hver. unfold stamp. rewrite from_to_be, E.
  replace (fields a v c w e) with ((a * 2 ^ 4 + v) * 2 ^ 76 + (c * 2 ^ 64 + w * 2 ^ 62 + e)) by (unfold fields; lia).
  change 15 with (Z.ones 4). rewrite (set_field a v (c * 2 ^ 64 + w * 2 ^ 62 + e) ver 76 4) by lia.
  replace ((a * 2 ^ 4 + ver) * 2 ^ 76 + (c * 2 ^ 64 + w * 2 ^ 62 + e)) with ((((a * 2 ^ 4 + ver) * 2 ^ 12 + c) * 2 ^ 2 + w) * 2 ^ 62 + e) by lia.
  change 3 with (Z.ones 2). rewrite (set_field ((a * 2 ^ 4 + ver) * 2 ^ 12 + c) w e 2 62 2) by lia.
  apply Z.mod_small. unfold fields. lia.
Qed.
Lemma stamp_length : forall l v, length (stamp l v) = 16%nat.
Proof. intros. apply to_be_length. Qed.
Lemma stamp_byte : forall l v, Forall byte (stamp l v).
Proof. intros. apply to_be_byte. Qed.
Lemma nth_to_be : forall n v i, (i < n)%nat -> nth i (to_be n v) 0 = (v / 256 ^ Z.of_nat (n - 1 - i)) mod 256.
Proof.
  induction n as [|n IH]; intros v i H; [lia|]. cbn [to_be]. destruct i as [|i]; cbn [nth]; [do 3 f_equal; lia|]. rewrite IH by lia. do 3 f_equal. f_equal. lia.
Qed.
Lemma nth_from_be : forall l i, Forall byte l -> (i < length l)%nat -> nth i l 0 = (from_be l / 256 ^ Z.of_nat (length l - 1 - i)) mod 256.
Proof. intros l i H Hi. rewrite <- (to_be_from (length l) l eq_refl H) at 1. apply nth_to_be. exact Hi. Qed.
Lemma version_fields : forall u a v c w e, length u = 16%nat -> Forall byte u -> from_be u = fields a v c w e -> 0 <= v < 2 ^ 4 -> 0 <= c < 2 ^ 12 -> 0 <= w < 2 ^ 2 -> 0 <= e < 2 ^ 62 -> version u = v.
Proof.
  intros u a v c w e L H E Hv Hc Hw He. unfold version. rewrite nth_from_be by (auto; lia). rewrite L, E. change (256 ^ Z.of_nat (16 - 1 - 6)) with (2 ^ 72).
  rewrite Z.shiftr_div_pow2 by lia. unfold fields. dlia.
Qed.
Lemma variant_fields : forall u a v c e, length u = 16%nat -> Forall byte u -> from_be u = fields a v c 2 e -> 0 <= v < 2 ^ 4 -> 0 <= c < 2 ^ 12 -> 0 <= e < 2 ^ 62 -> variant u = Rfc4122.
Proof.
  intros u a v c e L H E Hv Hc He. unfold variant. rewrite nth_from_be by (auto; lia). rewrite L, E. change (256 ^ Z.of_nat (16 - 1 - 8)) with (2 ^ 56).
  replace ((fields a v c 2 e / 2 ^ 56) mod 256) with (2 * 2 ^ 6 + e / 2 ^ 56) by (unfold fields; dlia).
  set (r := e / 2 ^ 56). assert (Hr : 0 <= r < 2 ^ 6) by (subst r; dlia). cbv zeta.
  assert (A : Z.land (2 * 2 ^ 6 + r) 192 = 128).
  { change 192 with (Z.shiftl 3 6). apply Z.bits_inj'. intros i Hi. rewrite Z.land_spec, Z.shiftl_spec by lia. rewrite testbit_split by lia. change 128 with (2 * 2 ^ 6 + 0). rewrite testbit_split by lia.
    destruct (Z.ltb_spec i 6); [rewrite (Z.testbit_neg_r _ (i - 6)) by lia; rewrite Z.testbit_0_l; apply andb_false_r|].
    rewrite <- Z.land_spec. reflexivity. }
  assert (B : Z.land (2 * 2 ^ 6 + r) 128 = 128).
  { transitivity (Z.land (Z.land (2 * 2 ^ 6 + r) 192) 128); [|rewrite A; reflexivity]. rewrite <- Z.land_assoc. reflexivity. }
  rewrite B, A. reflexivity.
Qed.
Lemma land_ones' : forall x n, 0 <= n -> Z.land x (2 ^ n - 1) = x mod 2 ^ n.
Proof. intros. replace (2 ^ n - 1) with (Z.ones n) by (rewrite Z.ones_equiv; lia). apply Z.land_ones. lia. Qed.

(** ** Bytes, one at a time *)
Lemma byte_cases : forall P : Z -> bool, forallb P (map Z.of_nat (seq 0 256)) = true -> forall b, byte b -> P b = true.
Proof.
  intros P H b [H1 H2]. rewrite forallb_forall in H. apply H. apply in_map_iff. exists (Z.to_nat b). split; [lia|]. apply in_seq. lia.
Qed.
Definition is_hex (c : Z) : bool := match hex_val c with Some _ => true | None => false end.
Definition control (c : Z) : bool := (16 <=? c) && (c <=? 25).
Lemma hi_nibble : forall a b, byte a -> byte b -> let w := (a + 256 * b) / 2 ^ 4 in Z.land (w mod 256) 15 = a / 16 /\ Z.land (w / 256) 15 = b / 16.
Proof.
  intros a b Ha Hb w. unfold byte in *. change 15 with (2 ^ 4 - 1). rewrite !land_ones' by lia. subst w. split; dlia.
Qed.
Lemma nibble_hi : forall c, byte c -> exists k, (k = 0 \/ k = 1) /\ Z.land c 64 = 64 * k.
Proof.
  intros c H. assert (T : ((Z.land c 64 =? 0) || (Z.land c 64 =? 64)) = true) by (apply (byte_cases (fun c => (Z.land c 64 =? 0) || (Z.land c 64 =? 64))); [vm_compute; reflexivity|exact H]).
  apply orb_true_iff in T as [T | T]; apply Z.eqb_eq in T; rewrite T; [exists 0|exists 1]; auto.
Qed.
Definition nibble8 (c : Z) : Z := Z.land c 15 + 9 * (Z.land c 64 / 64).
Lemma nibble8_range : forall c, byte c -> 0 <= nibble8 c <= 24.
Proof.
  intros c H. assert (T : ((0 <=? nibble8 c) && (nibble8 c <=? 24)) = true) by (apply (byte_cases (fun c => (0 <=? nibble8 c) && (nibble8 c <=? 24))); [vm_compute; reflexivity|exact H]). lia.
Qed.
Lemma nibbles_pair : forall a b, byte a -> byte b ->
  let w := (Z.land a 64 + 256 * Z.land b 64) / 2 ^ 6 in let h0 := w mod 256 in let h1 := w / 256 in
  let w8 := (h0 + 256 * h1) * 2 ^ 3 mod 65536 in
  ((Z.land a 15 + w8 mod 256) mod 256 + h0) mod 256 = nibble8 a /\ ((Z.land b 15 + w8 / 256) mod 256 + h1) mod 256 = nibble8 b.
Proof.
  intros a b Ha Hb. unfold nibble8. destruct (nibble_hi a Ha) as (k & Hk & ->). destruct (nibble_hi b Hb) as (l & Hl & ->).
  assert (A : 0 <= Z.land a 15 < 16) by (change 15 with (2 ^ 4 - 1); rewrite land_ones' by lia; dlia).
  assert (B : 0 <= Z.land b 15 < 16) by (change 15 with (2 ^ 4 - 1); rewrite land_ones' by lia; dlia).
  cbv zeta. destruct Hk as [-> | ->], Hl as [-> | ->]; split; dlia.
Qed.
Lemma hex_value : forall c, byte c -> is_hex c = true -> nibble8 c = hex_decode c /\ nib c = hex_decode c /\ 0 <= hex_decode c < 16.
Proof.
  intros c H E. assert (T : (negb (is_hex c) || ((nibble8 c =? hex_decode c) && (nib c =? hex_decode c) && (0 <=? hex_decode c) && (hex_decode c <? 16))) = true)
    by (apply (byte_cases (fun c => negb (is_hex c) || ((nibble8 c =? hex_decode c) && (nib c =? hex_decode c) && (0 <=? hex_decode c) && (hex_decode c <? 16)))); [vm_compute; reflexivity|exact H]).
  rewrite E in T. cbn in T. lia.
Qed.
Definition lane_ok (c : Z) : Z := Z.lor (if Z.min (Z.max (Z.lor c 32) 48) 57 =? Z.lor c 32 then 255 else 0) (if Z.min (Z.max (Z.lor c 32) 97) 102 =? Z.lor c 32 then 255 else 0).
Lemma lane_ok_spec : forall c, byte c -> lane_ok c = if is_hex c || control c then 255 else 0.
Proof.
  intros c H. apply Z.eqb_eq. apply (byte_cases (fun c => lane_ok c =? (if is_hex c || control c then 255 else 0))); [vm_compute; reflexivity|exact H].
Qed.
Lemma hex_decode_cases : forall c, hex_decode c = 255 /\ is_hex c = false \/ 0 <= hex_decode c < 16 /\ is_hex c = true.
Proof.
  intros c. unfold hex_decode, is_hex. destruct (hex_val c) as [v|] eqn:E; [right; split; [|reflexivity]|left; auto]. unfold hex_val in E.
  repeat match type of E with (if ?b then _ else _) = _ => destruct b eqn:?; [injection E as <-; lia|] end. discriminate.
Qed.
Definition small (x : Z) : Prop := 0 <= x < 16.
Lemma small_lor : forall x y, small x -> small y -> small (Z.lor x y).
Proof.
  intros x y [H1 H2] [H3 H4]. split; [apply Z.lor_nonneg; lia|]. apply Z.log2_lt_cancel. rewrite Z.log2_lor by lia.
  destruct (Z.eq_dec x 0) as [-> | Nx], (Z.eq_dec y 0) as [-> | Ny]; try (cbn; lia).
  - assert (Z.log2 y < 4) by (apply Z.log2_lt_pow2; lia). change (Z.log2 0) with 0. change (Z.log2 16) with 4. lia.
  - assert (Z.log2 x < 4) by (apply Z.log2_lt_pow2; lia). change (Z.log2 0) with 0. change (Z.log2 16) with 4. lia.
  - assert (Z.log2 y < 4) by (apply Z.log2_lt_pow2; lia). assert (Z.log2 x < 4) by (apply Z.log2_lt_pow2; lia). change (Z.log2 16) with 4. lia.
Qed.
(** Values of a table entry: below 16 or 255; [lor] of those. *)
Definition entry (x : Z) : Prop := small x \/ x = 255.
Lemma lor_255 : forall x, byte x -> Z.lor x 255 = 255.
Proof. intros x H. apply Z.eqb_eq. apply (byte_cases (fun x => Z.lor x 255 =? 255)); [vm_compute; reflexivity|exact H]. Qed.
Lemma entry_lor : forall x y, entry x -> entry y -> entry (Z.lor x y) /\ ((Z.lor x y <? 16) = (x <? 16) && (y <? 16)).
Proof.
  intros x y [Hx | ->] [Hy | ->].
  - pose proof (small_lor x y Hx Hy) as H. split; [left; exact H|]. unfold small in *. destruct (Z.ltb_spec (Z.lor x y) 16), (Z.ltb_spec x 16), (Z.ltb_spec y 16); try reflexivity; lia.
  - rewrite lor_255 by (unfold small, byte in *; lia). split; [right; reflexivity|]. cbn. rewrite andb_false_r. reflexivity.
  - rewrite Z.lor_comm, lor_255 by (unfold small, byte in *; lia). split; [right; reflexivity|reflexivity].
  - split; [right; reflexivity|reflexivity].
Qed.
Lemma entry_decode : forall c, entry (hex_decode c) /\ (hex_decode c <? 16) = is_hex c.
Proof. intros c. destruct (hex_decode_cases c) as [[-> ->] | [H ->]]; [split; [right|]; reflexivity|split; [left; exact H|apply Z.ltb_lt; lia]]. Qed.
