(* Proofs about the model of ML-KEM serialization and sampling *)
From Coq Require Import ZArith List Lia Bool.
Import ListNotations.
From Verif Require Import NttModel KemModel.
Open Scope Z_scope.

Lemma u64_id x : 0 <= x < 2 ^ 64 -> u64 x = x.
Proof. apply Z.mod_small. Qed.

Lemma land_mask x d : 0 <= d -> Z.land x (2 ^ d - 1) = x mod 2 ^ d.
Proof.
  intros H. replace (2 ^ d - 1) with (Z.ones d) by (rewrite Z.ones_equiv; lia).
  apply Z.land_ones; exact H.
Qed.
Lemma land_255 x : Z.land x 255 = x mod 256.
Proof. exact (land_mask x 8 ltac:(lia)). Qed.

Lemma lor_shift a v n : 0 <= n -> 0 <= a < 2 ^ n -> Z.lor a (Z.shiftl v n) = a + v * 2 ^ n.
Proof.
  intros Hn Ha.
  assert (L : Z.land a (Z.shiftl v n) = 0).
  { apply Z.bits_inj'. intros k Hk. rewrite Z.land_spec, Z.bits_0.
    destruct (Z_lt_le_dec k n).
    - rewrite Z.shiftl_spec_low by lia. apply andb_false_r.
    - replace (Z.testbit a k) with false; [reflexivity|].
      symmetry. rewrite <- (Z.mod_small a (2 ^ n)) by lia. apply Z.mod_pow2_bits_high; lia. }
  rewrite <- (Z.lxor_lor _ _ L), <- (Z.add_nocarry_lxor _ _ L).
  rewrite Z.shiftl_mul_pow2 by lia. reflexivity.
Qed.

(* ---- compression ---- *)

Definition H (d : Z) : Z := 2 ^ (d - 1).
Lemma pow_half d : 1 <= d -> 2 ^ d = 2 * H d /\ 0 < H d.
Proof.
  intros Hd. unfold H. split.
  - replace d with (Z.succ (d - 1)) at 1 by lia. apply Z.pow_succ_r. lia.
  - apply Z.pow_pos_nonneg; lia.
Qed.
Lemma pow_le d e : 0 <= d <= e -> 2 ^ d <= 2 ^ e.
Proof. intros. apply Z.pow_le_mono_r; lia. Qed.

Lemma compress_eq d x : 0 <= d <= 50 ->
  compress1 d x = (x mod Q * 2 ^ d + 1664) / 3329 mod 2 ^ d.
Proof.
  intros Hd. unfold compress1. rewrite land_mask by lia.
  rewrite Z.shiftl_mul_pow2 by lia.
  pose proof (pow_le d 50 ltac:(lia)) as HP. assert (0 < 2 ^ d) by (apply Z.pow_pos_nonneg; lia).
  change (2 ^ 50) with 1125899906842624 in HP.
  assert (HQ : 0 <= x mod Q < 3329) by (apply Z.mod_pos_bound; reflexivity).
  change Q with 3329 in *. change (3329 / 2) with 1664.
  rewrite (u64_id (x mod 3329 * 2 ^ d)); [|change (2 ^ 64) with 18446744073709551616; nia].
  rewrite u64_id; [reflexivity|change (2 ^ 64) with 18446744073709551616; nia].
Qed.

Lemma decompress_eq d y : 0 <= d <= 50 -> 0 <= y < 2 ^ d ->
  decompress1 d y = (y * 3329 + 2 ^ d / 2) / 2 ^ d.
Proof.
  intros Hd Hy. unfold decompress1. rewrite Z.shiftr_div_pow2 by lia.
  pose proof (pow_le d 50 ltac:(lia)) as HP. change (2 ^ 50) with 1125899906842624 in HP.
  assert (0 <= 2 ^ d / 2 <= 2 ^ d).
  { split; [apply Z.div_pos; lia|]. apply Z.div_le_upper_bound; lia. }
  rewrite (u64_id y); [|change (2 ^ 64) with 18446744073709551616; lia].
  change Q with 3329.
  rewrite (u64_id (y * 3329)); [|change (2 ^ 64) with 18446744073709551616; lia].
  rewrite u64_id; [reflexivity|change (2 ^ 64) with 18446744073709551616; lia].
Qed.

(* decompressing what was compressed lands within round(q / 2^(d+1)) of the
   number, modulo q *)
Lemma compress_error d x : 1 <= d <= 50 ->
  exists k, Z.abs (decompress1 d (compress1 d x) - x - 3329 * k) <= (3329 + 2 ^ d) / 2 ^ (d + 1).
Proof.
  intros Hd. rewrite compress_eq by lia.
  destruct (pow_half d ltac:(lia)) as [HD HH]. set (h := H d) in *.
  replace (2 ^ (d + 1)) with (4 * h) by (rewrite Z.pow_add_r by lia; change (2 ^ 1) with 2; lia).
  rewrite decompress_eq; [|lia|apply Z.mod_pos_bound; lia].
  change Q with 3329. set (r := x mod 3329). set (c := (r * 2 ^ d + 1664) / 3329).
  assert (Hr : 0 <= r < 3329) by (apply Z.mod_pos_bound; lia).
  assert (Hx : x = 3329 * (x / 3329) + r) by (apply Z.div_mod; lia).
  assert (Hc : r * 2 ^ d + 1664 = 3329 * c + (r * 2 ^ d + 1664) mod 3329) by (apply Z.div_mod; lia).
  set (s := (r * 2 ^ d + 1664) mod 3329) in Hc.
  assert (Hs : 0 <= s < 3329) by (apply Z.mod_pos_bound; lia).
  rewrite HD in *. replace (2 * h / 2) with h by (rewrite Z.mul_comm, Z.div_mul; lia).
  set (B := (3329 + 2 * h) / (4 * h)).
  assert (HB : 4 * h * B <= 3329 + 2 * h < 4 * h * B + 4 * h).
  { pose proof (Z.div_mod (3329 + 2 * h) (4 * h) ltac:(lia)).
    pose proof (Z.mod_pos_bound (3329 + 2 * h) (4 * h) ltac:(lia)). subst B. lia. }
  assert (Hc2 : 0 <= c <= 2 * h).
  { assert (r * (2 * h) <= 3328 * (2 * h)) by (apply Z.mul_le_mono_nonneg_r; lia).
    assert (0 <= r * (2 * h)) by (apply Z.mul_nonneg_nonneg; lia).
    split; [apply Z.div_pos; lia|]. apply Z.lt_succ_r, Z.div_lt_upper_bound; lia. }
  assert (Hd1 : forall z, - (h * 2) * B <= z + h -> z + h < 2 * h * B + 2 * h ->
            - B <= (z + h) / (2 * h) <= B).
  { intros z H1 H2. split.
    - apply Z.div_le_lower_bound; lia.
    - apply Z.lt_succ_r. apply Z.div_lt_upper_bound; lia. }
  destruct (Z.eq_dec c (2 * h)) as [Ec|Nc].
  - rewrite Ec. rewrite Z.mod_same by lia.
    exists (- (x / 3329) - 1). 
    replace (0 * 3329 + h) with h by lia. rewrite Z.div_small by lia.
    replace (0 - x - 3329 * (- (x / 3329) - 1)) with (3329 - r) by lia.
    (* 3329 - r is itself a rounding of (1664 - s) / 2h *)
    assert (E : (3329 - r) * (2 * h) = 1664 - s) by (rewrite Ec in Hc; lia).
    pose proof (Hd1 (1664 - s) ltac:(lia) ltac:(lia)) as HB2.
    rewrite <- E in HB2. rewrite (Z.add_comm _ h), Z.div_add in HB2 by lia.
    rewrite Z.div_small in HB2 by lia. lia.
  - rewrite (Z.mod_small c) by lia.
    exists (- (x / 3329)).
    replace (c * 3329 + h) with ((1664 - s + h) + r * (2 * h)) by lia.
    rewrite Z.div_add by lia.
    pose proof (Hd1 (1664 - s) ltac:(lia) ltac:(lia)). lia.
Qed.

Lemma compress_left_inv d y : 0 <= d <= 11 -> 0 <= y < 2 ^ d -> compress1 d (decompress1 d y) = y.
Proof.
  intros Hd Hy. rewrite decompress_eq by lia. rewrite compress_eq by lia.
  destruct (Z.eq_dec d 0) as [->|Hd0].
  { change (2 ^ 0) with 1 in *. rewrite Z.mod_1_r. lia. }
  destruct (pow_half d ltac:(lia)) as [HD HH]. set (h := H d) in *.
  assert (Hh : h <= 1024) by (pose proof (pow_le d 11 ltac:(lia)) as P; change (2 ^ 11) with 2048 in P; lia).
  rewrite HD in *. replace (2 * h / 2) with h by (rewrite Z.mul_comm, Z.div_mul; lia).
  set (x := (y * 3329 + h) / (2 * h)).
  pose proof (Z.div_mod (y * 3329 + h) (2 * h) ltac:(lia)) as E. fold x in E.
  pose proof (Z.mod_pos_bound (y * 3329 + h) (2 * h) ltac:(lia)) as Es.
  set (s := (y * 3329 + h) mod (2 * h)) in *.
  assert (Hx : 0 <= x < 3329).
  { split; [apply Z.div_pos; lia|]. apply Z.div_lt_upper_bound; nia. }
  change Q with 3329. rewrite (Z.mod_small x) by lia.
  replace (x * (2 * h) + 1664) with ((h - s + 1664) + y * 3329) by lia.
  rewrite Z.div_add by lia. rewrite Z.div_small by lia. apply Z.mod_small. lia.
Qed.

(* ---- numbers of digits ---- *)

(* little-endian value in base 2^d *)
Fixpoint value (d : Z) (l : list Z) : Z :=
  match l with [] => 0 | x :: l => x + 2 ^ d * value d l end.

Lemma value_app d a b : 0 <= d -> value d (a ++ b) = value d a + 2 ^ (d * Z.of_nat (length a)) * value d b.
Proof.
  intros Hd. induction a as [|x a IH]; cbn [app value length].
  - rewrite Z.mul_0_r. change (2 ^ 0) with 1. lia.
  - rewrite IH. replace (d * Z.of_nat (S (length a))) with (d + d * Z.of_nat (length a)) by lia.
    rewrite Z.pow_add_r by lia. ring.
Qed.

Definition digits (d : Z) (l : list Z) : Prop := Forall (fun x => 0 <= x < 2 ^ d) l.

Lemma value_bound d l : 0 <= d -> digits d l -> 0 <= value d l < 2 ^ (d * Z.of_nat (length l)).
Proof.
  intros Hd. induction 1 as [|x l Hx Hl IH]; cbn [value length].
  - rewrite Z.mul_0_r. change (2 ^ 0) with 1. lia.
  - replace (d * Z.of_nat (S (length l))) with (d + d * Z.of_nat (length l)) by lia.
    rewrite Z.pow_add_r by lia. assert (0 < 2 ^ d) by (apply Z.pow_pos_nonneg; lia). nia.
Qed.

Lemma value_digit d l k : 0 <= d -> digits d l -> (k < length l)%nat ->
  value d l / 2 ^ (d * Z.of_nat k) mod 2 ^ d = nth k l 0.
Proof.
  intros Hd Hl. revert k. induction Hl as [|x l Hx Hl IH]; intros k Hk; cbn [length] in Hk; [lia|].
  assert (0 < 2 ^ d) by (apply Z.pow_pos_nonneg; lia).
  destruct k as [|k]; cbn [value nth].
  - rewrite Z.mul_0_r. change (2 ^ 0) with 1. rewrite Z.div_1_r.
    rewrite Z.mul_comm, Z.mod_add by lia. apply Z.mod_small; exact Hx.
  - replace (d * Z.of_nat (S k)) with (d + d * Z.of_nat k) by lia.
    rewrite Z.pow_add_r by lia. rewrite <- Z.div_div; [|lia|apply Z.pow_pos_nonneg; lia].
    replace (x + 2 ^ d * value d l) with (x + value d l * 2 ^ d) by ring.
    rewrite Z.div_add by lia. rewrite (Z.div_small x) by lia. rewrite Z.add_0_l. apply IH; lia.
Qed.

Lemma value_inj d a b : 0 <= d -> digits d a -> digits d b -> length a = length b ->
  value d a = value d b -> a = b.
Proof.
  intros Hd Ha Hb L E. apply nth_ext with 0 0; [exact L|].
  intros k Hk. rewrite <- (value_digit d a k), <- (value_digit d b k), E by (auto; lia). reflexivity.
Qed.

(* ---- packing ---- *)

Lemma digits_app d a b : digits d a -> digits d b -> digits d (a ++ b).
Proof. intros. apply Forall_app; auto. Qed.

Lemma drain_spec f : forall acc nbits out acc' nbits' out',
  drain f acc nbits out = (acc', nbits', out') ->
  0 <= nbits < 8 * Z.of_nat f + 8 -> 0 <= acc < 2 ^ nbits -> digits 8 out ->
  value 8 out' + 2 ^ (8 * Z.of_nat (length out')) * acc' =
    value 8 out + 2 ^ (8 * Z.of_nat (length out)) * acc
  /\ 0 <= nbits' < 8 /\ 0 <= acc' < 2 ^ nbits' /\ digits 8 out'
  /\ 8 * Z.of_nat (length out') + nbits' = 8 * Z.of_nat (length out) + nbits.
Proof.
  induction f as [|f IH]; intros acc nbits out acc' nbits' out' E Hn Ha Ho; cbn [drain] in E.
  - injection E as <- <- <-. repeat split; auto; lia.
  - destruct (Z.leb_spec 8 nbits) as [H8|H8].
    + rewrite land_255 in E. rewrite Z.shiftr_div_pow2 in E by lia. change (2 ^ 8) with 256 in E.
      apply IH in E.
      * destruct E as (EV & E2 & E3 & E4 & E5). rewrite app_length in *. cbn [length] in *.
        repeat split; try apply E2; try apply E3; auto; try lia.
        rewrite EV. rewrite value_app by lia. cbn [value].
        replace (8 * Z.of_nat (length out + 1)) with (8 * Z.of_nat (length out) + 8) by lia.
        rewrite Z.pow_add_r by lia. change (2 ^ 8) with 256.
        pose proof (Z.div_mod acc 256 ltac:(lia)). nia.
      * lia.
      * split; [apply Z.div_pos; lia|]. apply Z.div_lt_upper_bound; [lia|].
        change 256 with (2 ^ 8). rewrite <- Z.pow_add_r by lia. replace (8 + (nbits - 8)) with nbits by lia. lia.
      * apply digits_app; [exact Ho|]. constructor; [|constructor]. apply Z.mod_pos_bound. lia.
    + injection E as <- <- <-. repeat split; auto; lia.
Qed.

Lemma pack_spec d fields : 0 <= d <= 57 -> digits d fields -> forall acc nbits out,
  0 <= nbits < 8 -> 0 <= acc < 2 ^ nbits -> digits 8 out ->
  let r := pack d fields acc nbits out in
  let total := 8 * Z.of_nat (length out) + nbits in
  value 8 r = value 8 out + 2 ^ (8 * Z.of_nat (length out)) * acc + 2 ^ total * value d fields
  /\ digits 8 r
  /\ Z.of_nat (length r) = (total + d * Z.of_nat (length fields) + 7) / 8.
Proof.
  intros Hd. induction 1 as [|v fields Hv Hf IH]; intros acc nbits out Hn Ha Ho r total; subst r; cbn [pack value].
  - destruct (Z.ltb_spec 0 nbits) as [H0|H0].
    + rewrite land_255, app_length. cbn [length].
      assert (acc < 256) by (pose proof (pow_le nbits 8 ltac:(lia)) as P; change (2 ^ 8) with 256 in P; lia).
      rewrite Z.mod_small by lia. split; [|split].
      * rewrite value_app by lia. cbn [value]. lia.
      * apply digits_app; [exact Ho|]. constructor; [|constructor]. change (2 ^ 8) with 256. lia.
      * subst total. replace (8 * Z.of_nat (length out) + nbits + d * Z.of_nat 0 + 7)
          with ((nbits + 7) + Z.of_nat (length out) * 8) by lia.
        rewrite Z.div_add by lia. replace ((nbits + 7) / 8) with 1; [lia|].
        apply Z.div_unique with (nbits - 1); lia.
    + assert (nbits = 0) as -> by lia. change (2 ^ 0) with 1 in Ha. replace acc with 0 by lia.
      split; [|split]; [lia|exact Ho|]. subst total. cbn [length].
      replace (8 * Z.of_nat (length out) + 0 + d * Z.of_nat 0 + 7) with (7 + Z.of_nat (length out) * 8) by lia.
      rewrite Z.div_add by lia. change (7 / 8) with 0. lia.
  - assert (HP : 2 ^ nbits * 2 ^ d = 2 ^ (nbits + d)) by (rewrite Z.pow_add_r by lia; reflexivity).
    assert (0 < 2 ^ nbits) by (apply Z.pow_pos_nonneg; lia).
    assert (E : Z.lor acc (u64 (Z.shiftl v nbits)) = acc + v * 2 ^ nbits).
    { rewrite u64_id; [apply lor_shift; lia|]. rewrite Z.shiftl_mul_pow2 by lia.
      pose proof (pow_le (nbits + d) 64 ltac:(lia)). split; [nia|].
      apply Z.lt_le_trans with (2 ^ (nbits + d)); nia. }
    rewrite E. destruct (drain 80 (acc + v * 2 ^ nbits) (nbits + d) out) as [[acc' nbits'] out'] eqn:ED.
    apply drain_spec in ED; [|lia|nia|exact Ho].
    destruct ED as (EV & Hn' & Ha' & Ho' & EL).
    destruct (IH acc' nbits' out' Hn' Ha' Ho') as (V & D & L).
    split; [|split]; [|exact D|].
    + rewrite V, EV, EL. subst total.
      replace (8 * Z.of_nat (length out) + (nbits + d)) with (8 * Z.of_nat (length out) + nbits + d) by lia.
      rewrite !Z.pow_add_r by lia. ring.
    + rewrite L, EL. cbn [length]. subst total. f_equal. lia.
Qed.

Lemma map_mask d l : 0 <= d -> map (fun c => Z.land (c mod 2 ^ d) (2 ^ d - 1)) l = map (fun c => c mod 2 ^ d) l.
Proof.
  intros Hd. apply map_ext. intros c. rewrite land_mask by lia. apply Zmod_mod.
Qed.
Lemma digits_mod d l : 0 <= d -> digits d (map (fun c => c mod 2 ^ d) l).
Proof.
  intros Hd. apply Forall_map, Forall_forall. intros x _. apply Z.mod_pos_bound. apply Z.pow_pos_nonneg; lia.
Qed.

Lemma encode_spec d l : 0 <= d <= 57 ->
  value 8 (mlkem_byte_encode l d) = value d (map (fun c => c mod 2 ^ d) l)
  /\ digits 8 (mlkem_byte_encode l d)
  /\ Z.of_nat (length (mlkem_byte_encode l d)) = (d * Z.of_nat (length l) + 7) / 8.
Proof.
  intros Hd. unfold mlkem_byte_encode. rewrite map_mask by lia.
  destruct (pack_spec d (map (fun c => c mod 2 ^ d) l) ltac:(lia) (digits_mod d l ltac:(lia)) 0 0 []) as (V & D & L);
    [lia|change (2 ^ 0) with 1; lia|constructor|].
  split; [|split]; [|exact D|].
  - rewrite V. cbn [value length]. change (2 ^ (8 * Z.of_nat 0 + 0)) with 1. lia.
  - rewrite L, map_length. cbn [length]. f_equal.
Qed.

Lemma encode_w16_eq d l : 0 <= d -> mlkem_byte_encode_w16 l d = mlkem_byte_encode l d.
Proof.
  intros Hd. unfold mlkem_byte_encode, mlkem_byte_encode_w16. f_equal. rewrite map_mask by lia.
  apply map_ext. intros c. apply land_mask; lia.
Qed.

(* ---- unpacking ---- *)

Lemma mod_split V n k : 0 <= n -> 0 <= k -> V mod 2 ^ (n + k) = V mod 2 ^ n + 2 ^ n * ((V / 2 ^ n) mod 2 ^ k).
Proof.
  intros Hn Hk. rewrite Z.pow_add_r by lia. apply Z.rem_mul_r; [|apply Z.pow_pos_nonneg; lia].
  assert (0 < 2 ^ n) by (apply Z.pow_pos_nonneg; lia). lia.
Qed.

Section unpack.
  Variable bytes : list Z.
  Variable d : Z.
  Hypothesis Hd : 1 <= d <= 57.
  Let V := value 8 (map (fun b => b mod 256) bytes).
  Let len := Z.of_nat (length bytes).

  Lemma byte_of bi b : nth_error bytes bi = Some b -> V / 2 ^ (8 * Z.of_nat bi) mod 256 = b mod 256.
  Proof using.
    intros E. assert (bi < length bytes)%nat by (apply nth_error_Some; congruence).
    unfold V. change 256 with (2 ^ 8) at 2.
    rewrite value_digit; [|lia|apply (digits_mod 8); lia|rewrite map_length; lia].
    apply nth_error_nth with (d := 0) in E. rewrite <- E.
    change 0 with (0 mod 256) at 1. apply (map_nth (fun b => b mod 256)).
  Qed.

  (* [p]: the number of bits already taken *)
  Lemma fill_spec f : forall p acc nbits bi,
    0 <= p -> 0 <= nbits -> nbits + 8 <= 64 \/ d <= nbits <= 64 -> 8 * Z.of_nat bi = p + nbits -> p + d <= 8 * len ->
    d - nbits <= 8 * Z.of_nat f - 8 -> (1 <= f)%nat ->
    acc = V / 2 ^ p mod 2 ^ nbits ->
    exists acc' nbits' bi', fill f bytes d acc nbits bi = Some (acc', nbits', bi')
      /\ d <= nbits' <= 64 /\ 8 * Z.of_nat bi' = p + nbits' /\ acc' = V / 2 ^ p mod 2 ^ nbits'.
  Proof using Hd.
    induction f as [|f IH]; intros p acc nbits bi Hp Hn Hn2 HB Hlen Hf Hf1 EA; [lia|]. cbn [fill].
    destruct (Z.ltb_spec nbits d) as [Hlt|Hge].
    - destruct (nth_error bytes bi) as [b|] eqn:Eb.
      2:{ apply nth_error_None in Eb. subst len. lia. }
      apply IH; try lia.
      assert (H0 : 0 < 2 ^ nbits) by (apply Z.pow_pos_nonneg; lia).
      assert (Hb : 0 <= b mod 256 < 256) by (apply Z.mod_pos_bound; lia).
      assert (Ha : 0 <= acc < 2 ^ nbits) by (rewrite EA; apply Z.mod_pos_bound; lia).
      rewrite u64_id.
      + rewrite lor_shift by lia. rewrite mod_split by lia. change (2 ^ 8) with 256.
        rewrite Z.div_div, <- Z.pow_add_r by (try apply Z.pow_pos_nonneg; try lia; apply Z.pow_nonzero; lia).
        rewrite <- HB, (byte_of bi b Eb). rewrite <- EA. ring.
      + rewrite Z.shiftl_mul_pow2 by lia. split; [nia|].
        apply Z.lt_le_trans with (2 ^ (nbits + 8)); [|apply pow_le; lia].
        rewrite Z.pow_add_r by lia. change (2 ^ 8) with 256. nia.
    - exists acc, nbits, bi. repeat split; auto; lia.
  Qed.

  Definition field_at (k : nat) : Z :=
    let v := V / 2 ^ (d * Z.of_nat k) mod 2 ^ d in if d =? 12 then v mod Q else v.

  Lemma unpack_spec n : forall k acc nbits bi,
    0 <= nbits <= 7 \/ (0 <= nbits /\ nbits + d <= 64) -> 8 * Z.of_nat bi = d * Z.of_nat k + nbits ->
    d * (Z.of_nat k + Z.of_nat n) <= 8 * len ->
    acc = V / 2 ^ (d * Z.of_nat k) mod 2 ^ nbits ->
    unpack n bytes d acc nbits bi = Some (map field_at (seq k n)).
  Proof using Hd.
    induction n as [|n IH]; intros k acc nbits bi Hn HB Hlen EA; cbn [unpack seq map]; [reflexivity|].
    destruct (fill_spec 80 (d * Z.of_nat k) acc nbits bi) as (acc' & nbits' & bi' & -> & Hn' & HB' & EA'); try lia.
    assert (H0 : 0 < 2 ^ (d * Z.of_nat k)) by (apply Z.pow_pos_nonneg; lia).
    assert (H1 : 0 < 2 ^ d) by (apply Z.pow_pos_nonneg; lia).
    assert (Ev : Z.land acc' (2 ^ d - 1) = V / 2 ^ (d * Z.of_nat k) mod 2 ^ d).
    { rewrite land_mask by lia. rewrite EA'. replace nbits' with (d + (nbits' - d)) by lia.
      rewrite mod_split by lia. rewrite Z.add_comm, Z.mul_comm, Z.add_comm, Z.mod_add by lia. apply Zmod_mod. }
    rewrite (IH (S k)).
    - rewrite Ev. reflexivity.
    - right. lia.
    - lia.
    - lia.
    - rewrite Z.shiftr_div_pow2 by lia. rewrite EA'. replace nbits' with (d + (nbits' - d)) at 1 by lia.
      rewrite mod_split by lia. rewrite (Z.mul_comm (2 ^ d)), Z.div_add by lia.
      rewrite Z.div_small by (apply Z.mod_pos_bound; lia). rewrite Z.add_0_l.
      rewrite Z.div_div, <- Z.pow_add_r by lia. replace (d * Z.of_nat (S k)) with (d * Z.of_nat k + d) by lia.
      reflexivity.
  Qed.
End unpack.

Lemma decode_spec bytes d : 1 <= d <= 57 ->
  mlkem_byte_decode bytes d =
    Some (map (field_at bytes d) (seq 0 (Z.to_nat (8 * Z.of_nat (length bytes) / d)))).
Proof.
  intros Hd. unfold mlkem_byte_decode. destruct (Z.eqb_spec d 0); [lia|].
  rewrite (Z.mul_comm (Z.of_nat (length bytes)) 8).
  apply unpack_spec; [lia|left; lia|lia| |].
  - assert (0 <= 8 * Z.of_nat (length bytes) / d) by (apply Z.div_pos; lia).
    pose proof (Z.mul_div_le (8 * Z.of_nat (length bytes)) d ltac:(lia)).
    rewrite Z2Nat.id by lia. lia.
  - change (2 ^ 0) with 1. rewrite Z.mod_1_r. reflexivity.
Qed.
