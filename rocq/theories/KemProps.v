(* C106: ML-KEM serialization and sampling *)
From Coq Require Import ZArith List Lia Bool.
Import ListNotations.
From Verif Require Import NttModel KemModel KemProofs KemSample.
Open Scope Z_scope.

(* [value d l] is the number whose base-2^d digits are [l], least first;
   [digits d l] says that all of [l] lie in 0 .. 2^d - 1; [buf_bit buf k] is bit k of
   a byte string, the low bit of the first byte being bit 0. *)

(* Compressing to d bits gives a d-bit number, and decompressing that is within
   round(q / 2^(d+1)) of the original, modulo q *)
Theorem C106_compress_error : forall coeffs d, 1 <= d <= 50 ->
  Forall2 (fun x y => 0 <= y < 2 ^ d) coeffs (mlkem_compress coeffs d)
  /\ Forall2 (fun x x' => exists k, Z.abs (x' - x - 3329 * k) <= (3329 + 2 ^ d) / 2 ^ (d + 1))
       coeffs (mlkem_decompress (mlkem_compress coeffs d) d).
Proof.
  intros coeffs d Hd. unfold mlkem_compress, mlkem_decompress. split; induction coeffs as [|x l IH]; constructor; auto.
  - rewrite compress_eq by lia. apply Z.mod_pos_bound. apply Z.pow_pos_nonneg; lia.
  - apply compress_error. exact Hd.
Qed.

(* up to 11 bits nothing that was compressed is lost again *)
Theorem C106_compress_inverse : forall ys d, 0 <= d <= 11 -> digits d ys ->
  mlkem_compress (mlkem_decompress ys d) d = ys.
Proof.
  intros ys d Hd. unfold mlkem_compress, mlkem_decompress. induction 1 as [|y l Hy Hl IH]; cbn [map]; [reflexivity|].
  rewrite compress_left_inv by assumption. f_equal. exact IH.
Qed.

Example C106_compress_ex :
  mlkem_compress [0; 1; 1664; 1665; 3328; -1; 832; 2497] 4 = [0; 0; 8; 8; 0; 0; 4; 12]
  /\ mlkem_decompress [0; 0; 8; 8; 0; 0; 4; 12] 4 = [0; 0; 1665; 1665; 0; 0; 832; 2497]
  /\ (3329 + 2 ^ 4) / 2 ^ (4 + 1) = 104
  /\ mlkem_compress (mlkem_decompress [0; 1; 2; 1023; 2047] 11) 11 = [0; 1; 2; 1023; 2047].
Proof. repeat split; vm_compute; reflexivity. Qed.

(* with 12 bits or more there are too few residues *)
Theorem C106_compress_wide_refuted : exists y, 0 <= y < 2 ^ 12 /\ mlkem_compress (mlkem_decompress [y] 12) 12 <> [y].
Proof. exists 3. split; [vm_compute; intuition discriminate|]. vm_compute. discriminate. Qed.

(* The packed bytes are the little-endian bytes of the number with the
   coefficients' low d bits as digits, and as many bytes as that takes *)
Theorem C106_encode : forall coeffs d, 0 <= d <= 57 ->
  let bytes := mlkem_byte_encode coeffs d in
  value 8 bytes = value d (map (fun c => c mod 2 ^ d) coeffs)
  /\ digits 8 bytes
  /\ Z.of_nat (length bytes) = (d * Z.of_nat (length coeffs) + 7) / 8.
Proof. intros coeffs d Hd. apply encode_spec. exact Hd. Qed.

(* Unpacking never reads past the end, and gives the base-2^d digits, reduced
   modulo q for d = 12 *)
Theorem C106_decode : forall bytes d, 1 <= d <= 57 ->
  let number := value 8 (map (fun b => b mod 256) bytes) in
  let field k := number / 2 ^ (d * Z.of_nat k) mod 2 ^ d in
  mlkem_byte_decode bytes d =
    Some (map (fun k => if d =? 12 then field k mod 3329 else field k)
            (seq 0 (Z.to_nat (8 * Z.of_nat (length bytes) / d)))).
Proof. intros bytes d Hd. apply decode_spec. exact Hd. Qed.

(* unpacking what was packed; what may follow, when the bits do not fill the last
   byte, are zeros *)
Theorem C106_round_trip : forall coeffs d, 1 <= d <= 57 -> exists rest,
  mlkem_byte_decode (mlkem_byte_encode coeffs d) d =
    Some (map (fun c => if d =? 12 then c mod 2 ^ d mod 3329 else c mod 2 ^ d) coeffs ++ rest)
  /\ Forall (fun x => x = 0) rest
  /\ ((d * Z.of_nat (length coeffs)) mod 8 = 0 -> rest = []).
Proof.
  intros coeffs d Hd. rewrite C106_decode by exact Hd. cbv zeta.
  destruct (encode_spec d coeffs ltac:(lia)) as (V & D & L).
  set (bytes := mlkem_byte_encode coeffs d) in *.
  replace (map (fun b => b mod 256) bytes) with bytes.
  2:{ symmetry. rewrite <- (map_id bytes) at 2. apply map_ext_in. intros b Hb. apply Z.mod_small.
      exact (proj1 (Forall_forall _ _) D b Hb). }
  rewrite V. set (ms := map (fun c => c mod 2 ^ d) coeffs).
  set (n := length coeffs). assert (Lm : length ms = n) by apply map_length.
  assert (Dm : digits d ms) by (apply digits_mod; lia).
  set (m := Z.to_nat (8 * Z.of_nat (length bytes) / d)).
  assert (Hm : (n <= m)%nat).
  { unfold m. apply Nat2Z.inj_le. rewrite Z2Nat.id by (apply Z.div_pos; lia).
    apply Z.div_le_lower_bound; [lia|]. rewrite L. fold n.
    pose proof (Z.div_mod (d * Z.of_nat n + 7) 8 ltac:(lia)). pose proof (Z.mod_pos_bound (d * Z.of_nat n + 7) 8 ltac:(lia)). lia. }
  replace m with (n + (m - n))%nat by lia. rewrite seq_app, map_app.
  eexists. split; [f_equal; f_equal|split].
  - unfold n. apply nth_ext with 0 0; [rewrite !map_length, seq_length; reflexivity|].
    intros k Hk. rewrite map_length, seq_length in Hk. fold n in Hk.
    rewrite nth_indep with (d' := (fun k => if d =? 12 then value d ms / 2 ^ (d * Z.of_nat k) mod 2 ^ d mod 3329 else value d ms / 2 ^ (d * Z.of_nat k) mod 2 ^ d) 0%nat) by (rewrite map_length, seq_length; exact Hk).
    rewrite (map_nth (fun k => if d =? 12 then value d ms / 2 ^ (d * Z.of_nat k) mod 2 ^ d mod 3329 else value d ms / 2 ^ (d * Z.of_nat k) mod 2 ^ d)).
    rewrite seq_nth by exact Hk. cbn [Nat.add].
    rewrite value_digit by (try exact Dm; lia). 
    replace (nth k ms 0) with (nth k coeffs 0 mod 2 ^ d) by (symmetry; change 0 with (0 mod 2 ^ d) at 1; apply (map_nth (fun c => c mod 2 ^ d))).
    symmetry. rewrite nth_indep with (d' := (fun c => if d =? 12 then c mod 2 ^ d mod 3329 else c mod 2 ^ d) 0) by (rewrite map_length; exact Hk).
    rewrite (map_nth (fun c => if d =? 12 then c mod 2 ^ d mod 3329 else c mod 2 ^ d)). reflexivity.
  - apply Forall_map, Forall_forall. intros k Hk. apply in_seq in Hk.
    rewrite (Z.div_small (value d ms)).
    + rewrite (Z.mod_0_l (2 ^ d)) by (apply Z.pow_nonzero; lia). destruct (d =? 12); reflexivity.
    + pose proof (value_bound d ms ltac:(lia) Dm) as [B1 B2]. split; [exact B1|]. eapply Z.lt_le_trans; [exact B2|].
      apply pow_le. rewrite Lm. nia.
  - intros E. replace (m - n)%nat with 0%nat; [reflexivity|]. unfold m. rewrite L. fold n in E |- *.
    apply Z.div_exact in E; [|lia]. rewrite E.
    replace (8 * (d * Z.of_nat n / 8) + 7) with (7 + (d * Z.of_nat n / 8) * 8) by lia. rewrite Z.div_add by lia.
    change (7 / 8) with 0. rewrite Z.add_0_l, <- E, Z.mul_comm, Z.div_mul by lia. lia.
Qed.

Lemma value_fields V d n : 0 <= d ->
  value d (map (fun k => V / 2 ^ (d * Z.of_nat k) mod 2 ^ d) (seq 0 n)) = V mod 2 ^ (d * Z.of_nat n).
Proof.
  intros Hd. induction n as [|n IH]; [rewrite Z.mul_0_r; change (2 ^ 0) with 1; rewrite Z.mod_1_r; reflexivity|].
  rewrite seq_S, map_app, value_app, IH by lia. cbn [map value Nat.add]. rewrite map_length, seq_length.
  replace (d * Z.of_nat (S n)) with (d * Z.of_nat n + d) by lia. rewrite mod_split by lia. ring.
Qed.

(* packing what was unpacked, when the fields fill the bytes exactly and, for
   d = 12, no field was reduced *)
Theorem C106_round_trip_back : forall bytes d cs, 1 <= d <= 57 -> digits 8 bytes ->
  (8 * Z.of_nat (length bytes)) mod d = 0 ->
  (d = 12 -> forall k, value 8 bytes / 2 ^ (12 * Z.of_nat k) mod 2 ^ 12 < 3329) ->
  mlkem_byte_decode bytes d = Some cs ->
  mlkem_byte_encode cs d = bytes.
Proof.
  intros bytes d cs Hd D E H12 Ec. rewrite C106_decode in Ec by exact Hd. cbv zeta in Ec.
  replace (map (fun b => b mod 256) bytes) with bytes in Ec.
  2:{ symmetry. rewrite <- (map_id bytes) at 2. apply map_ext_in. intros b Hb. apply Z.mod_small.
      exact (proj1 (Forall_forall _ _) D b Hb). }
  set (n := Z.to_nat (8 * Z.of_nat (length bytes) / d)) in *.
  assert (En : d * Z.of_nat n = 8 * Z.of_nat (length bytes)).
  { apply Z.div_exact in E; [|lia]. unfold n. rewrite Z2Nat.id by (apply Z.div_pos; lia). lia. }
  assert (Ecs : cs = map (fun k => value 8 bytes / 2 ^ (d * Z.of_nat k) mod 2 ^ d) (seq 0 n)).
  { injection Ec as <-. apply map_ext. intros k. destruct (Z.eqb_spec d 12) as [->|]; [|reflexivity].
    apply Z.mod_small. split; [apply Z.mod_pos_bound; lia|]. apply H12. reflexivity. }
  assert (HP : 0 < 2 ^ d) by (apply Z.pow_pos_nonneg; lia).
  assert (Lc : length cs = n) by (rewrite Ecs, map_length, seq_length; reflexivity).
  destruct (encode_spec d cs ltac:(lia)) as (V & De & L).
  apply (value_inj 8); [lia|exact De|exact D| |].
  - apply Nat2Z.inj. rewrite L, Lc, En. replace (8 * Z.of_nat (length bytes) + 7) with (7 + Z.of_nat (length bytes) * 8) by lia.
    rewrite Z.div_add by lia. reflexivity.
  - rewrite V. replace (map (fun c => c mod 2 ^ d) cs) with cs.
    2:{ rewrite Ecs, map_map. apply map_ext. intros k. symmetry. apply Z.mod_mod. lia. }
    rewrite Ecs, value_fields by lia. rewrite En. apply Z.mod_small. apply value_bound; [lia|exact D].
Qed.

Example C106_pack_ex :
  mlkem_byte_encode [1; 2; -3; 1000] 10 = [1; 8; 208; 63; 250]
  /\ mlkem_byte_decode [1; 8; 208; 63; 250] 10 = Some [1; 2; 1021; 1000]
  /\ mlkem_byte_encode [5; 6; 7] 3 = [245; 1] /\ mlkem_byte_decode [245; 1] 3 = Some [5; 6; 7; 0; 0]
  /\ mlkem_byte_decode [255; 255; 255] 12 = Some [766; 766] /\ mlkem_byte_encode [766; 766] 12 <> [255; 255; 255]
  /\ (8 * Z.of_nat (length [1; 8; 208; 63; 250])) mod 10 = 0.
Proof. repeat split; try (vm_compute; reflexivity). vm_compute. discriminate. Qed.

(* the 64-bit accumulator can lose bits when d is larger *)
Theorem C106_encode_wide_refuted : exists coeffs d, 0 <= d < 63 /\
  value 8 (mlkem_byte_encode coeffs d) <> value d (map (fun c => c mod 2 ^ d) coeffs).
Proof.
  exists [0; 0; 0; 0; 0; 2 ^ 58], 59. split; [lia|]. vm_compute. discriminate.
Qed.
(* and a width of zero cannot be unpacked: it divides by zero *)
Theorem C106_decode_zero_refuted : exists bytes, mlkem_byte_decode bytes 0 = None.
Proof. exists []. reflexivity. Qed.

(* The Word16 forms give the same numbers, also for words that are not reduced *)
Theorem C106_word16 : forall ws d, 0 <= d <= 16 -> Forall (fun w => 0 <= w < 2 ^ 16) ws ->
  mlkem_byte_encode_w16 ws d = mlkem_byte_encode ws d
  /\ mlkem_compress_w16 ws d = mlkem_compress ws d
  /\ (d <= 11 -> digits d ws -> mlkem_decompress_w16 ws d = mlkem_decompress ws d).
Proof.
  intros ws d Hd Hw. split; [apply encode_w16_eq; lia|].
  assert (HP : 0 < 2 ^ d) by (apply Z.pow_pos_nonneg; lia).
  pose proof (pow_le d 16 ltac:(lia)) as HP2. change (2 ^ 16) with 65536 in HP2.
  split.
  - apply map_ext_in. intros w Hi. apply (proj1 (Forall_forall _ _) Hw) in Hi. cbv beta in Hi. change (2 ^ 16) with 65536 in Hi.
    rewrite compress_eq by lia. rewrite land_mask, Z.shiftl_mul_pow2 by lia.
    change Q with 3329. change (3329 / 2) with 1664.
    rewrite (u64_id (w * 2 ^ d)); [|change (2 ^ 64) with 18446744073709551616; nia].
    rewrite u64_id; [|change (2 ^ 64) with 18446744073709551616; nia].
    unfold u16. change (2 ^ 16) with 65536. rewrite (Z.mod_small (_ mod 2 ^ d)).
    2:{ pose proof (Z.mod_pos_bound ((w * 2 ^ d + 1664) / 3329) (2 ^ d) ltac:(lia)). lia. }
    rewrite (Z.div_mod w 3329) at 1 by lia.
    replace ((3329 * (w / 3329) + w mod 3329) * 2 ^ d + 1664) with ((w mod 3329 * 2 ^ d + 1664) + (w / 3329 * 2 ^ d) * 3329) by ring.
    rewrite Z.div_add by lia. rewrite Z.mod_add by lia. reflexivity.
  - intros Hd2 D. apply map_ext_in. intros w Hi. apply (proj1 (Forall_forall _ _) D) in Hi. cbv beta in Hi.
    rewrite decompress_eq by lia. rewrite Z.shiftr_div_pow2 by lia. change Q with 3329.
    assert (0 <= 2 ^ d / 2 <= 2 ^ d) by (split; [apply Z.div_pos; lia|apply Z.div_le_upper_bound; lia]).
    pose proof (pow_le d 11 ltac:(lia)) as HP3. change (2 ^ 11) with 2048 in HP3.
    rewrite (u64_id (w * 3329)); [|change (2 ^ 64) with 18446744073709551616; lia].
    rewrite u64_id; [|change (2 ^ 64) with 18446744073709551616; lia].
    apply Z.mod_small. split; [apply Z.div_pos; lia|]. apply Z.div_lt_upper_bound; [lia|]. change (2 ^ 16) with 65536. nia.
Qed.

Example C106_word16_ex :
  mlkem_compress_w16 [0; 3329; 5000; 65535] 4 = [0; 0; 8; 11] /\ mlkem_compress [0; 3329; 5000; 65535] 4 = [0; 0; 8; 11]
  /\ Forall (fun w => 0 <= w < 2 ^ 16) [0; 3329; 5000; 65535].
Proof. repeat split; try (vm_compute; reflexivity). repeat constructor; vm_compute; intuition discriminate. Qed.

Lemma some_inj {A} (x y : A) : Some x = Some y -> x = y.
Proof. congruence. Qed.

(* Each noise coefficient is the difference of two sums of [eta] consecutive
   bits; other buffer lengths panic *)
Theorem C106_noise : forall buf,
  let sum n k := fold_right Z.add 0 (map (buf_bit buf) (seq k n)) in
  (length buf = 128%nat ->
     mlkem_cbd2 buf = Some (map (fun c => sum 2%nat (4 * c)%nat - sum 2%nat (4 * c + 2)%nat) (seq 0 256)))
  /\ (length buf = 192%nat ->
     mlkem_cbd3 buf = Some (map (fun c => sum 3%nat (6 * c)%nat - sum 3%nat (6 * c + 3)%nat) (seq 0 256)))
  /\ (length buf <> 128%nat -> mlkem_cbd2 buf = None) /\ (length buf <> 192%nat -> mlkem_cbd3 buf = None)
  /\ (forall l, mlkem_cbd2 buf = Some l -> Forall (fun x => -2 <= x <= 2) l)
  /\ (forall l, mlkem_cbd3 buf = Some l -> Forall (fun x => -3 <= x <= 3) l).
Proof.
  intros buf sum.
  assert (A2 : length buf = 128%nat ->
     mlkem_cbd2 buf = Some (map (fun c => sum 2%nat (4 * c)%nat - sum 2%nat (4 * c + 2)%nat) (seq 0 256))).
  { intros L. rewrite cbd2_spec by exact L. f_equal. apply map_ext. intros c. unfold sum. cbn [seq map fold_right].
    rewrite !(Nat.add_comm (4 * c)). cbn [Nat.add]. lia. }
  assert (A3 : length buf = 192%nat ->
     mlkem_cbd3 buf = Some (map (fun c => sum 3%nat (6 * c)%nat - sum 3%nat (6 * c + 3)%nat) (seq 0 256))).
  { intros L. rewrite cbd3_spec by exact L. f_equal. apply map_ext. intros c. unfold sum. cbn [seq map fold_right].
    rewrite !(Nat.add_comm (6 * c)). cbn [Nat.add]. lia. }
  assert (N2 : length buf <> 128%nat -> mlkem_cbd2 buf = None).
  { intros L. unfold mlkem_cbd2, cbd_eta2. rewrite map_length. destruct (Nat.eqb_spec (length buf) 128); [contradiction|reflexivity]. }
  assert (N3 : length buf <> 192%nat -> mlkem_cbd3 buf = None).
  { intros L. unfold mlkem_cbd3, cbd_eta3. rewrite map_length. destruct (Nat.eqb_spec (length buf) 192); [contradiction|reflexivity]. }
  assert (R : forall k, 0 <= buf_bit buf k <= 1) by (intros k; apply b2z_range).
  repeat split; auto.
  - intros l E. destruct (Nat.eq_dec (length buf) 128) as [L|L]; [|rewrite N2 in E by exact L; discriminate].
    rewrite A2 in E by exact L. apply some_inj in E. rewrite <- E. clear E. apply Forall_map, Forall_forall. intros c _. unfold sum. cbn [seq map fold_right].
    pose proof (R (4 * c)%nat). pose proof (R (S (4 * c))). pose proof (R (4 * c + 2)%nat). pose proof (R (S (4 * c + 2))). lia.
  - intros l E. destruct (Nat.eq_dec (length buf) 192) as [L|L]; [|rewrite N3 in E by exact L; discriminate].
    rewrite A3 in E by exact L. apply some_inj in E. rewrite <- E. clear E. apply Forall_map, Forall_forall. intros c _. unfold sum. cbn [seq map fold_right].
    pose proof (R (6 * c)%nat). pose proof (R (S (6 * c))). pose proof (R (S (S (6 * c)))).
    pose proof (R (6 * c + 3)%nat). pose proof (R (S (6 * c + 3))). pose proof (R (S (S (6 * c + 3)))). lia.
Qed.

Example C106_noise_ex :
  option_map (firstn 8) (mlkem_cbd2 ([0x1b; 0xf3; 0x0c; 0x80] ++ repeat 0 124)) = Some [1; 1; 2; 0; -2; 0; 0; -1]
  /\ option_map (firstn 4) (mlkem_cbd3 ([0xc7; 0x0f; 0xe0] ++ repeat 0 189)) = Some [3; 0; 0; -3].
Proof. split; vm_compute; reflexivity. Qed.

(* Sampling takes the first 256 numbers below q among the twelve-bit digits of
   the stream, in order, and fails exactly when there are fewer *)
Definition sampled (want : nat) (stream : list Z) : option (list Z) :=
  let candidate k := value 8 stream / 2 ^ (12 * Z.of_nat k) mod 2 ^ 12 in
  let accepted := List.filter (fun c => c <? 3329) (map candidate (seq 0 (2 * (length stream / 3)))) in
  if (want <=? length accepted)%nat then Some (firstn want accepted) else None.

Theorem C106_sample : forall stream,
  mlkem_sample_ntt stream = sampled 256 (map (fun b => b mod 256) stream).
Proof.
  intros stream. unfold mlkem_sample_ntt, sampled. set (s := map _ stream).
  rewrite try_sample_spec by (cbn; lia). rewrite cands_digits by (apply (digits_mod 8); lia). reflexivity.
Qed.

(* every coefficient sampled is below q, and there are 256 *)
Theorem C106_sample_range : forall stream l, mlkem_sample_ntt stream = Some l ->
  length l = 256%nat /\ Forall (fun c => 0 <= c < 3329) l.
Proof.
  intros stream l. rewrite C106_sample. unfold sampled.
  set (acc := List.filter _ _). destruct (Nat.leb_spec 256 (length acc)) as [H1|H1]; [|discriminate].
  intros E. apply some_inj in E. rewrite <- E. clear E. split; [apply firstn_length_le; exact H1|].
  apply Forall_forall. intros c Hc.
  assert (Hi : In c acc) by (rewrite <- (firstn_skipn 256 acc); apply in_or_app; left; exact Hc).
  apply filter_In in Hi as [Hi Hq]. apply Z.ltb_lt in Hq. apply in_map_iff in Hi as (k & <- & _).
  split; [apply Z.mod_pos_bound; lia|exact Hq].
Qed.

(* Sampling block after block, by either block sampler, is sampling the blocks as
   one stream *)
Theorem C106_sample_blocks : forall squeeze n,
  (forall i, length (squeeze i) = 168%nat) -> (forall i, digits 8 (squeeze i)) ->
  sample_a reject_block squeeze n 0 [] = sampled 256 (concat (map squeeze (seq 0 n)))
  /\ sample_a reject_block_avx2 squeeze n 0 [] = sampled 256 (concat (map squeeze (seq 0 n))).
Proof.
  intros squeeze n Hs Hd.
  assert (A : sample_a reject_block squeeze n 0 [] = sampled 256 (concat (map squeeze (seq 0 n)))).
  { rewrite sample_a_spec by (auto; cbn; lia). unfold sampled. rewrite try_sample_spec by (cbn; lia).
    rewrite cands_digits; [reflexivity|]. apply Forall_concat, Forall_map, Forall_forall. intros i _. apply Hd. }
  split; [exact A|]. rewrite <- A. clear A.
  assert (G : forall fuel i out, (length out <= 256)%nat ->
    sample_a reject_block_avx2 squeeze fuel i out = sample_a reject_block squeeze fuel i out).
  { induction fuel as [|f IH]; intros i out Ho; [reflexivity|]. cbn [sample_a].
    assert (E : reject_block_avx2 out (squeeze i) = reject_block out (squeeze i)).
    { unfold reject_block_avx2. rewrite reject_groups_spec by (auto; rewrite Hs; reflexivity).
      rewrite reject_block_spec by exact Ho. reflexivity. }
    rewrite E. destruct (Nat.leb_spec 256 (length (reject_block out (squeeze i)))); [reflexivity|]. apply IH. lia. }
  apply G. cbn. lia.
Qed.

(* the vector block sampler is the scalar one, whatever was there before *)
Theorem C106_vector_block : forall out block, (length out <= 256)%nat -> length block = 168%nat -> digits 8 block ->
  reject_block_avx2 out block = reject_block out block.
Proof.
  intros out block Ho L D. unfold reject_block_avx2. rewrite reject_groups_spec by (auto; rewrite L; reflexivity).
  rewrite reject_block_spec by exact Ho. reflexivity.
Qed.

Definition ex_block (i : nat) : list Z :=
  map (fun k => (Z.of_nat k * 37 + Z.of_nat i * 11 + Z.of_nat k / 5) mod 256) (seq 0 168).
Example C106_sample_ex :
  length (reject_block [] (ex_block 0)) = 93%nat
  /\ reject_block_avx2 [] (ex_block 0) = reject_block [] (ex_block 0)
  /\ length (ex_block 3) = 168%nat
  /\ sample_a reject_block ex_block 2 0 [] = None
  /\ option_map (firstn 4) (sample_a reject_block_avx2 ex_block 4 0 []) = Some [1280; 1186; 1135; 2985].
Proof. repeat split; vm_compute; reflexivity. Qed.
