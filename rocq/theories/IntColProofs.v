(** Proofs about the integer-column codec of [IntColModel]. *)
From Coq Require Import ZArith List Lia.
From stdpp Require Import list.
From Verif Require Import MachInt WireModel WireProofs IntColModel.
Open Scope Z_scope.

(** * Bit packing *)
Definition bitat (out : list Z) (k : nat) : bool := Z.testbit (nth (k / 8) out 0) (Z.of_nat (k mod 8)).
Definition is_byte (b : Z) : Prop := 0 <= b < 256.

Lemma byte_testbit b j : is_byte b -> 8 <= j -> Z.testbit b j = false.
Proof.
  intros [B0 B1] J. destruct (Z.eq_dec b 0) as [->|N]; [apply Z.testbit_0_l|].
  apply Z.bits_above_log2; [lia|]. assert (Z.log2 b < 8) by (apply Z.log2_lt_pow2; lia). lia.
Qed.
Lemma testbit_byte b : 0 <= b -> (forall j, 8 <= j -> Z.testbit b j = false) -> is_byte b.
Proof.
  intros B0 H. split; [exact B0|]. destruct (Z.eq_dec b 0) as [->|N]; [lia|].
  destruct (Z.lt_ge_cases b 256) as [L|G]; [exact L|].
  assert (8 <= Z.log2 b) by (apply (Z.log2_le_pow2 b 8); lia).
  specialize (H (Z.log2 b) ltac:(lia)). rewrite Z.bit_log2 in H by lia. discriminate.
Qed.
Lemma ones_mask t : 0 <= t -> 2 ^ t - 1 = Z.ones t.
Proof. intros T. rewrite Z.ones_equiv. lia. Qed.
Lemma mask_bit x t j : 0 <= t -> 0 <= j -> Z.testbit (Z.land x (2 ^ t - 1)) j = Z.testbit x j && (j <? t).
Proof.
  intros T J. rewrite ones_mask by exact T. rewrite Z.land_spec. f_equal.
  destruct (Z.ltb_spec j t) as [L|G]; [apply Z.ones_spec_low; lia|apply Z.ones_spec_high; lia].
Qed.
Lemma mask_nonneg x t : 0 <= t -> 0 <= Z.land x (2 ^ t - 1).
Proof. intros T. apply Z.land_nonneg. right. pose proof (Z.pow_pos_nonneg 2 t). lia. Qed.
(** The piece written into a byte. *)
Lemma piece_bit bits off t j : 0 <= off -> 0 <= t -> off + t <= 8 -> 0 <= j ->
  Z.testbit (Z.shiftl (Z.land bits (2 ^ t - 1)) off mod 256) j = (off <=? j) && (j <? off + t) && Z.testbit bits (j - off).
Proof.
  intros O T OT J. change 256 with (2 ^ 8).
  destruct (Z.ltb_spec j 8) as [J8|J8].
  - rewrite Z.mod_pow2_bits_low by lia. rewrite Z.shiftl_spec by lia.
    destruct (Z.leb_spec off j) as [L|G]; cbn [andb].
    + rewrite mask_bit by lia. rewrite andb_comm. f_equal.
      destruct (Z.ltb_spec (j - off) t), (Z.ltb_spec j (off + t)); lia || reflexivity.
    + rewrite Z.testbit_neg_r by lia. reflexivity.
  - rewrite Z.mod_pow2_bits_high by lia. symmetry. apply andb_false_iff. left. apply andb_false_iff. right.
    apply Z.ltb_ge. lia.
Qed.
Lemma piece_byte x : is_byte (x mod 256). Proof. unfold is_byte. apply Z.mod_pos_bound. lia. Qed.

Lemma nth_alter {f : Z -> Z} {i j : nat} {l : list Z} : (i < length l)%nat ->
  nth j (alter f i l) 0 = if (j =? i)%nat then f (nth i l 0) else nth j l 0.
Proof.
  intros L. rewrite !nth_lookup. destruct (Nat.eqb_spec j i) as [->|N].
  - rewrite list_lookup_alter. destruct (lookup_lt_is_Some_2 l i L) as [x ->]. reflexivity.
  - rewrite list_lookup_alter_ne by congruence. reflexivity.
Qed.

Lemma lor_byte a b : is_byte a -> is_byte b -> is_byte (Z.lor a b).
Proof.
  intros A B. apply testbit_byte; [apply Z.lor_nonneg; unfold is_byte in *; lia|].
  intros j J. rewrite Z.lor_spec, (byte_testbit a), (byte_testbit b) by assumption. reflexivity.
Qed.

Lemma pack_bits_spec fuel : forall out bitpos bits remaining,
  (remaining <= fuel)%nat -> (bitpos + remaining <= 8 * length out)%nat -> Forall is_byte out ->
  exists out', pack_bits fuel out bitpos bits remaining = (out', (bitpos + remaining)%nat) /\
    length out' = length out /\ Forall is_byte out' /\
    forall k, bitat out' k = bitat out k || ((bitpos <=? k)%nat && (k <? bitpos + remaining)%nat && Z.testbit bits (Z.of_nat (k - bitpos))).
Proof.
  induction fuel as [|fuel IH]; intros out bitpos bits remaining F B BY; cbn [pack_bits].
  - exists out. replace (bitpos + remaining)%nat with bitpos by lia. split; [reflexivity|]. split; [reflexivity|].
    split; [exact BY|]. intros k. assert (E : (bitpos <=? k)%nat && (k <? bitpos)%nat = false).
    { destruct (Nat.leb_spec bitpos k), (Nat.ltb_spec k bitpos); try reflexivity. lia. }
    rewrite E. cbn [andb]. now rewrite orb_false_r.
  - destruct (Nat.eqb_spec remaining 0) as [->|N].
    + exists out. rewrite Nat.add_0_r. split; [reflexivity|]. split; [reflexivity|]. split; [exact BY|].
      intros k. assert (E : (bitpos <=? k)%nat && (k <? bitpos)%nat = false).
      { destruct (Nat.leb_spec bitpos k), (Nat.ltb_spec k bitpos); try reflexivity. lia. }
      rewrite E. cbn [andb]. now rewrite orb_false_r.
    + set (byte := (bitpos / 8)%nat). set (off := (bitpos mod 8)%nat). set (tk := Nat.min remaining (8 - off)).
      assert (OFF : (off < 8)%nat) by (apply Nat.mod_upper_bound; lia).
      assert (BP : bitpos = (8 * byte + off)%nat) by (apply Nat.div_mod; lia).
      assert (TK : (1 <= tk)%nat /\ (tk <= remaining)%nat /\ (off + tk <= 8)%nat) by (unfold tk; lia).
      assert (BL : (byte < length out)%nat) by lia.
      set (g := fun b => Z.lor b (Z.shiftl (Z.land bits (2 ^ Z.of_nat tk - 1)) (Z.of_nat off) mod 256)).
      destruct (IH (alter g byte out) (bitpos + tk)%nat (Z.shiftr bits (Z.of_nat tk)) (remaining - tk)%nat)
        as (out' & E & LEN & BY' & BITS).
      * lia.
      * rewrite alter_length. lia.
      * apply Forall_alter; [exact BY|]. intros x X HX. apply lor_byte; [exact HX|apply piece_byte].
      * exists out'. split; [rewrite E; f_equal; lia|]. split; [rewrite LEN; apply alter_length|]. split; [exact BY'|].
        intros k. rewrite BITS. unfold bitat at 1. rewrite nth_alter by exact BL.
        assert (KD : k = (8 * (k / 8) + k mod 8)%nat) by (apply Nat.div_mod; lia).
        assert (KM : (k mod 8 < 8)%nat) by (apply Nat.mod_upper_bound; lia).
        rewrite (Z.shiftr_spec bits) by lia.
        destruct (Nat.eqb_spec (k / 8) byte) as [KB|KB].
        -- unfold g at 1. rewrite Z.lor_spec, piece_bit by lia. rewrite <- KB. fold (bitat out k).
           rewrite <- orb_assoc. f_equal.
           destruct (Nat.leb_spec (bitpos + tk) k) as [A|A].
           ++ assert (E1 : (Z.of_nat (k mod 8) <? Z.of_nat off + Z.of_nat tk) = false) by (apply Z.ltb_ge; lia).
              rewrite E1, andb_false_r. cbn [andb orb].
              destruct (Nat.leb_spec bitpos k) as [A2|A2]; [|lia]. cbn [andb].
              replace (bitpos + tk + (remaining - tk))%nat with (bitpos + remaining)%nat by lia.
              f_equal. f_equal. lia.
           ++ cbn [andb]. rewrite orb_false_r.
              destruct (Nat.leb_spec bitpos k) as [A2|A2].
              ** assert (E1 : (Z.of_nat (k mod 8) <? Z.of_nat off + Z.of_nat tk) = true) by (apply Z.ltb_lt; lia).
                 assert (E2 : (Z.of_nat off <=? Z.of_nat (k mod 8)) = true) by (apply Z.leb_le; lia).
                 assert (E3 : (k <? bitpos + remaining)%nat = true) by (apply Nat.ltb_lt; lia).
                 rewrite E1, E2, E3. cbn [andb]. f_equal. lia.
              ** assert (E2 : (Z.of_nat off <=? Z.of_nat (k mod 8)) = false) by (apply Z.leb_gt; lia).
                 rewrite E2. reflexivity.
        -- fold (bitat out k). f_equal.
           replace (bitpos + tk + (remaining - tk))%nat with (bitpos + remaining)%nat by lia.
           destruct (Nat.leb_spec (bitpos + tk) k) as [A|A], (Nat.leb_spec bitpos k) as [A2|A2]; cbn [andb]; try lia; try reflexivity.
           f_equal. f_equal. lia.
Qed.

Lemma bitat_repeat k n : bitat (repeat 0 n) k = false.
Proof. unfold bitat. rewrite nth_repeat. apply Z.testbit_0_l. Qed.

Lemma pack_values_spec width vals : forall out bitpos,
  (bitpos + length vals * width <= 8 * length out)%nat -> Forall is_byte out ->
  (forall k, (bitpos <= k)%nat -> bitat out k = false) ->
  let out' := pack_values width out bitpos vals in
  length out' = length out /\ Forall is_byte out' /\
  (forall k, (k < bitpos)%nat -> bitat out' k = bitat out k) /\
  forall i j x, vals !! i = Some x -> (j < width)%nat -> bitat out' (bitpos + i * width + j) = Z.testbit x (Z.of_nat j).
Proof.
  induction vals as [|val vals IH]; intros out bitpos L BY Z0; cbn [pack_values].
  - split; [reflexivity|]. split; [exact BY|]. split; [reflexivity|]. intros i j x H. discriminate.
  - cbn [length] in L.
    destruct (pack_bits_spec width out bitpos val width) as (out1 & E & L1 & BY1 & B1); [lia|lia|exact BY|].
    rewrite E. cbv iota beta.
    destruct (IH out1 (bitpos + width)%nat) as (L2 & BY2 & LOW & HI); [lia|exact BY1| |].
    { intros k K. rewrite B1, Z0 by lia. cbn [orb].
      assert (E1 : (k <? bitpos + width)%nat = false) by (apply Nat.ltb_ge; lia). now rewrite E1, andb_false_r. }
    split; [congruence|]. split; [exact BY2|]. split.
    + intros k K. rewrite LOW by lia. rewrite B1. assert (E1 : (bitpos <=? k)%nat = false) by (apply Nat.leb_gt; lia).
      rewrite E1. cbn [andb]. apply orb_false_r.
    + intros i j x X J. destruct i as [|i].
      * cbn in X. injection X as <-. rewrite LOW by lia. rewrite B1, Z0 by lia. cbn [orb].
        assert (E1 : (bitpos <=? bitpos + 0 * width + j)%nat = true) by (apply Nat.leb_le; lia).
        assert (E2 : (bitpos + 0 * width + j <? bitpos + width)%nat = true) by (apply Nat.ltb_lt; lia).
        rewrite E1, E2. cbn [andb]. f_equal. lia.
      * cbn in X. rewrite <- (HI i j x X J). f_equal. lia.
Qed.

Lemma unpack_bits_spec fuel : forall bytes width val got bitpos,
  (width - got <= fuel)%nat -> (got <= width)%nat -> (width <= 64)%nat -> 0 <= val ->
  exists val', unpack_bits fuel bytes width val got bitpos = (val', (bitpos + (width - got))%nat) /\ 0 <= val' /\
    forall j : nat, Z.testbit val' (Z.of_nat j) =
      Z.testbit val (Z.of_nat j) || ((got <=? j)%nat && (j <? width)%nat && bitat bytes (bitpos + (j - got))).
Proof.
  induction fuel as [|fuel IH]; intros bytes width val got bitpos F G W V; cbn [unpack_bits].
  - exists val. replace (bitpos + (width - got))%nat with bitpos by lia. split; [reflexivity|]. split; [exact V|].
    intros j. assert (E : (got <=? j)%nat && (j <? width)%nat = false).
    { destruct (Nat.leb_spec got j), (Nat.ltb_spec j width); try reflexivity. lia. }
    rewrite E. cbn [andb]. now rewrite orb_false_r.
  - destruct (Nat.leb_spec width got) as [LE|GT].
    + exists val. replace (bitpos + (width - got))%nat with bitpos by lia. split; [reflexivity|]. split; [exact V|].
      intros j. assert (E : (got <=? j)%nat && (j <? width)%nat = false).
      { destruct (Nat.leb_spec got j), (Nat.ltb_spec j width); try reflexivity. lia. }
      rewrite E. cbn [andb]. now rewrite orb_false_r.
    + set (byte := (bitpos / 8)%nat). set (off := (bitpos mod 8)%nat). set (tk := Nat.min (width - got) (8 - off)).
      assert (OFF : (off < 8)%nat) by (apply Nat.mod_upper_bound; lia).
      assert (BP : bitpos = (8 * byte + off)%nat) by (apply Nat.div_mod; lia).
      assert (TK : (1 <= tk)%nat /\ (tk <= width - got)%nat /\ (off + tk <= 8)%nat) by (unfold tk; lia).
      set (piece := Z.land (Z.shiftr (nth byte bytes 0) (Z.of_nat off)) (2 ^ Z.of_nat tk - 1)).
      destruct (IH bytes width (Z.lor val (wrap64 (Z.shiftl piece (Z.of_nat got)))) (got + tk)%nat (bitpos + tk)%nat)
        as (val' & E & NN & BITS); [lia|lia|lia| |].
      { apply Z.lor_nonneg. split; [exact V|]. unfold wrap64. apply Z.mod_pos_bound. reflexivity. }
      exists val'. split; [rewrite E; f_equal; lia|]. split; [exact NN|].
      intros j. rewrite BITS, Z.lor_spec, <- orb_assoc. f_equal.
      assert (PB : Z.testbit (wrap64 (Z.shiftl piece (Z.of_nat got))) (Z.of_nat j) =
                   (got <=? j)%nat && (j <? got + tk)%nat && bitat bytes (bitpos + (j - got))).
      { unfold wrap64, two64. destruct (Nat.ltb_spec j 64) as [J|J].
        - rewrite Z.mod_pow2_bits_low by lia. rewrite Z.shiftl_spec by lia.
          destruct (Nat.leb_spec got j) as [A|A]; cbn [andb].
          + unfold piece. rewrite mask_bit by lia. rewrite Z.shiftr_spec by lia. rewrite andb_comm.
            destruct (Nat.ltb_spec j (got + tk)) as [B|B].
            * assert (E1 : (Z.of_nat j - Z.of_nat got <? Z.of_nat tk) = true) by (apply Z.ltb_lt; lia).
              rewrite E1. cbn [andb]. unfold bitat.
              assert (Q : (bitpos + (j - got) = byte * 8 + (off + (j - got)))%nat) by lia.
              rewrite Q. rewrite Nat.div_add_l by lia. rewrite (Nat.div_small (off + (j - got))) by lia.
              rewrite Nat.add_0_r. rewrite (Nat.add_comm (byte * 8)), Nat.mod_add by lia.
              rewrite Nat.mod_small by lia. f_equal. lia.
            * assert (E1 : (Z.of_nat j - Z.of_nat got <? Z.of_nat tk) = false) by (apply Z.ltb_ge; lia).
              rewrite E1. reflexivity.
          + apply Z.testbit_neg_r. lia.
        - rewrite Z.mod_pow2_bits_high by lia. symmetry. apply andb_false_iff. left. apply andb_false_iff. right.
          apply Nat.ltb_ge. lia. }
      rewrite PB.
      destruct (Nat.leb_spec (got + tk) j) as [A|A], (Nat.leb_spec got j) as [A2|A2],
        (Nat.ltb_spec j (got + tk)) as [A3|A3], (Nat.ltb_spec j width) as [A4|A4]; cbn [andb orb]; try lia; try reflexivity.
      * f_equal. lia.
      * apply orb_false_r.
Qed.

Lemma unpack_values_spec width bytes : (width <= 64)%nat -> forall vals bitpos,
  (forall i j x, vals !! i = Some x -> (j < width)%nat -> bitat bytes (bitpos + i * width + j) = Z.testbit x (Z.of_nat j)) ->
  Forall (fun x => 0 <= x < 2 ^ Z.of_nat width) vals ->
  unpack_values (length vals) bytes width bitpos = vals.
Proof.
  intros W. induction vals as [|x vals IH]; intros bitpos B R; cbn [length unpack_values]; [reflexivity|].
  inversion R as [|? ? RX RV]; subst.
  destruct (unpack_bits_spec width bytes width 0 0 bitpos) as (val & E & NN & BITS); [lia|lia|exact W|lia|].
  rewrite E. cbv iota beta. f_equal.
  - apply Z.bits_inj'. intros j J. rewrite <- (Z2Nat.id j J). rewrite BITS, Z.testbit_0_l. cbn [orb].
    rewrite Nat.sub_0_r. cbn [Nat.leb andb].
    destruct (Nat.ltb_spec (Z.to_nat j) width) as [L|G]; cbn [andb].
    + rewrite <- (B 0%nat (Z.to_nat j) x eq_refl L). f_equal. lia.
    + symmetry. destruct (Z.eq_dec x 0) as [->|N0]; [apply Z.testbit_0_l|].
      apply Z.bits_above_log2; [lia|]. assert (Z.log2 x < Z.of_nat width) by (apply Z.log2_lt_pow2; lia). lia.
  - apply IH; [|exact RV]. intros i j y Y J. rewrite <- (B (S i) j y Y J). f_equal. lia.
Qed.

Lemma div_ceil8_Z n : Z.of_nat (div_ceil8 n) = (Z.of_nat n + 7) / 8.
Proof. unfold div_ceil8. rewrite Nat2Z.inj_div, Nat2Z.inj_add. reflexivity. Qed.
Lemma div_ceil8_bound n : (n <= 8 * div_ceil8 n)%nat.
Proof. unfold div_ceil8. pose proof (Nat.div_mod (n + 7) 8). pose proof (Nat.mod_upper_bound (n + 7) 8). lia. Qed.
Lemma repeat_bytes n : Forall is_byte (repeat 0 n).
Proof. apply List.Forall_forall. intros x X. apply repeat_spec in X. subst. unfold is_byte. lia. Qed.

Lemma bitpack_props vals width : length (bitpack vals width) = (if (width =? 0)%nat then 0%nat else div_ceil8 (length vals * width)) /\ Forall is_byte (bitpack vals width).
Proof.
  unfold bitpack. destruct (Nat.eqb_spec width 0) as [->|N]; [split; [reflexivity|constructor]|].
  destruct (pack_values_spec width vals (repeat 0 (div_ceil8 (length vals * width))) 0) as (L & B & _).
  - rewrite repeat_length. pose proof (div_ceil8_bound (length vals * width)). lia.
  - apply repeat_bytes.
  - intros k _. apply bitat_repeat.
  - split; [now rewrite L, repeat_length|exact B].
Qed.

(** The values come back, for every width from 1 to 64. *)
Lemma bitunpack_bitpack vals width : (1 <= width <= 64)%nat -> Forall (fun x => 0 <= x < 2 ^ Z.of_nat width) vals ->
  len vals * Z.of_nat width < two64 ->
  bitunpack (bitpack vals width) (len vals) (Z.of_nat width) = Some vals.
Proof.
  intros W R L. unfold bitunpack.
  destruct (Z.eqb_spec (Z.of_nat width) 0) as [E|_]; [lia|].
  destruct (Z.ltb_spec 64 (Z.of_nat width)) as [E|_]; [lia|]. cbn [orb].
  destruct (Z.leb_spec two64 (len vals * Z.of_nat width)) as [E|_]; [lia|].
  destruct (bitpack_props vals width) as [LEN _].
  destruct (Nat.eqb_spec width 0) as [E|_]; [lia|].
  destruct (Z.ltb_spec (len (bitpack vals width)) ((len vals * Z.of_nat width + 7) / 8)) as [E|_].
  { unfold len in E. rewrite LEN, div_ceil8_Z, Nat2Z.inj_mul in E. lia. }
  f_equal. unfold len. rewrite !Nat2Z.id. apply unpack_values_spec; [lia| |exact R].
  intros i j x X J. unfold bitpack. destruct (Nat.eqb_spec width 0) as [E|_]; [lia|].
  destruct (pack_values_spec width vals (repeat 0 (div_ceil8 (length vals * width))) 0) as (_ & _ & _ & B).
  - rewrite repeat_length. pose proof (div_ceil8_bound (length vals * width)). lia.
  - apply repeat_bytes.
  - intros k _. apply bitat_repeat.
  - exact (B i j x X J).
Qed.
