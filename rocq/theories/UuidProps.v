(** C83: UUIDs. *)
From Coq Require Import ZArith List Bool Lia.
From Verif Require Import UuidModel UuidProofs UuidText.
Import ListNotations.
Local Open Scope Z_scope.
Local Ltac dlia := Z.div_mod_to_equations; lia.
Local Ltac split16 l E := do 16 (destruct l as [|? l]; [discriminate E|]); destruct l; [|discriminate E]; clear E.
Local Ltac split32 l E := do 32 (destruct l as [|? l]; [discriminate E|]); destruct l; [|discriminate E]; clear E.
Local Ltac split36 l E := do 36 (destruct l as [|? l]; [discriminate E|]); destruct l; [|discriminate E]; clear E.
Definition uuid (u : list Z) : Prop := length u = 16%nat /\ Forall byte u.

(** ** The layouts *)
Lemma uuid_fields : forall u, uuid u -> let x := from_be u in 0 <= x < 2 ^ 128 /\ 0 <= x / 2 ^ 80 < 2 ^ 48 /\
  x = fields (x / 2 ^ 80) (x / 2 ^ 76 mod 2 ^ 4) (x / 2 ^ 64 mod 2 ^ 12) (x / 2 ^ 62 mod 2 ^ 2) (x mod 2 ^ 62).
Proof.
  intros u [L B] x. pose proof (from_be_range u B) as R. rewrite L in R. change (256 ^ Z.of_nat 16) with (2 ^ 128) in R. fold x in R. split; [exact R|]. split; [split; [apply Z.div_pos; lia|apply Z.div_lt_upper_bound; lia]|apply fields_of].
Qed.
Lemma stamp_eq : forall u v, uuid u -> 0 <= v < 16 -> let x := from_be u in from_be (stamp u v) = fields (x / 2 ^ 80) v (x / 2 ^ 64 mod 2 ^ 12) 2 (x mod 2 ^ 62).
Proof.
  intros u v H Hv x. destruct (uuid_fields u H) as (R & A & E). fold x in R, A, E. eapply stamp_fields; [exact E|exact A|..]; try (apply Z.mod_pos_bound; lia). exact Hv.
Qed.
(** stamp sets the version and the variant and keeps the other 122 bits. *)
Theorem C83_stamp : forall u v, uuid u -> 0 <= v < 16 ->
  uuid (stamp u v) /\ version (stamp u v) = v /\ variant (stamp u v) = Rfc4122 /\
  forall i, 0 <= i < 128 -> ~ (76 <= i < 80) -> ~ (62 <= i < 64) -> Z.testbit (from_be (stamp u v)) i = Z.testbit (from_be u) i.
Proof.
  intros u v H Hv. pose proof (stamp_eq u v H Hv) as E. destruct (uuid_fields u H) as (R & A & F). cbv zeta in *.
  assert (M : forall z n, 0 < n -> 0 <= z mod n < n) by (intros; apply Z.mod_pos_bound; lia).
  split; [split; [apply stamp_length|apply stamp_byte]|]. split; [|split].
  - eapply version_fields; [apply stamp_length|apply stamp_byte|exact E|lia|apply M; lia|lia|apply M; lia].
  - eapply variant_fields; [apply stamp_length|apply stamp_byte|exact E|lia|apply M; lia|apply M; lia].
  - intros i Hi N1 N2. rewrite E, F. rewrite <- F at 1 2 3. set (x := from_be u) in *. unfold fields.
    rewrite !(testbit_split _ (x mod 2 ^ 62) 62 i) by (try apply M; lia). destruct (Z.ltb_spec i 62); [reflexivity|].
    rewrite !(testbit_split _ _ 2 (i - 62)) by (try apply M; lia). destruct (Z.ltb_spec (i - 62) 2); [lia|].
    rewrite !(testbit_split _ _ 12 (i - 62 - 2)) by (try apply M; lia). destruct (Z.ltb_spec (i - 62 - 2) 12); [reflexivity|].
    rewrite !(testbit_split _ _ 4 (i - 62 - 2 - 12)) by (try apply M; lia). destruct (Z.ltb_spec (i - 62 - 2 - 12) 4); [lia|reflexivity].
Qed.
(** Two stamped ids of one version are equal exactly when the inputs agree on those 122 bits. *)
Theorem C83_stamp_eq : forall u u' v, uuid u -> uuid u' -> 0 <= v < 16 ->
  stamp u v = stamp u' v <-> (forall i, 0 <= i < 128 -> ~ (76 <= i < 80) -> ~ (62 <= i < 64) -> Z.testbit (from_be u) i = Z.testbit (from_be u') i).
Proof.
  intros u u' v H H' Hv. destruct (C83_stamp u v H Hv) as (_ & _ & _ & B). destruct (C83_stamp u' v H' Hv) as (_ & _ & _ & B'). split.
  - intros E i Hi N1 N2. rewrite <- B, <- B' by assumption. rewrite E. reflexivity.
  - intros Q. apply from_be_inj; [rewrite !stamp_length; reflexivity|apply stamp_byte|apply stamp_byte|].
    pose proof (stamp_eq u v H Hv) as E. pose proof (stamp_eq u' v H' Hv) as E'. cbv zeta in *.
    destruct (uuid_fields u H) as (R & A & F). destruct (uuid_fields u' H') as (R' & A' & F'). cbv zeta in *. rewrite E, E'. clear E E' B B' F F' A A'.
    set (x := from_be u) in *. set (y := from_be u') in *.
    assert (T : forall k z, 0 <= k -> z < 0 \/ 128 <= z -> 0 <= k -> Z.testbit x z = Z.testbit y z).
    { intros k z Hk [Hz | Hz] _; [rewrite !Z.testbit_neg_r by lia; reflexivity|].
      assert (S : forall w, 0 <= w < 2 ^ 128 -> Z.testbit w z = false).
      { intros w Hw. destruct (Z.eq_dec w 0) as [-> | Nz]; [apply Z.testbit_0_l|]. apply Z.bits_above_log2; [lia|]. assert (Z.log2 w < 128) by (apply Z.log2_lt_pow2; lia). lia. }
      rewrite !S by assumption. reflexivity. }
    assert (E1 : x / 2 ^ 80 = y / 2 ^ 80).
    { rewrite <- !Z.shiftr_div_pow2 by lia. apply Z.bits_inj'. intros i Hi. rewrite !Z.shiftr_spec by lia. destruct (Z.lt_ge_cases (i + 80) 128); [apply Q; lia|apply (T 0); lia]. }
    assert (E2 : x / 2 ^ 64 mod 2 ^ 12 = y / 2 ^ 64 mod 2 ^ 12).
    { rewrite <- !Z.shiftr_div_pow2 by lia. apply Z.bits_inj'. intros i Hi. destruct (Z.lt_ge_cases i 12).
      - rewrite !Z.mod_pow2_bits_low by lia. rewrite !Z.shiftr_spec by lia. apply Q; lia.
      - rewrite !Z.mod_pow2_bits_high by lia. reflexivity. }
    assert (E3 : x mod 2 ^ 62 = y mod 2 ^ 62).
    { apply Z.bits_inj'. intros i Hi. destruct (Z.lt_ge_cases i 62).
      - rewrite !Z.mod_pow2_bits_low by lia. apply Q; lia.
      - rewrite !Z.mod_pow2_bits_high by lia. reflexivity. }
    rewrite E1, E2, E3. reflexivity.
Qed.
Lemma from_be2 : forall a b, from_be [a; b] = a * 256 + b.
Proof. reflexivity. Qed.
Lemma node_value : forall node, length node = 6%nat -> Forall byte node -> 0 <= from_be node < 2 ^ 48.
Proof. intros node L B. pose proof (from_be_range node B) as R. rewrite L in R. exact R. Qed.
Lemma clock : forall cs, 0 <= cs < 2 ^ 16 -> Forall byte [Z.shiftr cs 8; Z.land cs 255] /\ Z.shiftr cs 8 * 256 + Z.land cs 255 = cs.
Proof.
  intros cs H. rewrite Z.shiftr_div_pow2 by lia. change 255 with (2 ^ 8 - 1). rewrite land_ones' by lia. split; [repeat constructor; unfold byte; dlia|dlia].
Qed.
(** The 128 bits of versions 1, 6 and 7, from the top. *)
Theorem C83_v1 : forall ts cs node, 0 <= ts -> 0 <= cs < 2 ^ 16 -> length node = 6%nat -> Forall byte node ->
  from_be (new_v1 ts cs node) = (ts mod 2 ^ 32) * 2 ^ 96 + (ts / 2 ^ 32 mod 2 ^ 16) * 2 ^ 80 + 1 * 2 ^ 76 + (ts / 2 ^ 48 mod 2 ^ 12) * 2 ^ 64 + 2 * 2 ^ 62 + (cs mod 2 ^ 14) * 2 ^ 48 + from_be node.
Proof.
  intros ts cs node Ht Hc L B. pose proof (node_value node L B) as Hn. destruct (clock cs Hc) as [_ Ec]. unfold new_v1. cbv zeta. rewrite !Z.shiftr_div_pow2 in * by lia. rewrite !land_ones' by lia.
  set (t := ts mod 2 ^ 60). assert (Rt : 0 <= t < 2 ^ 60) by (subst t; apply Z.mod_pos_bound; lia).
  rewrite (stamp_fields _ 1 ((t mod 2 ^ 32) * 2 ^ 16 + t / 2 ^ 32 mod 2 ^ 16) 0 (t / 2 ^ 48 mod 2 ^ 12) (cs / 2 ^ 14) ((cs mod 2 ^ 14) * 2 ^ 48 + from_be node)); try dlia.
  - replace (t mod 2 ^ 32) with (ts mod 2 ^ 32) by (subst t; dlia). replace (t / 2 ^ 32 mod 2 ^ 16) with (ts / 2 ^ 32 mod 2 ^ 16) by (subst t; dlia).
    replace (t / 2 ^ 48 mod 2 ^ 12) with (ts / 2 ^ 48 mod 2 ^ 12) by (subst t; dlia). unfold fields. lia.
  - rewrite !from_be_app, !from_to_be, from_be2, !app_length, !to_be_length, L. cbn [length Nat.add]. rewrite Ec. unfold fields.
    change (256 ^ Z.of_nat 4) with (2 ^ 32). change (256 ^ Z.of_nat 2) with (2 ^ 16). change (256 ^ Z.of_nat 12) with (2 ^ 96). change (256 ^ Z.of_nat 10) with (2 ^ 80). change (256 ^ Z.of_nat 8) with (2 ^ 64). change (256 ^ Z.of_nat 6) with (2 ^ 48).
    rewrite !Z.mod_mod by lia. rewrite (Z.mod_small (t / 2 ^ 48 mod 2 ^ 12)) by dlia. dlia.
Qed.
Theorem C83_v6 : forall ts cs node, 0 <= ts -> 0 <= cs < 2 ^ 16 -> length node = 6%nat -> Forall byte node ->
  from_be (new_v6 ts cs node) = (ts mod 2 ^ 60 / 2 ^ 12) * 2 ^ 80 + 6 * 2 ^ 76 + (ts mod 2 ^ 12) * 2 ^ 64 + 2 * 2 ^ 62 + (cs mod 2 ^ 14) * 2 ^ 48 + from_be node.
Proof.
  intros ts cs node Ht Hc L B. pose proof (node_value node L B) as Hn. destruct (clock cs Hc) as [_ Ec]. unfold new_v6. cbv zeta. rewrite !Z.shiftr_div_pow2 in * by lia. rewrite !land_ones' by lia.
  set (t := ts mod 2 ^ 60). assert (Rt : 0 <= t < 2 ^ 60) by (subst t; apply Z.mod_pos_bound; lia).
  rewrite (stamp_fields _ 6 (t / 2 ^ 12) 0 (t mod 2 ^ 12) (cs / 2 ^ 14) ((cs mod 2 ^ 14) * 2 ^ 48 + from_be node)); try dlia.
  - replace (t mod 2 ^ 12) with (ts mod 2 ^ 12) by (subst t; dlia). unfold fields. lia.
  - rewrite !from_be_app, !from_to_be, from_be2, !app_length, !to_be_length, L. cbn [length Nat.add]. rewrite Ec. unfold fields.
    change (256 ^ Z.of_nat 4) with (2 ^ 32). change (256 ^ Z.of_nat 2) with (2 ^ 16). change (256 ^ Z.of_nat 12) with (2 ^ 96). change (256 ^ Z.of_nat 10) with (2 ^ 80). change (256 ^ Z.of_nat 8) with (2 ^ 64). change (256 ^ Z.of_nat 6) with (2 ^ 48).
    rewrite !Z.mod_mod by lia. rewrite (Z.mod_small (t mod 2 ^ 12)) by dlia. rewrite (Z.mod_small (t / 2 ^ 28)) by dlia. dlia.
Qed.
Theorem C83_v7 : forall ms r, 0 <= ms -> length r = 10%nat -> Forall byte r ->
  from_be (new_v7 ms r) = (ms mod 2 ^ 48) * 2 ^ 80 + 7 * 2 ^ 76 + (from_be r / 2 ^ 64 mod 2 ^ 12) * 2 ^ 64 + 2 * 2 ^ 62 + from_be r mod 2 ^ 62.
Proof.
  intros ms r Hm L B. pose proof (from_be_range r B) as R. rewrite L in R. change (256 ^ Z.of_nat 10) with (2 ^ 80) in R. unfold new_v7. rewrite land_ones' by lia.
  set (t := ms mod 2 ^ 48). assert (Rt : 0 <= t < 2 ^ 48) by (subst t; apply Z.mod_pos_bound; lia).
  change (skipn 2 (to_be 8 t)) with (to_be 6 t). set (x := from_be r) in *.
  rewrite (stamp_fields _ 7 t (x / 2 ^ 76 mod 2 ^ 4) (x / 2 ^ 64 mod 2 ^ 12) (x / 2 ^ 62 mod 2 ^ 2) (x mod 2 ^ 62)); try (apply Z.mod_pos_bound; lia); try lia.
  - unfold fields. lia.
  - rewrite from_be_app, from_to_be, L. fold x. change (256 ^ Z.of_nat 6) with (2 ^ 48). change (256 ^ Z.of_nat 10) with (2 ^ 80). rewrite Z.mod_small by lia. rewrite (fields_of x) at 1.
    replace (x / 2 ^ 80) with 0 by (symmetry; apply Z.div_small; lia). unfold fields. lia.
Qed.
(** Ids of versions 6 and 7 sort by time, whatever the rest. *)
Theorem C83_v6_order : forall t t' cs cs' node node', 0 <= t -> t < t' -> t' < 2 ^ 60 -> 0 <= cs < 2 ^ 16 -> 0 <= cs' < 2 ^ 16 -> length node = 6%nat -> Forall byte node -> length node' = 6%nat -> Forall byte node' ->
  lex_lt (new_v6 t cs node) (new_v6 t' cs' node') = true.
Proof.
  intros t t' cs cs' node node' H0 H1 H2 Hc Hc' L B L' B'. apply lex_from_be; [unfold new_v6; cbv zeta; rewrite !stamp_length; reflexivity|apply stamp_byte|apply stamp_byte|].
  rewrite !C83_v6 by (auto; lia). pose proof (node_value node L B). pose proof (node_value node' L' B').
  rewrite (Z.mod_small t (2 ^ 60)), (Z.mod_small t' (2 ^ 60)) by lia. dlia.
Qed.
Theorem C83_v7_order : forall ms ms' r r', 0 <= ms -> ms < ms' -> ms' < 2 ^ 48 -> length r = 10%nat -> Forall byte r -> length r' = 10%nat -> Forall byte r' ->
  lex_lt (new_v7 ms r) (new_v7 ms' r') = true.
Proof.
  intros ms ms' r r' H0 H1 H2 L B L' B'. apply lex_from_be; [unfold new_v7; rewrite !stamp_length; reflexivity|apply stamp_byte|apply stamp_byte|].
  rewrite !C83_v7 by (auto; lia). rewrite (Z.mod_small ms (2 ^ 48)), (Z.mod_small ms' (2 ^ 48)) by lia.
  pose proof (Z.mod_pos_bound (from_be r / 2 ^ 64) (2 ^ 12)). pose proof (Z.mod_pos_bound (from_be r' / 2 ^ 64) (2 ^ 12)). pose proof (Z.mod_pos_bound (from_be r) (2 ^ 62)). pose proof (Z.mod_pos_bound (from_be r') (2 ^ 62)). lia.
Qed.
(** Version 1 does not, and a time of 49 bits wraps. *)
Theorem C83_v1_order_refuted : exists t t', t < t' /\ lex_lt (new_v1 t' 0 [0; 0; 0; 0; 0; 0]) (new_v1 t 0 [0; 0; 0; 0; 0; 0]) = true.
Proof. exists (2 ^ 32 - 1), (2 ^ 32). split; [lia|vm_compute; reflexivity]. Qed.
Theorem C83_v7_wrap_refuted : exists ms ms' r, ms < ms' < 2 ^ 64 /\ lex_lt (new_v7 ms' r) (new_v7 ms r) = true.
Proof. exists 1, (2 ^ 48), (repeat 0 10). split; [lia|vm_compute; reflexivity]. Qed.

(** ** Text *)
(** [h] are 32 hexadecimal digits of either case spelling the bytes [u]. *)
Definition spells (h u : list Z) : Prop :=
  length h = 32%nat /\ length u = 16%nat /\
  forall i, (i < 16)%nat -> exists hi lo, hex_val (nth (2 * i) h 0) = Some hi /\ hex_val (nth (2 * i + 1) h 0) = Some lo /\ nth i u 0 = 16 * hi + lo.
Definition hyphenated (h : list Z) : list Z := range 0 8 h ++ [dash] ++ range 8 12 h ++ [dash] ++ range 12 16 h ++ [dash] ++ range 16 20 h ++ [dash] ++ range 20 32 h.
Definition lower_hex (c : Z) : Prop := 48 <= c <= 57 \/ 97 <= c <= 102.
Lemma hex_digit_val : forall n, 0 <= n < 16 -> hex_val (hex_digit n) = Some n /\ lower_hex (hex_digit n).
Proof.
  intros n H. unfold lower_hex. replace n with (Z.of_nat (Z.to_nat n)) by lia. assert (L : (Z.to_nat n < 16)%nat) by lia. revert L. generalize (Z.to_nat n). intros k L.
  do 16 (destruct k as [|k]; [split; [reflexivity|first [left; vm_compute; split; discriminate|right; vm_compute; split; discriminate]]|]). lia.
Qed.
(** Both implementations write the same text: hyphenated lower-case digits that spell the id. *)
Theorem C83_encode : forall simd u, uuid u -> exists h, encode_canonical simd u = hyphenated h /\ spells h u /\ Forall lower_hex h.
Proof.
  intros simd u [L B]. assert (E : encode_canonical simd u = encode_scalar u) by (destruct simd; [apply encode_agree; assumption|reflexivity]). rewrite E. clear E simd.
  exists (flat_map hex_pair u). split; [split16 u L; reflexivity|].
  assert (G : forall b, byte b -> 0 <= Z.shiftr b 4 < 16 /\ 0 <= Z.land b 15 < 16 /\ b = 16 * Z.shiftr b 4 + Z.land b 15).
  { intros b Hb. unfold byte in Hb. rewrite Z.shiftr_div_pow2 by lia. change 15 with (2 ^ 4 - 1). rewrite land_ones' by lia. dlia. }
  assert (N : forall l i, (i < length l)%nat -> nth (2 * i) (flat_map hex_pair l) 0 = hex_digit (Z.shiftr (nth i l 0) 4) /\ nth (2 * i + 1) (flat_map hex_pair l) 0 = hex_digit (Z.land (nth i l 0) 15)).
  { induction l as [|b l IH]; intros i Hi; [cbn in Hi; lia|]. destruct i as [|i]; [split; reflexivity|]. replace (2 * S i)%nat with (S (S (2 * i))) by lia. cbn [flat_map hex_pair app nth Nat.add]. apply IH. cbn in Hi. lia. }
  split.
  - split; [split16 u L; reflexivity|]. split; [exact L|]. intros i Hi. destruct (N u i) as [N1 N2]; [lia|]. rewrite N1, N2.
    assert (Hb : byte (nth i u 0)) by (rewrite Forall_forall in B; apply B; apply nth_In; lia). destruct (G _ Hb) as (R1 & R2 & R3).
    exists (Z.shiftr (nth i u 0) 4), (Z.land (nth i u 0) 15). split; [apply hex_digit_val; exact R1|]. split; [apply hex_digit_val; exact R2|exact R3].
  - apply Forall_forall. intros c Hc. apply in_flat_map in Hc as (b & Hb & Hc). rewrite Forall_forall in B. destruct (G b (B b Hb)) as (R1 & R2 & _).
    destruct Hc as [<- | [<- | []]]; apply hex_digit_val; assumption.
Qed.
Lemma hex_bytes_spec : forall h, Nat.even (length h) = true -> hex_bytes h = if forallb is_hex h then Some (join plain h) else None.
Proof.
  fix IH 1. intros [|a [|b r]] E; [reflexivity|discriminate|]. cbn [hex_bytes join forallb]. rewrite (IH r E).
  assert (Pa : is_hex a = match hex_val a with Some _ => true | None => false end) by reflexivity. assert (Pb : is_hex b = match hex_val b with Some _ => true | None => false end) by reflexivity.
  rewrite Pa, Pb. assert (Pp : plain a b = 16 * hex_decode a + hex_decode b) by reflexivity. rewrite Pp. unfold hex_decode. clear Pa Pb Pp.
  destruct (hex_val a) as [x|] eqn:Ea; [|reflexivity]. destruct (hex_val b) as [y|] eqn:Eb; [|reflexivity]. cbn [andb]. destruct (forallb is_hex r); [|reflexivity]. do 2 f_equal.
  pose proof (hex_small a) as Sa. pose proof (hex_small b) as Sb. unfold is_hex, hex_decode in Sa, Sb. rewrite Ea in Sa. rewrite Eb in Sb. apply lor_nibbles; auto.
Qed.
Lemma nth_join : forall f h i, (2 * i + 1 < length h)%nat -> nth i (join f h) 0 = f (nth (2 * i) h 0) (nth (2 * i + 1) h 0).
Proof.
  intros f. fix IH 1. intros [|a [|b r]] i H; [cbn in H; lia|cbn in H; lia|]. destruct i as [|i]; [reflexivity|]. replace (2 * S i)%nat with (S (S (2 * i))) by lia. cbn [join nth Nat.add]. apply IH. cbn in H. lia.
Qed.
Lemma spells_iff : forall h u, spells h u <-> length h = 32%nat /\ forallb is_hex h = true /\ u = join plain h.
Proof.
  intros h u. split.
  - intros (L & U & S). split; [exact L|]. split.
    + apply forallb_forall. intros c Hc. destruct (In_nth h c 0 Hc) as (n & Hn & <-). destruct (S (Nat.div2 n)) as (hi & lo & E1 & E2 & _); [rewrite Nat.div2_div; apply Nat.div_lt_upper_bound; lia|].
      unfold is_hex. destruct (Nat.Even_or_Odd n) as [Ev | Od].
      * rewrite <- (Nat.Even_double n Ev) in * || (apply Nat.Even_double in Ev; unfold Nat.double in Ev; replace (2 * Nat.div2 n)%nat with n in E1 by lia; rewrite E1; reflexivity).
      * apply Nat.Odd_double in Od. unfold Nat.double in Od. replace (2 * Nat.div2 n + 1)%nat with n in E2 by lia. rewrite E2. reflexivity.
    + apply (nth_ext _ _ 0 0).
      * rewrite U. clear -L. split32 h L. reflexivity.
      * intros n Hn. rewrite nth_join by lia. destruct (S n) as (hi & lo & E1 & E2 & ->); [lia|]. unfold plain, hex_decode. rewrite E1, E2. reflexivity.
  - intros (L & F & ->). split; [exact L|]. split; [clear F; split32 h L; reflexivity|]. intros i Hi. rewrite forallb_forall in F.
    assert (F1 : is_hex (nth (2 * i) h 0) = true) by (apply F, nth_In; lia). assert (F2 : is_hex (nth (2 * i + 1) h 0) = true) by (apply F, nth_In; lia).
    rewrite nth_join by lia. unfold plain, hex_decode. unfold is_hex in F1, F2.
    destruct (hex_val (nth (2 * i) h 0)) as [x|]; [|discriminate]. destruct (hex_val (nth (2 * i + 1) h 0)) as [y|]; [|discriminate]. exists x, y. auto.
Qed.
Lemma strip_hyphenated : forall h, length h = 32%nat -> length (hyphenated h) = 36%nat /\ dashes (hyphenated h) = true /\ strip (hyphenated h) = h.
Proof. intros h L. split32 h L. repeat split; reflexivity. Qed.
Lemma hyphenated_strip : forall b, length b = 36%nat -> dashes b = true -> hyphenated (strip b) = b.
Proof.
  intros b L D. unfold dashes in D. apply andb_true_iff in D as [D D4]. apply andb_true_iff in D as [D D3]. apply andb_true_iff in D as [D1 D2]. apply Z.eqb_eq in D1, D2, D3, D4.
  split36 b L. cbn [nth] in *. subst. reflexivity.
Qed.
Lemma strip_prefix_some : forall p s t, strip_prefix p s = Some t <-> s = p ++ t.
Proof.
  induction p as [|a p IH]; intros s t; cbn [strip_prefix app]; [split; [intros [= ->]; reflexivity|intros ->; reflexivity]|]. destruct s as [|b s]; [split; [discriminate|discriminate]|].
  destruct (Z.eqb_spec a b) as [-> | N]; [rewrite IH; split; [intros ->; reflexivity|intros [= ->]; reflexivity]|split; [discriminate|intros [= -> _]; congruence]].
Qed.
Lemma strip_suffix_some : forall p s t, strip_suffix p s = Some t <-> s = t ++ p.
Proof.
  intros p s t. unfold strip_suffix. destruct (strip_prefix (rev p) (rev s)) as [r|] eqn:E; cbn [option_map].
  - apply strip_prefix_some in E. apply (f_equal (@rev Z)) in E. rewrite rev_app_distr, !rev_involutive in E. subst s. split; [intros [= <-]; reflexivity|intros H; apply app_inv_tail in H; subst; reflexivity].
  - split; [discriminate|]. intros ->. rewrite rev_app_distr in E. assert (C : strip_prefix (rev p) (rev p ++ rev t) = Some (rev t)) by (apply strip_prefix_some; reflexivity). congruence.
Qed.
(** The accepted strings, after trimming: digits alone or hyphenated, maybe in braces, maybe behind the prefix in one case. *)
Inductive form (h : list Z) : list Z -> Prop :=
| form_intro pre body s : pre = [] \/ pre = urn \/ pre = urn_upper -> body = h \/ body = hyphenated h -> s = pre ++ body \/ s = pre ++ [123] ++ body ++ [125] -> form h s.
Lemma digits_spec : forall s h, digits s = Some h -> length h = 32%nat /\ (s = h \/ s = hyphenated h).
Proof.
  intros s h. unfold digits. destruct (Nat.eqb_spec (length s) 36) as [L | _].
  - destruct (dashes s) eqn:D; [|discriminate]. intros [= <-]. fold (strip s). split; [apply strip_length; exact L|right; symmetry; apply hyphenated_strip; assumption].
  - destruct (Nat.eqb_spec (length s) 32) as [L | _]; [|discriminate]. intros [= <-]. auto.
Qed.
Lemma digits_of : forall h body, length h = 32%nat -> body = h \/ body = hyphenated h -> digits body = Some h.
Proof.
  intros h body L [-> | ->]; unfold digits; [rewrite L; reflexivity|]. destruct (strip_hyphenated h L) as (L1 & D & S). rewrite L1, D. cbn [Nat.eqb]. f_equal. exact S.
Qed.
Theorem C83_parse : forall s u, parse false s = Some u <-> exists h, spells h u /\ form h s.
Proof.
  intros s u. split.
  - unfold parse. destruct (Nat.eqb_spec (length s) 36) as [L | L].
    + unfold parse_canonical. destruct (dashes s) eqn:D; [|discriminate]. rewrite decode_scalar_spec by exact L. destruct (forallb is_hex (strip s)) eqn:F; [|discriminate]. intros [= <-].
      exists (strip s). split; [apply spells_iff; split; [apply strip_length; exact L|auto]|]. eapply (form_intro _ []); [auto|right; reflexivity|left]. symmetry. apply hyphenated_strip; assumption.
    + cbv zeta. intros H.
      assert (P1 : exists pre t, (pre = [] \/ pre = urn \/ pre = urn_upper) /\ s = pre ++ t /\ or_self (match strip_prefix urn s with Some t => Some t | None => strip_prefix urn_upper s end) s = t).
      { destruct (strip_prefix urn s) as [t|] eqn:E1; [apply strip_prefix_some in E1; exists urn, t; auto|]. destruct (strip_prefix urn_upper s) as [t|] eqn:E2; [apply strip_prefix_some in E2; exists urn_upper, t; auto|]. exists [], s. auto. }
      destruct P1 as (pre & t & Hp & Es & Et). rewrite Et in H.
      assert (P2 : exists body, (t = body \/ t = [123] ++ body ++ [125]) /\ or_self (match strip_prefix [123] t with Some t => strip_suffix [125] t | None => None end) t = body).
      { destruct (strip_prefix [123] t) as [r|] eqn:E1; [|exists t; auto]. apply strip_prefix_some in E1. destruct (strip_suffix [125] r) as [q|] eqn:E2; [|exists t; auto]. apply strip_suffix_some in E2. exists q. subst. auto. }
      destruct P2 as (body & Hb & Eb). rewrite Eb in H. destruct (digits body) as [h|] eqn:Dg; [|discriminate]. destruct (digits_spec _ _ Dg) as (Lh & Hh).
      rewrite hex_bytes_spec in H by (rewrite Lh; reflexivity). destruct (forallb is_hex h) eqn:F; [|discriminate]. injection H as <-.
      exists h. split; [apply spells_iff; auto|]. apply (form_intro h pre body s Hp Hh). destruct Hb as [-> | ->]; auto.
  - intros (h & S & [pre body s' Hp Hb Hs]). apply spells_iff in S as (L & F & ->). destruct (strip_hyphenated h L) as (L1 & D & St).
    assert (Lb : length body = 32%nat \/ length body = 36%nat) by (destruct Hb as [-> | ->]; auto).
    assert (R : forall c r, body = c :: r -> is_hex c = true).
    { intros c r E. assert (In c h); [|rewrite forallb_forall in F; auto]. destruct Hb as [-> | ->]; [rewrite E; left; reflexivity|]. clear -E L. split32 h L. injection E as <- _. left. reflexivity. }
    destruct (Nat.eq_dec (length s') 36) as [Q | Q].
    + assert (E : s' = hyphenated h).
      { destruct Hb as [-> | ->], Hp as [-> | [-> | ->]], Hs as [-> | ->]; rewrite ?app_length in Q; cbn [length urn urn_upper app] in Q; rewrite ?app_length in Q; cbn [length] in Q; try lia; reflexivity. }
      unfold parse. rewrite Q. cbn [Nat.eqb]. rewrite E. unfold parse_canonical. rewrite D. rewrite decode_scalar_spec by exact L1. rewrite St, F. reflexivity.
    + unfold parse. rewrite (proj2 (Nat.eqb_neq _ _) Q). cbv zeta.
      assert (X1 : forall t, (t = body \/ t = [123] ++ body ++ [125]) -> strip_prefix urn t = None /\ strip_prefix urn_upper t = None).
      { intros t Ht. assert (N : forall c r, t = c :: r -> is_hex c = true \/ c = 123).
        { intros c r E. destruct Ht as [-> | ->]; [left; exact (R c r E)|injection E as <- _; auto]. }
        assert (G : forall p q, is_hex p = false -> p <> 123 -> strip_prefix (p :: q) t = None).
        { intros p q Hp1 Hp2. destruct (strip_prefix (p :: q) t) as [r|] eqn:E; [|reflexivity]. apply strip_prefix_some in E. destruct (N p (q ++ r) E) as [C | C]; congruence. }
        split; apply G; (reflexivity || discriminate). }
      assert (X2 : exists t, (t = body \/ t = [123] ++ body ++ [125]) /\ or_self (match strip_prefix urn s' with Some t => Some t | None => strip_prefix urn_upper s' end) s' = t).
      { destruct Hs as [-> | ->]; [exists body|exists ([123] ++ body ++ [125])]; (split; [auto|]); destruct Hp as [-> | [-> | ->]].
        - cbn [app]. destruct (X1 body) as [-> ->]; auto.
        - rewrite (proj2 (strip_prefix_some urn (urn ++ body) body) eq_refl). reflexivity.
        - rewrite (proj2 (strip_prefix_some urn_upper (urn_upper ++ body) body) eq_refl). reflexivity.
        - cbn [app]. destruct (X1 ([123] ++ body ++ [125])) as [A B]; [auto|]. cbn [app] in A, B. rewrite A, B. reflexivity.
        - rewrite (proj2 (strip_prefix_some urn (urn ++ ([123] ++ body ++ [125])) _) eq_refl). reflexivity.
        - rewrite (proj2 (strip_prefix_some urn_upper (urn_upper ++ ([123] ++ body ++ [125])) _) eq_refl). reflexivity. }
      destruct X2 as (t & Ht & ->).
      assert (X3 : or_self (match strip_prefix [123] t with Some t => strip_suffix [125] t | None => None end) t = body).
      { destruct Ht as [-> | ->].
        - destruct (strip_prefix [123] body) as [r|] eqn:E; [|reflexivity]. apply strip_prefix_some in E. specialize (R _ _ E). discriminate.
        - rewrite (proj2 (strip_prefix_some [123] _ (body ++ [125])) eq_refl). rewrite (proj2 (strip_suffix_some [125] _ body) eq_refl). reflexivity. }
      rewrite X3, (digits_of h body L Hb), hex_bytes_spec by (rewrite L; reflexivity). rewrite F. reflexivity.
Qed.
(** The SSSE3 code reads the same ids from the strings without the control characters 16 to 25, and accepts no fewer. *)
Theorem C83_simd : forall s, Forall byte s -> forallb (fun c => negb (control c)) s = true -> parse true s = parse false s.
Proof.
  intros s B N. unfold parse. destruct (Nat.eqb_spec (length s) 36) as [L | L]; [|reflexivity]. rewrite !canonical_spec by assumption. unfold accepts, made.
  assert (N' : forallb (fun c => negb (control c)) (strip s) = true).
  { apply forallb_forall. rewrite forallb_forall in N. pose proof (strip_Forall (fun c => negb (control c) = true) s) as F. rewrite !Forall_forall in F. intros c Hc. apply F; auto. }
  rewrite fine_hex by exact N'. destruct (forallb is_hex (strip s)) eqn:F; [|rewrite !andb_false_r; reflexivity]. rewrite simd_bytes_plain; auto; [apply strip_length; exact L|apply strip_Forall; exact B].
Qed.
Theorem C83_simd_more : forall s u, Forall byte s -> parse false s = Some u -> parse true s = Some u.
Proof.
  intros s u B. unfold parse. destruct (Nat.eqb_spec (length s) 36) as [L | L]; [|auto]. rewrite !canonical_spec by assumption. unfold accepts, made.
  destruct (dashes s); [|discriminate]. cbn [andb]. destruct (forallb is_hex (strip s)) eqn:F; [|discriminate]. rewrite hex_fine by exact F. rewrite simd_bytes_plain; auto; [apply strip_length; exact L|apply strip_Forall; exact B].
Qed.
(** It takes a control character for a digit: its result for this string is an id, where the portable code has none. *)
Definition bad_text : list Z := [17] ++ repeat 48 7 ++ [45] ++ repeat 48 4 ++ [45] ++ repeat 48 4 ++ [45] ++ repeat 48 4 ++ [45] ++ repeat 48 12.
Theorem C83_simd_refuted : exists s u, Forall byte s /\ parse true s = Some u /\ parse false s = None.
Proof.
  exists bad_text, ([16] ++ repeat 0 15). split; [|split; reflexivity]. unfold bad_text, byte. repeat constructor; lia.
Qed.
(** The prefix is not case-insensitive. *)
Theorem C83_prefix_refuted : exists h u, spells h u /\ forall simd, parse simd ([85; 114; 110; 58; 117; 117; 105; 100; 58] ++ h) = None /\ parse simd (urn ++ h) = Some u.
Proof. exists (repeat 48 32), (repeat 0 16). split; [apply spells_iff; repeat split; reflexivity|]. intros []; split; reflexivity. Qed.
(** Reading back what was written. *)
Lemma encode_bytes : forall simd u, uuid u -> length (encode_canonical simd u) = 36%nat /\ Forall byte (encode_canonical simd u) /\ forallb (fun c => negb (control c)) (encode_canonical simd u) = true.
Proof.
  intros simd u H. destruct (C83_encode simd u H) as (h & -> & (L & _) & F). split; [apply strip_hyphenated; exact L|].
  assert (G : Forall (fun c => byte c /\ control c = false) (hyphenated h)).
  { assert (F' : Forall (fun c => byte c /\ control c = false) h).
    { apply Forall_forall. intros c Hc. rewrite Forall_forall in F. specialize (F c Hc). unfold lower_hex, byte, control in *. lia. }
    assert (D : byte dash /\ control dash = false) by (unfold byte, dash; split; [lia|reflexivity]).
    unfold hyphenated. repeat (first [apply Forall_app; split | apply Forall_range; exact F' | constructor; [exact D|constructor]]). }
  split; [|apply forallb_forall; intros c Hc]; rewrite Forall_forall in G; [apply Forall_forall; intros c Hc; apply G; exact Hc|rewrite (proj2 (G c Hc)); reflexivity].
Qed.
Theorem C83_round : forall simd simd' u, uuid u -> parse simd (encode_canonical simd' u) = Some u.
Proof.
  intros simd simd' u H. destruct (encode_bytes simd' u H) as (L & B & N).
  assert (P : parse false (encode_canonical simd' u) = Some u).
  { apply C83_parse. destruct (C83_encode simd' u H) as (h & E & S & _). exists h. split; [exact S|]. rewrite E. apply (form_intro h [] (hyphenated h)); auto. }
  destruct simd; [rewrite C83_simd by assumption|]; exact P.
Qed.
(** ** Many at once *)
Lemma batch_spec : forall rs acc tb db out, Forall (fun r => length r = 36%nat /\ Forall byte r) rs -> length acc = 16%nat -> Forall (fun m => m = 0 \/ m = 255) acc -> entry tb ->
  let '(acc', tb', db', out') := fold_left (fun '(acc, tb, db, out) b =>
      (and_si128 acc (snd (decode_core b)), Z.lor tb (tail_bits b),
       Z.lor db (Z.lor (Z.lor (Z.lor (Z.lxor (nth 8 b 0) dash) (Z.lxor (nth 13 b 0) dash)) (Z.lxor (nth 18 b 0) dash)) (Z.lxor (nth 23 b 0) dash)), out ++ [fst (decode_core b)])) rs (acc, tb, db, out) in
  (db' =? 0) && (tb' <? 16) && movemask_full acc' = ((db =? 0) && (tb <? 16) && movemask_full acc) && forallb (fun b => dashes b && fine (strip b)) rs /\ out' = out ++ map (fun b => simd_bytes (strip b)) rs.
Proof.
  induction rs as [|b rs IH]; intros acc tb db out H La Fa Et; [cbn [fold_left forallb map]; rewrite andb_true_r, app_nil_r; auto|]. cbn [fold_left].
  apply Forall_cons_iff in H as [[L B] H].
  assert (Lm : length (snd (decode_core b)) = 16%nat) by (rewrite decode_core_spec by assumption; clear; reflexivity).
  assert (Fm : Forall (fun m => m = 0 \/ m = 255) (snd (decode_core b))).
  { rewrite decode_core_spec by assumption. cbn [snd]. assert (G : forall l k, Forall byte l -> Forall byte k -> Forall (fun m => m = 0 \/ m = 255) (zip_with Z.land (map lane_ok l) (map lane_ok k))).
    { induction l as [|x l IHl]; intros [|y k] Hl Hk; try constructor. apply Forall_cons_iff in Hl as [Hx Hl]. apply Forall_cons_iff in Hk as [Hy Hk]; cbn [map zip_with].
      - rewrite !lane_ok_spec by (assumption || (apply Forall_cons_iff in Hk as [? ?]; assumption)). destruct (is_hex x || control x), (is_hex y || control y); cbn; auto.
      - apply Forall_cons_iff in Hl as [Hx Hl]. apply Forall_cons_iff in Hk as [Hy Hk]. apply IHl; assumption. }
    apply G; apply shuffle_byte, Forall_range, B. }
  assert (A2 : forall a m, length a = length m -> Forall (fun m => m = 0 \/ m = 255) a -> Forall (fun m => m = 0 \/ m = 255) m ->
     length (and_si128 a m) = length a /\ Forall (fun m => m = 0 \/ m = 255) (and_si128 a m) /\ movemask_full (and_si128 a m) = movemask_full a && movemask_full m).
  { clear. induction a as [|x a IHa]; intros [|y m] L Ha Hm; try discriminate; [repeat split; constructor|]. injection L as L. apply Forall_cons_iff in Ha as [Hx Ha]. apply Forall_cons_iff in Hm as [Hy Hm].
    destruct (IHa m L Ha Hm) as (I1 & I2 & I3). unfold and_si128, movemask_full in *. cbn [zip_with length forallb]. rewrite I1, I3. split; [reflexivity|]. split.
    - constructor; [|exact I2]. destruct Hx as [-> | ->], Hy as [-> | ->]; cbn; auto.
    - destruct Hx as [-> | ->], Hy as [-> | ->]; cbn; rewrite ?andb_false_r; reflexivity. }
  destruct (A2 acc (snd (decode_core b))) as (I1 & I2 & I3); [congruence|exact Fa|exact Fm|].
  destruct (tail_spec b L) as [Eb Sb]. destruct (entry_lor _ _ Et Eb) as [E2 S2].
  set (d := Z.lor (Z.lor (Z.lor (Z.lxor (nth 8 b 0) dash) (Z.lxor (nth 13 b 0) dash)) (Z.lxor (nth 18 b 0) dash)) (Z.lxor (nth 23 b 0) dash)) in *.
  specialize (IH (and_si128 acc (snd (decode_core b))) (Z.lor tb (tail_bits b)) (Z.lor db d) (out ++ [fst (decode_core b)]) H ltac:(congruence) I2 E2).
  destruct (fold_left _ rs _) as [[[acc' tb'] db'] out']. destruct IH as [H1 H2]. split.
  - rewrite H1, I3, S2, Sb. rewrite (mask_core b L B).
    assert (Dd : (Z.lor db d =? 0) = (db =? 0) && dashes b).
    { assert (D0 : (d =? 0) = dashes b).
      { unfold d, dashes. assert (X : forall x y, (Z.lor x y =? 0) = (x =? 0) && (y =? 0)).
        { intros x y. destruct (Z.eqb_spec (Z.lor x y) 0) as [E | E]; [apply Z.lor_eq_0_iff in E as [-> ->]; reflexivity|]. destruct (Z.eqb_spec x 0) as [-> | Nx], (Z.eqb_spec y 0) as [-> | Ny]; try reflexivity. exfalso. apply E. reflexivity. }
        assert (Y : forall x, (Z.lxor x dash =? 0) = (x =? dash)).
        { intros x. destruct (Z.eqb_spec (Z.lxor x dash) 0) as [E | E]; [apply Z.lxor_eq in E; rewrite E; reflexivity|]. destruct (Z.eqb_spec x dash) as [-> | N]; [|reflexivity]. exfalso. apply E. apply Z.lxor_nilpotent. }
        rewrite !X, !Y. reflexivity. }
      rewrite <- D0. destruct (Z.eqb_spec (Z.lor db d) 0) as [E | E]; [apply Z.lor_eq_0_iff in E as [-> ->]; reflexivity|]. destruct (Z.eqb_spec db 0) as [-> | Nx], (Z.eqb_spec d 0) as [-> | Ny]; try reflexivity. exfalso. apply E. reflexivity. }
    rewrite Dd. cbn [forallb]. unfold fine at 2. destruct (db =? 0), (tb <? 16), (movemask_full acc), (dashes b), (forallb ok (firstn 28 (strip b))), (forallb is_hex (skipn 28 (strip b))); reflexivity.
  - rewrite H2, <- app_assoc. cbn [app map]. do 2 f_equal. rewrite decode_core_spec by assumption. reflexivity.
Qed.
Lemma map_option_spec : forall {A B} (f : A -> option B) l r, map_option f l = Some r <-> Forall2 (fun a b => f a = Some b) l r.
Proof.
  intros A B f. induction l as [|a l IH]; intros r; cbn [map_option].
  - split; [intros [= <-]; constructor|intros H; inversion H; reflexivity].
  - destruct (f a) as [b|] eqn:E.
    + destruct (map_option f l) as [q|] eqn:Q.
      * split; [intros [= <-]; constructor; [exact E|apply IH; reflexivity]|]. intros H. inversion H as [|? ? ? ? E1 H1]; subst. apply IH in H1. congruence.
      * split; [discriminate|]. intros H. inversion H as [|? ? ? ? E1 H1]; subst. apply IH in H1. congruence.
    + split; [discriminate|]. intros H. inversion H; subst. congruence.
Qed.
Lemma batch_records : forall rs, Forall (fun r => length r = 36%nat /\ Forall byte r) rs -> parse_batch rs = map_option (parse_canonical true) rs.
Proof.
  intros rs H. unfold parse_batch. pose proof (batch_spec rs (set1 255) 0 0 [] H eq_refl) as G.
  assert (F255 : Forall (fun m => m = 0 \/ m = 255) (set1 255)) by (apply Forall_forall; intros m Hm; apply repeat_spec in Hm; right; exact Hm).
  specialize (G F255 (or_introl (conj (Z.le_refl 0) eq_refl))). destruct (fold_left _ rs _) as [[[acc tb] db] out]. destruct G as [G1 G2]. rewrite G1, G2. clear G1 G2.
  change ((0 =? 0) && (0 <? 16) && movemask_full (set1 255)) with true. cbn [andb app].
  induction H as [|b rs [L B] H IH]; [reflexivity|]. cbn [forallb map_option map]. rewrite canonical_spec by assumption. unfold accepts, made. destruct (dashes b && fine (strip b)); cbn [andb]; [|reflexivity].
  rewrite <- IH. destruct (forallb _ rs); reflexivity.
Qed.
Lemma records_concat : forall rs, Forall (fun r => length r = 36%nat) rs -> length (concat rs) = (36 * length rs)%nat /\ forall n, n = length rs -> records n (concat rs) = rs.
Proof.
  induction 1 as [|r rs L H [IH1 IH2]]; [split; [reflexivity|intros n ->; reflexivity]|]. split; [cbn [concat length]; rewrite app_length, L, IH1; lia|].
  intros n ->. cbn [length records concat]. rewrite firstn_app, skipn_app, L. rewrite firstn_all2 by lia. rewrite (skipn_all2 r) by lia. cbn [Nat.sub firstn skipn app]. rewrite app_nil_r. f_equal. apply IH2. reflexivity.
Qed.
Lemma concat_records : forall n l, length l = (36 * n)%nat -> concat (records n l) = l /\ length (records n l) = n /\ Forall (fun r => length r = 36%nat) (records n l).
Proof.
  induction n as [|n IH]; intros l E; [destruct l; [repeat constructor|discriminate]|]. cbn [records concat length].
  destruct (IH (skipn 36 l)) as (I1 & I2 & I3); [rewrite skipn_length; lia|]. rewrite I1, I2, firstn_skipn. split; [reflexivity|]. split; [reflexivity|]. constructor; [rewrite firstn_length; lia|exact I3].
Qed.
(** parse_many splits into records of 36 bytes, at least one, and parses each. *)
Theorem C83_many : forall simd packed ids, Forall byte packed ->
  parse_many simd packed = Some ids <-> exists rs, rs <> [] /\ packed = concat rs /\ Forall (fun r => length r = 36%nat) rs /\ Forall2 (fun r u => parse simd r = Some u) rs ids.
Proof.
  intros simd packed ids B.
  assert (C : forall rs, Forall (fun r => length r = 36%nat) rs -> Forall byte (concat rs) -> (if simd then parse_batch rs else map_option (parse_canonical simd) rs) = map_option (parse simd) rs).
  { intros rs HL HB. assert (HR : Forall (fun r => length r = 36%nat /\ Forall byte r) rs).
    { apply Forall_forall. intros r Hr. rewrite Forall_forall in HL. split; [auto|]. apply Forall_forall. intros c Hc. rewrite Forall_forall in HB. apply HB. apply in_concat. exists r. auto. }
    assert (E : map_option (parse simd) rs = map_option (parse_canonical simd) rs).
    { clear -HL. induction HL as [|r rs L H IH]; [reflexivity|]. cbn [map_option]. rewrite IH. unfold parse. rewrite L. reflexivity. }
    rewrite E. destruct simd; [apply batch_records; exact HR|reflexivity]. }
  unfold parse_many. split.
  - destruct packed as [|c packed]; [discriminate|]. set (p := c :: packed) in *. cbn [orb]. destruct (Nat.eqb_spec (length p mod 36) 0) as [M | M]; [|discriminate]. cbn [negb]. cbv zeta.
    assert (L : length p = (36 * (length p / 36))%nat) by (pose proof (Nat.div_mod (length p) 36); lia).
    destruct (concat_records _ _ L) as (R1 & R2 & R3). intros H. exists (records (length p / 36) p). split; [intros E; rewrite E in R1; discriminate R1|]. split; [symmetry; exact R1|]. split; [exact R3|].
    apply map_option_spec. rewrite <- H. symmetry. apply C; [exact R3|rewrite R1; exact B].
  - intros (rs & N & -> & HL & H2). destruct (records_concat rs HL) as [L R]. destruct rs as [|r rs]; [congruence|].
    assert (Q : concat (r :: rs) <> []) by (intros E; rewrite E in L; cbn in L; lia). destruct (concat (r :: rs)) as [|c l] eqn:Ec; [congruence|]. rewrite <- Ec in *. cbn [orb].
    rewrite L. rewrite (Nat.mul_comm 36), Nat.mod_mul by lia. cbn [Nat.eqb negb]. rewrite Nat.div_mul by lia. cbv zeta. rewrite R by reflexivity. rewrite C by assumption. apply map_option_spec. exact H2.
Qed.
Theorem C83_many_round : forall simd simd' ids, ids <> [] -> Forall uuid ids -> parse_many simd (encode_many simd' ids) = Some ids.
Proof.
  intros simd simd' ids N H. apply C83_many.
  - unfold encode_many. apply Forall_flat_map. eapply Forall_impl; [|exact H]. intros u Hu. apply encode_bytes. exact Hu.
  - exists (map (encode_canonical simd') ids). split; [destruct ids; [congruence|discriminate]|]. split; [apply flat_map_concat_map|]. split.
    + apply Forall_map. eapply Forall_impl; [|exact H]. intros u Hu. apply encode_bytes. exact Hu.
    + clear N. induction H as [|u ids Hu H IH]; [constructor|]. cbn [map]. constructor; [apply C83_round; exact Hu|exact IH].
Qed.
(** ... except for no ids at all. *)
Theorem C83_many_empty_refuted : forall simd simd', parse_many simd (encode_many simd' []) = None.
Proof. reflexivity. Qed.

(** Examples. *)
Definition id : list Z := [1; 141; 250; 240; 17; 34; 115; 51; 132; 68; 85; 102; 119; 136; 153; 170].
Example C83_ex : uuid id /\ version id = 7 /\ variant id = Rfc4122 /\ new_v7 (from_be (firstn 6 id)) (skipn 6 id) = id.
Proof. split; [split; [reflexivity|unfold id, byte; repeat constructor; lia]|vm_compute; auto]. Qed.
Example C83_text_ex : encode_canonical true id = encode_canonical false id /\ parse true (encode_canonical true id) = Some id /\ parse false ([123] ++ strip (encode_canonical true id) ++ [125]) = Some id.
Proof. vm_compute. auto. Qed.
Example C83_order_ex : lex_lt (new_v6 4095 1 [255; 0; 0; 0; 0; 0]) (new_v6 4096 0 [0; 0; 0; 0; 0; 0]) = true.
Proof. vm_compute. reflexivity. Qed.
Example C83_many_ex : parse_many true (encode_many true [id; repeat 0 16]) = Some [id; repeat 0 16].
Proof. vm_compute. reflexivity. Qed.
