(** C53: floats compared exactly with integers and fractions. C54: equal numbers have equal hashes. *)
From Coq Require Import ZArith List Lia QArith Qpower Lqa Znumtheory.
From stdpp Require Import list.
From Verif Require Import MachInt BitLemmas BigIntModel BigIntProofs BigIntZ BigIntProps RationalModel RationalQ RationalProps FloatHashModel.
Open Scope Z_scope.

(** ** Patterns *)
Lemma biased_eq b : f_biased b = (b / 2 ^ 52) mod 2 ^ 11.
Proof. unfold f_biased. change 2047 with (Z.ones 11). rewrite Z.land_ones, Z.shiftr_div_pow2 by lia. done. Qed.
Lemma frac_eq b : f_frac b = b mod 2 ^ 52.
Proof. unfold f_frac. change (2 ^ 52 - 1) with (Z.ones 52). now rewrite Z.land_ones by lia. Qed.
Lemma split_bits b : is_u64 b -> b = (b / 2 ^ 63) * 2 ^ 63 + ((b / 2 ^ 52) mod 2 ^ 11) * 2 ^ 52 + b mod 2 ^ 52 /\ (b / 2 ^ 63 = 0 \/ b / 2 ^ 63 = 1) /\ 0 <= (b / 2 ^ 52) mod 2 ^ 11 < 2048 /\ 0 <= b mod 2 ^ 52 < 2 ^ 52.
Proof.
  unfold is_u64, two64. intros H. change (2 ^ 64) with 18446744073709551616 in H. pose proof (Z.div_mod b (2 ^ 52) ltac:(lia)) as D1. pose proof (Z.div_mod (b / 2 ^ 52) (2 ^ 11) ltac:(lia)) as D2. rewrite Z.div_div in D2 by lia. change (2 ^ 52 * 2 ^ 11) with (2 ^ 63) in D2.
  pose proof (Z.mod_pos_bound b (2 ^ 52) ltac:(lia)). pose proof (Z.mod_pos_bound (b / 2 ^ 52) (2 ^ 11) ltac:(lia)). assert (0 <= b / 2 ^ 63 < 2) by (split; [apply Z.div_pos; lia|apply Z.div_lt_upper_bound; lia]). split; [|split; [lia|split; [lia|lia]]].
  change (2 ^ 63) with (2 ^ 11 * 2 ^ 52) at 2. lia.
Qed.
Lemma join_bits s e f : (s = 0 \/ s = 1) -> 0 <= e < 2048 -> 0 <= f < 2 ^ 52 -> let b := s * 2 ^ 63 + e * 2 ^ 52 + f in is_u64 b /\ b / 2 ^ 63 = s /\ (b / 2 ^ 52) mod 2 ^ 11 = e /\ b mod 2 ^ 52 = f.
Proof.
  intros Hs He Hf b. assert (E : b / 2 ^ 52 = s * 2 ^ 11 + e). { symmetry. apply Z.div_unique with (r := f); [lia|]. unfold b. change (2 ^ 63) with (2 ^ 11 * 2 ^ 52). lia. }
  split; [unfold is_u64, two64, b; change (2 ^ 64) with 18446744073709551616; change (2 ^ 63) with 9223372036854775808; change (2 ^ 52) with 4503599627370496 in *; lia|].
  split; [symmetry; apply Z.div_unique with (r := e * 2 ^ 52 + f); [|unfold b; lia]; change (2 ^ 63) with 9223372036854775808; change (2 ^ 52) with 4503599627370496 in *; lia|].
  split; [rewrite E; symmetry; apply Z.mod_unique with (q := s); lia|]. symmetry. apply Z.mod_unique with (q := s * 2 ^ 11 + e); [lia|]. unfold b. change (2 ^ 63) with (2 ^ 11 * 2 ^ 52). lia.
Qed.
Lemma special_cases b : is_u64 b -> f_is_nan b = false -> b <> INFINITY -> b <> NEG_INFINITY -> f_is_finite b = true.
Proof.
  intros H. unfold f_is_nan, f_is_finite. rewrite biased_eq, frac_eq. destruct (split_bits b H) as (E & S & _ & _). destruct (Z.eqb_spec ((b / 2 ^ 52) mod 2 ^ 11) 2047) as [X|X]; [|done]. destruct (Z.eqb_spec (b mod 2 ^ 52) 0) as [F|F]; [|done].
  intros _ N1 N2. exfalso. rewrite X, F in E. unfold INFINITY, NEG_INFINITY in *. destruct S as [S|S]; rewrite S in E; lia.
Qed.
Lemma finite_cases b : f_is_finite b = true -> f_is_nan b = false /\ b <> INFINITY /\ b <> NEG_INFINITY.
Proof.
  unfold f_is_finite, f_is_nan. intros H. destruct (Z.eqb_spec (f_biased b) 2047) as [X|X]; [done|]. split; [done|]. split; intros ->; apply X; vm_compute; done.
Qed.
Lemma lor_hidden f : 0 <= f < 2 ^ 52 -> Z.lor f (2 ^ 52) = f + 2 ^ 52.
Proof. intros H. pose proof (lor_add f 1 52 ltac:(lia) H) as E. now rewrite Z.mul_1_l in E. Qed.
Definition sgn (neg : bool) (x : Z) : Z := if neg then - x else x.
(** Powers of two in [Q]. *)
Lemma two_pow_add a b : ((2 # 1) ^ (a + b) == (2 # 1) ^ a * (2 # 1) ^ b)%Q.
Proof. apply Qpower_plus. discriminate. Qed.
Lemma two_pow_inj e : 0 <= e -> ((2 # 1) ^ e == inject_Z (2 ^ e))%Q. Proof. intros H. change (2 # 1)%Q with (inject_Z 2). now apply Qpower_inject. Qed.
Lemma two_pow_pos e : (0 < (2 # 1) ^ e)%Q. Proof. apply Qpower_0_lt. reflexivity. Qed.
Lemma decompose_ok b : is_u64 b -> f_is_finite b = true -> exists neg m e, decompose_f64 b = Some (neg, m, e) /\ 0 <= m < 2 ^ 53 /\ -1074 <= e <= 971 /\ (fval b == inject_Z (sgn neg m) * (2 # 1) ^ e)%Q.
Proof.
  intros H Fi. destruct (split_bits b H) as (_ & S & Be & Bf). unfold decompose_f64. rewrite Fi. cbn [negb]. fold (f_biased b) (f_frac b). rewrite biased_eq, frac_eq, Z.shiftr_div_pow2 by lia.
  unfold f_is_finite in Fi. rewrite biased_eq in Fi. unfold fval. set (e := (b / 2 ^ 52) mod 2 ^ 11) in *. set (f := b mod 2 ^ 52) in *. set (s := b / 2 ^ 63) in *.
  destruct (Z.eqb_spec e 2047); [done|]. clear Fi. clearbody e f s.
  assert (Sg : forall m (x : Q), (inject_Z m == x)%Q -> ((if s =? 0 then 1 else -1) * x == inject_Z (sgn (s =? 1) m))%Q). { intros m x Hx. unfold sgn. destruct S as [-> | ->]; [change (0 =? 0) with true; change (0 =? 1) with false; cbn match; rewrite Hx; ring|]. change (1 =? 0) with false. change (1 =? 1) with true. cbn match. rewrite inject_Z_opp, Hx. ring. }
  assert (C52 : ~ (inject_Z (2 ^ 52) == 0)%Q) by (intros X; vm_compute in X; done).
  destruct (Z.eqb_spec e 0) as [E|E].
  - exists (s =? 1), f, (-1074)%Z. split; [done|]. split; [lia|]. split; [lia|]. rewrite <- (Sg f (inject_Z f)) by reflexivity. rewrite <- Qmult_assoc. apply Qmult_comp; [reflexivity|]. change (-1074)%Z with (-1022 + (- 52))%Z. rewrite two_pow_add. change (-52)%Z with (- (52))%Z. rewrite (Qpower_opp (2 # 1) 52), (two_pow_inj 52) by lia. field. exact C52.
  - exists (s =? 1), (Z.lor f (2 ^ 52)), (e - 1075). split; [done|]. rewrite lor_hidden by done. split; [lia|]. split; [lia|].
    rewrite <- (Sg (f + 2 ^ 52) (inject_Z f + inject_Z (2 ^ 52))%Q) by now rewrite inject_Z_plus. rewrite <- Qmult_assoc. apply Qmult_comp; [reflexivity|]. replace (e - 1023) with ((e - 1075) + 52) by lia. rewrite two_pow_add, (two_pow_inj 52) by lia. field. exact C52.
Qed.
Lemma sgn_of_Z (neg : bool) m : (if neg then bi_negated (of_Z m) else of_Z m) = of_Z (sgn neg m).
Proof. destruct neg; [apply negated_of_Z|done]. Qed.
Lemma from_f64_ofQ b : is_u64 b -> f_is_finite b = true -> rational_from_f64_exact b = Some (Some (ofQ (fval b))).
Proof.
  intros H Fi. destruct (decompose_ok b H Fi) as (neg & m & e & E & Hm & He & V). unfold rational_from_f64_exact. rewrite E.
  assert (Um : is_u64 m) by (unfold is_u64, two64; change (2 ^ 64) with 18446744073709551616; change (2 ^ 53) with 9007199254740992 in Hm; lia). assert (U2 : is_u64 2) by (split; [lia|reflexivity]). rewrite (from_u64_of_Z m Um), (from_u64_of_Z 2 U2).
  assert (I1 : bi_from_i64 1 = of_Z 1) by (apply from_i64_of_Z; unfold is_i64; lia). destruct (Z.leb_spec 0 e) as [L|L].
  - rewrite pow_of_Z, mul_of_Z, I1, sgn_of_Z, new_of_Z by lia. change (1 =? 0) with false. do 2 f_equal. apply ofQ_proper. unfold Qfrac. rewrite V, two_pow_inj by done. rewrite <- inject_Z_mult. replace (sgn neg m * 2 ^ e) with (sgn neg (m * 2 ^ e)) by (destruct neg; cbn; ring). field.
  - rewrite pow_of_Z, sgn_of_Z, new_of_Z by lia. pose proof (Z.pow_pos_nonneg 2 (- e) ltac:(lia) ltac:(lia)). destruct (Z.eqb_spec (2 ^ (- e)) 0); [lia|]. do 2 f_equal. apply ofQ_proper. unfold Qfrac. rewrite V.
    replace e with (- - e) at 2 by lia. rewrite Qpower_opp, two_pow_inj by lia. reflexivity.
Qed.
Lemma as_f64_val i : Z.abs i <= 2 ^ 53 -> is_u64 (i64_as_f64 i) /\ f_is_finite (i64_as_f64 i) = true /\ (fval (i64_as_f64 i) == inject_Z i)%Q.
Proof.
  intros H. unfold i64_as_f64. destruct (Z.eqb_spec i 0) as [->|N]; [split; [split; [lia|reflexivity]|]; split; [done|vm_compute; done]|].
  set (e := Z.log2 (Z.abs i)). pose proof (Z.log2_spec (Z.abs i) ltac:(lia)) as L. fold e in L. pose proof (Z.log2_nonneg (Z.abs i)) as L0. fold e in L0. assert (L53 : e <= 53) by (unfold e; change 53 with (Z.log2 (2 ^ 53)); apply Z.log2_le_mono; lia).
  assert (P2 : 0 < 2 ^ e) by (apply Z.pow_pos_nonneg; lia). rewrite Z.pow_succ_r in L by lia. clearbody e.
  set (F := (Z.abs i - 2 ^ e) * 2 ^ 52 / 2 ^ e). assert (HF : F * 2 ^ e = (Z.abs i - 2 ^ e) * 2 ^ 52).
  { destruct (Z.eq_dec e 53) as [->|N53]; [assert (Z.abs i - 2 ^ 53 = 0) as X by lia; unfold F; rewrite X; done|].
    assert (X : 2 ^ 52 = 2 ^ (52 - e) * 2 ^ e) by (rewrite <- Z.pow_add_r by lia; f_equal; lia). unfold F. rewrite X, Z.mul_assoc, Z.div_mul by lia. done. }
  clearbody F. assert (BF : 0 <= F < 2 ^ 52) by nia.
  set (s := if i <? 0 then 1 else 0). assert (Es : (if i <? 0 then 2 ^ 63 else 0) = s * 2 ^ 63) by (unfold s; destruct (i <? 0); lia). rewrite Es.
  destruct (join_bits s (e + 1023) F ltac:(unfold s; destruct (i <? 0); lia) ltac:(lia) BF) as (U & X1 & X2 & X3). set (b := s * 2 ^ 63 + (e + 1023) * 2 ^ 52 + F) in *. clearbody b. split; [done|].
  split; [unfold f_is_finite; rewrite biased_eq, X2; destruct (Z.eqb_spec (e + 1023) 2047); [lia|done]|]. unfold fval. rewrite X1, X2, X3. destruct (Z.eqb_spec (e + 1023) 0); [lia|]. replace (e + 1023 - 1023) with e by lia. rewrite two_pow_inj by lia.
  assert (A : ((1 + inject_Z F / inject_Z (2 ^ 52)) * inject_Z (2 ^ e) == inject_Z (Z.abs i))%Q).
  { assert (HQ : (inject_Z F * inject_Z (2 ^ e) == (inject_Z (Z.abs i) - inject_Z (2 ^ e)) * inject_Z (2 ^ 52))%Q) by (unfold Qminus; rewrite <- inject_Z_opp, <- inject_Z_plus, <- !inject_Z_mult, HF; reflexivity).
    assert (C52 : ~ (inject_Z (2 ^ 52) == 0)%Q) by (intros X; vm_compute in X; done). setoid_replace ((1 + inject_Z F / inject_Z (2 ^ 52)) * inject_Z (2 ^ e))%Q with (inject_Z (2 ^ e) + (inject_Z F * inject_Z (2 ^ e)) / inject_Z (2 ^ 52))%Q by (field; exact C52). rewrite HQ. field. exact C52. }
  rewrite A. unfold s. destruct (Z.ltb_spec i 0); [|rewrite Z.abs_eq by lia; change (0 =? 0) with true; cbn match; ring]. change (1 =? 0) with false. cbn match. rewrite Z.abs_neq, inject_Z_opp by lia. ring.
Qed.

(** ** C53 *)
(** Every finite float is converted to exactly its value; NaN and the infinities are refused. *)
Theorem C53_exact_value b : is_u64 b -> (f_is_finite b = true -> exists r, rational_from_f64_exact b = Some (Some r) /\ rcanon r /\ (rval r == fval b)%Q) /\ (f_is_finite b = false -> rational_from_f64_exact b = Some None).
Proof.
  intros H. split.
  - intros Fi. exists (ofQ (fval b)). split; [now apply from_f64_ofQ|]. split; [apply rcanon_ofQ|apply rval_ofQ].
  - intros Fi. unfold rational_from_f64_exact, decompose_f64. now rewrite Fi.
Qed.
(** Comparison of a fraction, a big integer, a machine integer with a float: unordered exactly for
    NaN; otherwise the order of the numbers, with the infinities at the ends. *)
Definition cmp_spec (q : Q) (b : Z) (r : option (option comparison)) : Prop :=
  (f_is_nan b = true -> r = Some None) /\ (b = INFINITY -> r = Some (Some Lt)) /\ (b = NEG_INFINITY -> r = Some (Some Gt)) /\
  (f_is_finite b = true -> r = Some (Some (q ?= fval b)%Q)).
Lemma Qcompare_comp' p q r : (p == q)%Q -> (p ?= r)%Q = (q ?= r)%Q. Proof. intros E. now rewrite E. Qed.
Theorem C53_cmp_rational r b : rcanon r -> is_u64 b -> cmp_spec (rval r) b (cmp_rational_f64_exact r b).
Proof.
  intros Hr H. unfold cmp_rational_f64_exact. split; [intros ->; done|]. split; [intros ->; vm_compute; done|]. split; [intros ->; vm_compute; done|]. intros Fi. destruct (finite_cases b Fi) as (N & I1 & I2). rewrite N. destruct (Z.eqb_spec b INFINITY); [done|]. destruct (Z.eqb_spec b NEG_INFINITY); [done|].
  rewrite from_f64_ofQ by done. pose proof (rcmp_ofQ (rval r) (fval b)) as C. rewrite (ofQ_rval r Hr) in C. now rewrite C.
Qed.
Theorem C53_cmp_bigint x b : canon x -> is_u64 b -> cmp_spec (inject_Z (bval x)) b (cmp_bigint_f64_exact x b).
Proof.
  intros Hx H. unfold cmp_bigint_f64_exact. split; [intros ->; done|]. split; [intros ->; vm_compute; done|]. split; [intros ->; vm_compute; done|]. intros Fi. destruct (finite_cases b Fi) as (N & I1 & I2). rewrite N. destruct (Z.eqb_spec b INFINITY); [done|]. destruct (Z.eqb_spec b NEG_INFINITY); [done|].
  rewrite from_f64_ofQ by done. rewrite <- (of_Z_bval x Hx) at 1. rewrite from_bigint_ofQ, rcmp_ofQ. done.
Qed.
Theorem C53_cmp_i64 i b : is_i64 i -> is_u64 b -> cmp_spec (inject_Z i) b (cmp_i64_f64_exact i b).
Proof.
  intros Hi H. unfold cmp_i64_f64_exact. split; [intros ->; done|]. split; [intros ->; vm_compute; done|]. split; [intros ->; vm_compute; done|]. intros Fi. destruct (finite_cases b Fi) as (N & I1 & I2). rewrite N. destruct (Z.eqb_spec b INFINITY); [done|]. destruct (Z.eqb_spec b NEG_INFINITY); [done|].
  destruct (Z.leb_spec (Z.abs i) (2 ^ 53)) as [L|L].
  - destruct (as_f64_val i L) as (U & Fa & V). destruct (finite_cases _ Fa) as (Na & Ia & Ib). unfold f_partial_cmp. rewrite Na, N. cbn [orb]. destruct (Z.eqb_spec (i64_as_f64 i) b) as [E|E].
    + do 2 f_equal. symmetry. apply Qeq_alt. rewrite <- V, E. reflexivity.
    + destruct (Z.eqb_spec (i64_as_f64 i) INFINITY); [done|]. destruct (Z.eqb_spec (i64_as_f64 i) NEG_INFINITY); [done|]. destruct (Z.eqb_spec b INFINITY); [done|]. destruct (Z.eqb_spec b NEG_INFINITY); [done|]. do 2 f_equal. now apply Qcompare_comp'.
  - rewrite from_f64_ofQ by done. rewrite from_i64_ofQ, rcmp_ofQ by done. done.
Qed.
(** So the three cases of [cmp_spec] are all there is. *)
Theorem C53_trichotomy b : is_u64 b -> f_is_nan b = true \/ b = INFINITY \/ b = NEG_INFINITY \/ f_is_finite b = true.
Proof.
  intros H. destruct (f_is_nan b) eqn:E; [tauto|]. destruct (Z.eq_dec b INFINITY); [tauto|]. destruct (Z.eq_dec b NEG_INFINITY); [tauto|]. right. right. right. now apply special_cases.
Qed.

(** ** The hash *)
Lemma P_pos : 0 < HASH_P < 2 ^ 61. Proof. split; reflexivity. Qed.
Lemma two61 : 2 ^ 61 mod HASH_P = 1. Proof. reflexivity. Qed.
Lemma mod_p_ok x : is_u64 x -> mod_p x = x mod HASH_P.
Proof.
  intros [H0 H1]. unfold two64 in H1. unfold mod_p. assert (E : Z.land x HASH_P = x mod 2 ^ 61) by (change HASH_P with (Z.ones 61); now rewrite Z.land_ones by lia). rewrite E, Z.shiftr_div_pow2 by lia. clear E. pose proof (Z.div_mod x (2 ^ 61) ltac:(lia)) as D. pose proof (Z.mod_pos_bound x (2 ^ 61) ltac:(lia)) as M.
  assert (Hq : 0 <= x / 2 ^ 61 < 8) by (split; [apply Z.div_pos; lia|apply Z.div_lt_upper_bound; [lia|change (2 ^ 61 * 8) with (2 ^ 64); lia]]). unfold HASH_P in *. set (q := x / 2 ^ 61) in *. set (r := x mod 2 ^ 61) in *. clearbody q r. change (2 ^ 61) with 2305843009213693952 in *. change (2305843009213693952 - 1) with 2305843009213693951 in *.
  destruct (Z.leb_spec 2305843009213693951 (r + q)); [apply Z.mod_unique with (q := q + 1)|apply Z.mod_unique with (q := q)]; lia.
Qed.
Lemma mul_mod_p_ok a b : is_u64 a -> is_u64 b -> mul_mod_p a b = (a * b) mod HASH_P.
Proof.
  intros [A0 A1] [B0 B1]. unfold mul_mod_p. f_equal. unfold wrap128. apply Z.mod_small. unfold two128, two64 in *. change (2 ^ 128) with (2 ^ 64 * 2 ^ 64). split; [nia|]. apply Z.mul_lt_mono_nonneg; lia.
Qed.
Lemma residue_u64 x : is_u64 (x mod HASH_P).
Proof. pose proof (Z.mod_pos_bound x HASH_P ltac:(apply P_pos)) as H. pose proof P_pos. unfold is_u64, two64. assert (2 ^ 61 < 2 ^ 64) by reflexivity. lia. Qed.
Lemma Zpower_mod p q n : 0 < n -> p ^ q mod n = (p mod n) ^ q mod n.
Proof.
  intros H. destruct (Z.le_gt_cases 0 q) as [Hq|Hq]; [|now rewrite !Z.pow_neg_r by done]. revert q Hq. apply natlike_ind; [done|]. intros q Hq IH. rewrite !Z.pow_succ_r by done. rewrite Z.mul_mod, IH by lia. now rewrite Z.mul_mod_idemp_r by lia.
Qed.
Lemma pow_mod_loop_ok n acc base e : 0 <= acc < HASH_P -> is_u64 base -> 0 <= e < 2 ^ Z.of_nat n -> pow_mod_loop n acc base e = (acc * base ^ e) mod HASH_P.
Proof.
  pose proof P_pos as PP. revert acc base e. induction n as [|n IH]; intros acc base e Ha Hb He.
  - assert (e = 0) as -> by (cbn in He; lia). cbn [pow_mod_loop]. rewrite Z.pow_0_r, Z.mul_1_r, Z.mod_small; done.
  - cbn [pow_mod_loop]. destruct (Z.eqb_spec e 0) as [->|N]; [rewrite Z.pow_0_r, Z.mul_1_r, Z.mod_small; done|]. rewrite Nat2Z.inj_succ, Z.pow_succ_r in He by lia. pose proof (Z.div_mod e 2 ltac:(lia)) as D. pose proof (Z.mod_pos_bound e 2 ltac:(lia)) as Bd.
    rewrite Z.shiftr_div_pow2 by lia. change (2 ^ 1) with 2. rewrite land_1. assert (Ua : is_u64 acc) by (rewrite <- (Z.mod_small acc HASH_P) by lia; apply residue_u64).
    set (acc' := if e mod 2 =? 1 then acc * base else acc). assert (Ea : (if e mod 2 =? 1 then mul_mod_p acc base else acc) = acc' mod HASH_P) by (unfold acc'; destruct (e mod 2 =? 1); [now apply mul_mod_p_ok|now rewrite Z.mod_small]). rewrite Ea, (mul_mod_p_ok base base) by done.
    rewrite IH; [|apply Z.mod_pos_bound; lia|apply residue_u64|split; [apply Z.div_pos; lia|apply Z.div_lt_upper_bound; lia]].
    rewrite Zmult_mod_idemp_l. rewrite <- Zmult_mod_idemp_r, <- Zpower_mod, Zmult_mod_idemp_r by lia. f_equal. assert (X : (base * base) ^ (e / 2) = base ^ (2 * (e / 2))) by (rewrite Z.pow_mul_r by lia; now rewrite Z.pow_2_r). rewrite X.
    unfold acc'. destruct (Z.eqb_spec (e mod 2) 1) as [M|M]; rewrite D at 2; [rewrite M, Z.pow_add_r, Z.pow_1_r by lia; ring|]. replace (e mod 2) with 0 by lia. now rewrite Z.add_0_r.
Qed.
Lemma pow_mod_p_ok b e : is_u64 e -> pow_mod_p b e = (b ^ e) mod HASH_P.
Proof.
  intros He. unfold pow_mod_p. rewrite pow_mod_loop_ok; [|split; [lia|reflexivity]|apply residue_u64|exact He]. rewrite Z.mul_1_l. symmetry. apply Zpower_mod. pose proof P_pos; lia.
Qed.
Lemma signed_hash_ok neg x : signed_hash neg (x mod HASH_P) = (sgn neg x) mod HASH_P.
Proof.
  pose proof P_pos as PP. unfold signed_hash, sgn. destruct neg; [|done]. cbn [andb]. destruct (Z.eqb_spec (x mod HASH_P) 0) as [E|E]; cbn [negb]; [rewrite E; symmetry; now apply Z_mod_zero_opp_full|]. now rewrite Z_mod_nz_opp_full.
Qed.
Lemma sgn_abs z : sgn (z <? 0) (Z.abs z) = z. Proof. unfold sgn. destruct (Z.ltb_spec z 0); lia. Qed.
Lemma hash_limbs_ok l acc : lok l -> 0 <= acc < HASH_P -> hash_limbs (rev l) acc = (acc * B ^ Z.of_nat (length l) + val l) mod HASH_P.
Proof.
  pose proof P_pos as PP. revert acc. induction l as [|x l IH] using rev_ind; intros acc Hl Ha; [cbn [rev hash_limbs length val]; rewrite Z.mod_small by (cbn; lia); cbn; lia|]. apply Forall_app in Hl as [Hl Hx]. inversion Hx as [|? ? Ux _]; subst. rewrite rev_app_distr. cbn [rev app hash_limbs].
  rewrite IH; [|done|apply Z.mod_pos_bound; lia]. rewrite mod_p_ok by done. rewrite val_app, app_length. cbn [val length]. rewrite Z.mul_0_r, Z.add_0_r. rewrite Nat2Z.inj_add, Z.pow_add_r by lia. change (B ^ Z.of_nat 1) with B.
  rewrite Zplus_mod_idemp_r. rewrite Zplus_mod, Zmult_mod_idemp_l, <- Zplus_mod.
  set (k := B ^ Z.of_nat (length l)). replace (acc * (k * B) + (val l + k * x)) with ((acc * 8 + x) * k + val l + (acc * k * ((B - 8) / HASH_P)) * HASH_P); [now rewrite Z_mod_plus_full|].
  assert (X : (B - 8) / HASH_P * HASH_P = B - 8) by reflexivity. rewrite <- Z.mul_assoc, X. ring.
Qed.
Lemma hash_bigint_ok z : hash_bigint (of_Z z) = z mod HASH_P.
Proof.
  unfold hash_bigint. destruct (limbs_of_Z z) as (K & _ & V). rewrite hash_limbs_ok; [|done|pose proof P_pos; lia]. rewrite V, Z.mul_0_l, Z.add_0_l, signed_hash_ok, is_negative_of_Z. now rewrite sgn_abs.
Qed.
Lemma hash_i64_ok n : is_i64 n -> hash_i64 n = n mod HASH_P.
Proof.
  intros H. unfold hash_i64. rewrite mod_p_ok; [now rewrite signed_hash_ok, sgn_abs|]. unfold is_i64 in H. unfold is_u64, two64. change (2 ^ 64) with 18446744073709551616. change (2 ^ 63) with 9223372036854775808 in H. lia.
Qed.
Lemma P2_u64 : is_u64 (HASH_P - 2). Proof. split; [discriminate|reflexivity]. Qed.
Lemma hash_rational_parts n d q : 0 < d -> ofQ q = ratz n d -> (q == n # Z.to_pos d)%Q -> hash_rational (ofQ q) = (n * d ^ (HASH_P - 2)) mod HASH_P.
Proof.
  intros Hd E V. unfold hash_rational. rewrite ris_negative_ofQ, E. cbn [r_num r_den ratz]. rewrite !abs_of_Z, !hash_bigint_ok. rewrite pow_mod_p_ok by apply P2_u64. rewrite mul_mod_p_ok by apply residue_u64. rewrite signed_hash_ok.
  rewrite (Z.abs_eq d) by lia. set (k := HASH_P - 2). assert (Hk : 0 <= k) by discriminate. clearbody k. pose proof P_pos.
  rewrite <- (Zpower_mod d k HASH_P) by lia. assert (S : forall x y, sgn (Qneg q) ((x mod HASH_P) * (y mod HASH_P)) mod HASH_P = (sgn (Qneg q) x * y) mod HASH_P).
  { intros x y. unfold sgn. destruct (Qneg q); [|now rewrite <- Z.mul_mod by lia]. rewrite <- Z.mul_opp_l. rewrite Zmult_mod_idemp_r. rewrite <- Zmult_mod_idemp_l. rewrite <- (Zmult_mod_idemp_l (- x)). do 2 f_equal. rewrite <- (Z.sub_0_l (x mod _)), <- (Z.sub_0_l x). now rewrite Zminus_mod_idemp_r. }
  rewrite S. do 2 f_equal. unfold sgn. pose proof (q_neg n d q Hd V) as QN. destruct (Qneg_spec q) as [L|L]; [|assert (~ n < 0) by tauto; lia]. apply QN in L. lia.
Qed.
Lemma pow_1_P x : 0 <= x -> 1 ^ x = 1. Proof. intros. now apply Z.pow_1_l. Qed.
Lemma hash_integer z : hash_rational (ofQ (inject_Z z)) = z mod HASH_P.
Proof.
  assert (E : ofQ (inject_Z z) = ratz z 1) by (symmetry; apply ofQ_char; [lia|apply Z.gcd_1_r|cbn; lia]). rewrite (hash_rational_parts z 1) by (try lia; try exact E; reflexivity). rewrite pow_1_P by discriminate. now rewrite Z.mul_1_r.
Qed.
(** Two has order 61. *)
Lemma two_order a : 0 <= a -> 2 ^ a mod HASH_P = 2 ^ (a mod 61) mod HASH_P.
Proof.
  intros H. pose proof (Z.div_mod a 61 ltac:(lia)) as D. pose proof (Z.mod_pos_bound a 61 ltac:(lia)). assert (0 <= a / 61) by (apply Z.div_pos; lia). pose proof P_pos. rewrite D at 1. rewrite Z.pow_add_r, Z.pow_mul_r by lia.
  rewrite Z.mul_mod, (Zpower_mod (2 ^ 61)), two61, pow_1_P by lia. rewrite <- Z.mul_mod by lia. now rewrite Z.mul_1_l.
Qed.
Lemma pow2_divisor k d : 0 < d -> (d | 2 ^ Z.of_nat k) -> exists j, 0 <= j <= Z.of_nat k /\ d = 2 ^ j.
Proof.
  revert d. induction k as [|k IH]; intros d Hd Dv.
  - exists 0. split; [lia|]. change (2 ^ Z.of_nat 0) with 1 in Dv. apply Z.divide_1_r_nonneg in Dv; [done|lia].
  - rewrite Nat2Z.inj_succ, Z.pow_succ_r in Dv by lia. destruct (Z.Even_or_Odd d) as [[d' ->]|[d' E]].
    + destruct (IH d') as (j & Hj & ->); [lia| |exists (Z.succ j); split; [lia|now rewrite Z.pow_succ_r by lia]]. destruct Dv as [c Hc]. exists c. lia.
    + destruct (IH d) as (j & Hj & E'); [done| |exists j; split; [lia|done]]. apply Gauss with 2; [exact Dv|]. apply Zgcd_1_rel_prime. apply Z.bezout_1_gcd. exists 1, (- d'). lia.
Qed.
Lemma hash_f64_ok b : is_u64 b -> f_is_finite b = true -> hash_f64 b = Some (hash_rational (ofQ (fval b))).
Proof.
  intros H Fi. destruct (finite_cases b Fi) as (N & I1 & I2). destruct (decompose_ok b H Fi) as (neg & m & e & E & Hm & He & V). unfold hash_f64. rewrite N. destruct (Z.eqb_spec b INFINITY) as [|_]; [done|]. destruct (Z.eqb_spec b NEG_INFINITY) as [|_]; [done|]. rewrite E. f_equal.
  assert (Um : is_u64 m) by (unfold is_u64, two64; change (2 ^ 64) with 18446744073709551616; change (2 ^ 53) with 9007199254740992 in Hm; lia). pose proof (Z.mod_pos_bound e 61 ltac:(lia)) as Be. pose proof P_pos as PP.
  rewrite mod_p_ok, pow_mod_p_ok by (try done; unfold is_u64, two64; change (2 ^ 64) with 18446744073709551616; lia). rewrite mul_mod_p_ok by apply residue_u64. rewrite <- Z.mul_mod by lia. rewrite signed_hash_ok.
  assert (Sm : sgn neg (m * 2 ^ (e mod 61)) = sgn neg m * 2 ^ (e mod 61)) by (destruct neg; cbn [sgn]; ring). rewrite Sm. clear Sm. set (M := sgn neg m) in *. clearbody M.
  destruct (Z.le_gt_cases 0 e) as [L|L].
  - rewrite (ofQ_proper _ (inject_Z (M * 2 ^ e))); [|rewrite V, two_pow_inj, inject_Z_mult by done; reflexivity]. rewrite hash_integer. rewrite <- (Zmult_mod_idemp_r (2 ^ e)), two_order by done. now rewrite Zmult_mod_idemp_r.
  - destruct (ofQ_parts (fval b)) as (n & d & Ep & Pd & G & Vp). rewrite (hash_rational_parts n d) by done.
    assert (R : n * 2 ^ (- e) = M * d).
    { pose proof (Qfrac_num n d _ Pd Vp) as X. rewrite V in X. replace e with (- - e) in X by lia. rewrite Qpower_opp, two_pow_inj in X by lia. assert (NZ : ~ (inject_Z (2 ^ (- e)) == 0)%Q) by (apply inj_neq0; pose proof (Z.pow_pos_nonneg 2 (- e)); lia).
      assert (Y : (inject_Z n * inject_Z (2 ^ (- e)) == inject_Z M * inject_Z d)%Q) by (rewrite X; field; exact NZ). rewrite <- !inject_Z_mult in Y. unfold Qeq in Y. cbn in Y. lia. }
    assert (Dv : (d | 2 ^ Z.of_nat (Z.to_nat (- e)))). { rewrite Z2Nat.id by lia. apply Gauss with n; [exists M; lia|]. apply Zgcd_1_rel_prime. now rewrite Z.gcd_comm. }
    destruct (pow2_divisor _ _ Pd Dv) as (j & Hj & ->). rewrite Z2Nat.id in Hj by lia.
    assert (EM : M = n * 2 ^ (- e - j)). { apply (Z.mul_reg_r _ _ (2 ^ j)); [pose proof (Z.pow_pos_nonneg 2 j); lia|]. rewrite <- R, <- Z.mul_assoc, <- Z.pow_add_r by lia. do 2 f_equal. lia. }
    rewrite EM. rewrite <- Z.mul_assoc, <- Z.pow_add_r by lia. rewrite <- Z.pow_mul_r by (try lia; discriminate). rewrite <- (Zmult_mod_idemp_r (2 ^ _)). rewrite <- (Zmult_mod_idemp_r (2 ^ (j * _))). rewrite !two_order by (first [lia | apply Z.mul_nonneg_nonneg; [lia|discriminate]]).
    assert (X : (- e - j + e mod 61) mod 61 = (j * (HASH_P - 2)) mod 61); [|rewrite X, (two_order (j * (HASH_P - 2))) by (apply Z.mul_nonneg_nonneg; [lia|discriminate]); reflexivity].
    rewrite <- (Zmult_mod_idemp_r (HASH_P - 2)). change ((HASH_P - 2) mod 61) with 60. rewrite Zplus_mod_idemp_r. replace (- e - j + e) with (j * 60 + (- j) * 61) by ring. now rewrite Z_mod_plus_full.
Qed.

(** ** C54 *)
Inductive num := NInt (i : Z) | NBig (b : bigint) | NFloat (bits : Z) | NFrac (r : rational).
(** The value of a number of any type; NaN and infinities have none. *)
Inductive num_val : num -> Q -> Prop :=
| nv_int i : is_i64 i -> num_val (NInt i) (inject_Z i)
| nv_big b : canon b -> num_val (NBig b) (inject_Z (bval b))
| nv_float bits : is_u64 bits -> f_is_finite bits = true -> num_val (NFloat bits) (fval bits)
| nv_frac r : rcanon r -> num_val (NFrac r) (rval r).
Definition num_hash (x : num) : option Z :=
  match x with NInt i => Some (hash_i64 i) | NBig b => Some (hash_bigint b) | NFloat bits => hash_f64 bits | NFrac r => Some (hash_rational r) end.
Lemma num_hash_ok x q : num_val x q -> num_hash x = Some (hash_rational (ofQ q)).
Proof.
  intros H. destruct H as [i Hi|b Hb|bits Hu Hf|r Hr]; cbn [num_hash].
  - now rewrite hash_integer, hash_i64_ok.
  - rewrite hash_integer. rewrite <- (of_Z_bval b Hb) at 1. now rewrite hash_bigint_ok.
  - now apply hash_f64_ok.
  - now rewrite (ofQ_rval r Hr).
Qed.
(** Equal numbers of whatever types hash equally; the hash never panics and is below the modulus. *)
Theorem C54_coherent x y p q : num_val x p -> num_val y q -> (p == q)%Q -> exists h, num_hash x = Some h /\ num_hash y = Some h /\ 0 <= h < HASH_P.
Proof.
  intros Hx Hy E. exists (hash_rational (ofQ p)). split; [now apply num_hash_ok|]. rewrite (ofQ_proper p q E). split; [now apply num_hash_ok|]. destruct (ofQ_parts q) as (n & d & Ep & Pd & G & Vp). rewrite (hash_rational_parts n d) by done. apply Z.mod_pos_bound, P_pos.
Qed.
(** Integers hash to their residue modulo 2^61-1, so distinct integers less than 2^61-1 apart hash differently. *)
Theorem C54_integers : (forall i, is_i64 i -> hash_i64 i = i mod (2 ^ 61 - 1)) /\ (forall b, canon b -> hash_bigint b = bval b mod (2 ^ 61 - 1)).
Proof. split; [apply hash_i64_ok|]. intros b Hb. rewrite <- (of_Z_bval b Hb) at 1. apply hash_bigint_ok. Qed.
Theorem C54_spread b c : canon b -> canon c -> 0 < Z.abs (bval b - bval c) < 2 ^ 61 - 1 -> hash_bigint b <> hash_bigint c.
Proof.
  intros Hb Hc D E. rewrite !(proj2 C54_integers) in E by done. change (2 ^ 61 - 1) with 2305843009213693951 in *. pose proof (Z.div_mod (bval b) 2305843009213693951 ltac:(lia)). pose proof (Z.div_mod (bval c) 2305843009213693951 ltac:(lia)). rewrite E in H.
  set (u := bval b / 2305843009213693951) in *. set (v := bval c / 2305843009213693951) in *. assert (X : bval b - bval c = 2305843009213693951 * (u - v)) by lia. destruct (Z.eq_dec u v) as [->|N]; [lia|]. lia.
Qed.

(** ** Examples *)
(** 1.5 is 0x3FF8000000000000; 2^53 is 0x4340000000000000; 5e-324 is 1. *)
Example ex_value : rational_from_f64_exact 4609434218613702656 = Some (Some (Rat (bi_from_i64 3) (bi_from_i64 2))). Proof. vm_compute. reflexivity. Qed.
Example ex_cmp : cmp_i64_f64_exact 9007199254740993 4845873199050653696 = Some (Some Gt) /\ cmp_i64_f64_exact 9007199254740992 4845873199050653696 = Some (Some Eq) /\ cmp_i64_f64_exact (-7) INFINITY = Some (Some Lt) /\ cmp_i64_f64_exact 0 1 = Some (Some Lt) /\ cmp_i64_f64_exact 0 (2 ^ 63) = Some (Some Eq).
Proof. vm_compute. done. Qed.
Example ex_finite : is_u64 4609434218613702656 /\ f_is_finite 4609434218613702656 = true /\ (fval 4609434218613702656 == 3 # 2)%Q. Proof. vm_compute. done. Qed.
Example ex_hash : hash_f64 4609434218613702656 = Some (hash_rational (Rat (bi_from_i64 3) (bi_from_i64 2))) /\ hash_i64 (-1) = HASH_P - 1. Proof. vm_compute. done. Qed.
Example ex_vals : num_val (NFloat 4609434218613702656) (fval 4609434218613702656) /\ num_val (NFrac (ofQ (3 # 2))) (rval (ofQ (3 # 2))) /\ (fval 4609434218613702656 == rval (ofQ (3 # 2)))%Q.
Proof. split; [constructor; vm_compute; done|]. split; [constructor; apply rcanon_ofQ|]. rewrite rval_ofQ. vm_compute. done. Qed.
