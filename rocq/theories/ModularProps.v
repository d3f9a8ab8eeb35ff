(** C52: residue arithmetic modulo any positive integer. *)
From Coq Require Import ZArith List Lia Znumtheory.
From stdpp Require Import list.
From Verif Require Import MachInt BigIntModel BigIntProofs BigIntZ BigIntProps RationalQ ModularModel.
Open Scope Z_scope.

(** ** Values *)
Definition mval' (x : modular) : Z := bval (m_value x).
Definition mmod (x : modular) : Z := bval (m_modulus x).
(** The documented invariant: canonical big integers, value in [0, modulus). *)
Definition mod_ok (x : modular) : Prop := canon (m_value x) /\ canon (m_modulus x) /\ 0 <= mval' x < mmod x.
Definition res (v m : Z) : modular := Mod (of_Z (v mod m)) (of_Z m).
Lemma res_ok v m : 0 < m -> mod_ok (res v m) /\ mval' (res v m) = v mod m /\ mmod (res v m) = m.
Proof. intros H. unfold mod_ok, mval', mmod, res. cbn. rewrite !bval_of_Z. split; [|done]. split; [apply canon_of_Z|]. split; [apply canon_of_Z|]. now apply Z.mod_pos_bound. Qed.
Lemma ok_res x : mod_ok x -> x = res (mval' x) (mmod x) /\ 0 < mmod x /\ 0 <= mval' x < mmod x.
Proof. intros (Cv & Cm & H). split; [|lia]. unfold res. rewrite Z.mod_small by done. unfold mval', mmod. rewrite !of_Z_bval by done. now destruct x. Qed.
Lemma rem_mod v m : 0 < m -> (if Z.rem v m <? 0 then Z.rem v m + m else Z.rem v m) = v mod m.
Proof.
  intros H. pose proof (Z.quot_rem v m ltac:(lia)) as Q. destruct (Z.ltb_spec (Z.rem v m) 0) as [L|L].
  - pose proof (Z.rem_bound_abs v m ltac:(lia)). apply Z.mod_unique with (q := Z.quot v m - 1); lia.
  - pose proof (Z.rem_bound_abs v m ltac:(lia)). apply Z.mod_unique with (q := Z.quot v m); lia.
Qed.
Lemma mnew_of_Z v m : mod_new (of_Z v) (of_Z m) = Some (if 0 <? m then Some (res v m) else None).
Proof.
  unfold mod_new. rewrite is_zero_of_Z, is_negative_of_Z. destruct (Z.eqb_spec m 0) as [->|N]; [done|]. destruct (Z.ltb_spec m 0) as [L|L]; cbn [orb].
  - destruct (Z.ltb_spec 0 m); [lia|done].
  - destruct (Z.ltb_spec 0 m) as [P|]; [|lia]. unfold mod_reduce. rewrite div_rem_of_Z. destruct (Z.eqb_spec m 0); [done|]. rewrite is_negative_of_Z. unfold res. rewrite <- (rem_mod v m P). destruct (Z.rem v m <? 0); [rewrite add_of_Z|]; done.
Qed.
Lemma mnew_pos v m : 0 < m -> mod_new (of_Z v) (of_Z m) = Some (Some (res v m)).
Proof. intros H. rewrite mnew_of_Z. destruct (Z.ltb_spec 0 m); [done|lia]. Qed.
Lemma res_mod v m : 0 < m -> res (v mod m) m = res v m.
Proof. intros H. unfold res. now rewrite Z.mod_mod by lia. Qed.
Lemma mmul_res a b m : 0 < m -> mod_mul (res a m) (res b m) = Some (Some (res (a * b) m)).
Proof. intros H. unfold mod_mul. cbn [m_value m_modulus res]. rewrite eqb_of_Z, Z.eqb_refl, mul_of_Z. cbn [negb]. rewrite mnew_pos by done. do 2 f_equal. unfold res. now rewrite <- Z.mul_mod by lia. Qed.
Lemma madd_res a b m : 0 < m -> mod_add (res a m) (res b m) = Some (Some (res (a + b) m)).
Proof. intros H. unfold mod_add. cbn [m_value m_modulus res]. rewrite eqb_of_Z, Z.eqb_refl, add_of_Z. cbn [negb]. rewrite mnew_pos by done. do 2 f_equal. unfold res. now rewrite <- Z.add_mod by lia. Qed.
Lemma msub_res a b m : 0 < m -> mod_sub (res a m) (res b m) = Some (Some (res (a - b) m)).
Proof. intros H. unfold mod_sub. cbn [m_value m_modulus res]. rewrite eqb_of_Z, Z.eqb_refl, sub_of_Z. cbn [negb]. rewrite mnew_pos by done. do 2 f_equal. unfold res. now rewrite <- Zminus_mod. Qed.
Lemma mneg_res a m : 0 < m -> mod_negated (res a m) = Some (res (- a) m).
Proof.
  intros H. unfold mod_negated. cbn [m_value m_modulus res]. rewrite negated_of_Z, mnew_pos by done. cbn. f_equal. unfold res. do 2 f_equal. rewrite <- (Z.sub_0_l (a mod m)), <- (Z.sub_0_l a). now rewrite Zminus_mod_idemp_r.
Qed.
Lemma one_of_Z' : bi_from_i64 1 = of_Z 1. Proof. apply from_i64_of_Z. unfold is_i64. lia. Qed.
Lemma mpow_loop_res n r b e m : 0 < m -> 0 <= e < 2 ^ Z.of_nat n -> mod_pow_loop n (res r m) (res b m) e = Some (res (r * b ^ e) m).
Proof.
  intros Hm. revert r b e. induction n as [|n IH]; intros r b e H.
  - assert (e = 0) as -> by (cbn in H; lia). cbn. now rewrite Z.mul_1_r.
  - cbn [mod_pow_loop]. destruct (Z.eqb_spec e 0) as [->|N]; [cbn; now rewrite Z.mul_1_r|]. rewrite Nat2Z.inj_succ, Z.pow_succ_r in H by lia. pose proof (Z.div_mod e 2 ltac:(lia)) as D. pose proof (Z.mod_pos_bound e 2 ltac:(lia)) as Bd.
    assert (Hh : 0 <= e / 2 < 2 ^ Z.of_nat n) by (split; [apply Z.div_pos; lia|apply Z.div_lt_upper_bound; lia]). rewrite land_1.
    set (r' := if e mod 2 =? 1 then r * b else r). assert (R : (if e mod 2 =? 1 then must (mod_mul (res r m) (res b m)) else Some (res r m)) = Some (res r' m)) by (unfold r'; destruct (e mod 2 =? 1); [now rewrite mmul_res|done]). rewrite R.
    assert (V : forall b', e / 2 = 0 \/ b' = b * b -> r' * b' ^ (e / 2) = r * b ^ e).
    { intros b' Hb. assert (P : b' ^ (e / 2) = b ^ (2 * (e / 2))) by (destruct Hb as [E | ->]; [rewrite E; done|rewrite Z.pow_mul_r by lia; now rewrite (Z.pow_2_r b)]).
      rewrite P. unfold r'. destruct (Z.eqb_spec (e mod 2) 1) as [M|M].
      - rewrite D at 2. rewrite M, Z.pow_add_r, Z.pow_1_r by lia. ring.
      - rewrite D at 2. replace (e mod 2) with 0 by lia. now rewrite Z.add_0_r. }
    destruct (Z.ltb_spec 0 (e / 2)).
    + rewrite mmul_res by done. cbn [must]. rewrite IH by done. now rewrite V by tauto.
    + rewrite IH by done. rewrite V by lia. done.
Qed.
Lemma gcd_step x y : y <> 0 -> Z.gcd x y = Z.gcd y (x mod y).
Proof. intros N. rewrite (Z.gcd_comm y (x mod y)), Z.gcd_mod by done. apply Z.gcd_comm. Qed.
Lemma egcd_loop_ok k a b : forall x y s s' t t', 0 <= x -> 0 <= y < 2 ^ Z.of_nat k -> a * s + b * t = x -> a * s' + b * t' = y ->
  exists u v, egcd_loop (2 * k) (of_Z x) (of_Z y) (of_Z s) (of_Z s') (of_Z t) (of_Z t') = Some (of_Z (Z.gcd x y), of_Z u, of_Z v) /\ a * u + b * v = Z.gcd x y.
Proof.
  induction k as [|k IH]; intros x y s s' t t' H0 H1 Es Et.
  - assert (y = 0) as -> by (cbn in H1; lia). change (2 * 0)%nat with 0%nat. cbn [egcd_loop]. rewrite is_zero_of_Z, Z.gcd_0_r, Z.abs_eq by lia. exists s, t. done.
  - replace (2 * S k)%nat with (S (S (2 * k))) by lia. cbn [egcd_loop]. rewrite is_zero_of_Z. destruct (Z.eqb_spec y 0) as [->|N]; [rewrite Z.gcd_0_r, Z.abs_eq by lia; exists s, t; done|].
    rewrite div_rem_of_Z. destruct (Z.eqb_spec y 0); [done|]. rewrite !mul_of_Z, !sub_of_Z. set (q := Z.quot x y). assert (Er : x - q * y = x mod y) by (unfold q; rewrite Z.quot_div_nonneg by lia; rewrite Z.mod_eq by lia; ring). rewrite Er.
    pose proof (Z.mod_pos_bound x y ltac:(lia)) as Rb. rewrite is_zero_of_Z. assert (Et' : a * (s - q * s') + b * (t - q * t') = x mod y) by (rewrite <- Er, <- Es, <- Et; ring).
    pose proof (gcd_step x y N) as G.
    destruct (Z.eqb_spec (x mod y) 0) as [E0|E0]; [exists s', t'; rewrite G, E0, Z.gcd_0_r, Z.abs_eq by lia; done|].
    rewrite div_rem_of_Z. destruct (Z.eqb_spec (x mod y) 0); [done|]. rewrite !mul_of_Z, !sub_of_Z. set (q2 := Z.quot y (x mod y)). assert (Er2 : y - q2 * (x mod y) = y mod (x mod y)) by (unfold q2; rewrite Z.quot_div_nonneg by lia; rewrite (Z.mod_eq y (x mod y)) by lia; ring). rewrite Er2.
    pose proof (Z.mod_pos_bound y (x mod y) ltac:(lia)) as Rb2.
    pose proof (gcd_step y (x mod y) E0) as G2. rewrite G, G2.
    apply IH; [lia| |done|transitivity ((a * s' + b * t') - q2 * (a * (s - q * s') + b * (t - q * t'))); [ring|rewrite Et, Et'; exact Er2]]. split; [lia|]. rewrite Nat2Z.inj_succ, Z.pow_succ_r in H1 by lia.
    assert (2 * (y mod (x mod y)) <= y); [|lia]. pose proof (Z.div_mod y (x mod y) ltac:(lia)). assert (1 <= y / (x mod y)) by (apply Z.div_le_lower_bound; lia). nia.
Qed.
Lemma egcd_of_Z a b : 0 <= a -> 0 <= b -> exists u v, bigint_egcd (of_Z a) (of_Z b) = Some (of_Z (Z.gcd a b), of_Z u, of_Z v) /\ a * u + b * v = Z.gcd a b.
Proof.
  intros Ha Hb. unfold bigint_egcd. rewrite one_of_Z', zero_of_Z. destruct (limbs_of_Z b) as (K & _ & V). pose proof (val_bound _ K) as Bd. rewrite V, Z.abs_eq in Bd by lia.
  replace (128 * length (limbs (bi_mag (of_Z b))))%nat with (2 * (64 * length (limbs (bi_mag (of_Z b)))))%nat by lia.
  apply egcd_loop_ok; [done| |ring|ring]. split; [lia|]. replace (2 ^ Z.of_nat (64 * length (limbs (bi_mag (of_Z b))))) with (B ^ Z.of_nat (length (limbs (bi_mag (of_Z b))))); [lia|].
  change B with (2 ^ 64). rewrite <- (Z.pow_mul_r 2 64) by lia. f_equal. lia.
Qed.

(** ** C52 *)
(** Building: refused exactly for a modulus that is not positive; otherwise the value is the least
    nonnegative representative. *)
Theorem C52_new v m : canon v -> canon m ->
  (bval m <= 0 -> mod_new v m = Some None) /\
  (0 < bval m -> exists x, mod_new v m = Some (Some x) /\ mod_ok x /\ mmod x = bval m /\ mval' x = bval v mod bval m).
Proof.
  intros Cv Cm. pose proof (mnew_of_Z (bval v) (bval m)) as E. rewrite !of_Z_bval in E by done. rewrite E. split; intros H.
  - destruct (Z.ltb_spec 0 (bval m)); [lia|done].
  - destruct (Z.ltb_spec 0 (bval m)); [|lia]. eexists. split; [reflexivity|]. destruct (res_ok (bval v) (bval m) H) as (O & V & M). done.
Qed.
Theorem C52_from_i64 v m : is_i64 v -> is_i64 m ->
  (m <= 0 -> mod_from_i64 v m = Some None) /\ (0 < m -> exists x, mod_from_i64 v m = Some (Some x) /\ mod_ok x /\ mmod x = m /\ mval' x = v mod m).
Proof.
  intros Hv Hm. unfold mod_from_i64. rewrite !from_i64_of_Z by done. pose proof (C52_new (of_Z v) (of_Z m) (canon_of_Z v) (canon_of_Z m)) as H. now rewrite !bval_of_Z in H.
Qed.
Lemma neq_moduli x y : mod_ok x -> mod_ok y -> mmod x <> mmod y -> bi_eqb (m_modulus x) (m_modulus y) = false.
Proof. intros _ _ N. destruct (bi_eqb (m_modulus x) (m_modulus y)) eqn:E; [|done]. apply bi_eqb_iff in E. unfold mmod in N. now rewrite E in N. Qed.
(** Sums, differences and products: refused exactly for different moduli, otherwise the integer
    result reduced. *)
Theorem C52_ring x y : mod_ok x -> mod_ok y ->
  (mmod x <> mmod y -> mod_add x y = Some None /\ mod_sub x y = Some None /\ mod_mul x y = Some None) /\
  (mmod x = mmod y -> exists s d p, mod_add x y = Some (Some s) /\ mod_sub x y = Some (Some d) /\ mod_mul x y = Some (Some p) /\ mod_ok s /\ mod_ok d /\ mod_ok p /\
     mmod s = mmod x /\ mmod d = mmod x /\ mmod p = mmod x /\
     mval' s = (mval' x + mval' y) mod mmod x /\ mval' d = (mval' x - mval' y) mod mmod x /\ mval' p = (mval' x * mval' y) mod mmod x).
Proof.
  intros Hx Hy. split.
  - intros N. unfold mod_add, mod_sub, mod_mul. now rewrite (neq_moduli x y Hx Hy N).
  - intros E. destruct (ok_res x Hx) as (Ex & Pm & _), (ok_res y Hy) as (Ey & _ & _). rewrite <- E in Ey. set (m := mmod x) in *. set (a := mval' x) in *. set (b := mval' y) in *. clearbody m a b. subst x y.
    rewrite madd_res, msub_res, mmul_res by done. exists (res (a + b) m), (res (a - b) m), (res (a * b) m).
    destruct (res_ok (a + b) m Pm) as (? & ? & ?), (res_ok (a - b) m Pm) as (? & ? & ?), (res_ok (a * b) m Pm) as (? & ? & ?). done.
Qed.
Theorem C52_negated x : mod_ok x -> exists n, mod_negated x = Some n /\ mod_ok n /\ mmod n = mmod x /\ (mval' n + mval' x) mod mmod x = 0.
Proof.
  intros Hx. destruct (ok_res x Hx) as (Ex & Pm & Bd). set (m := mmod x) in *. set (a := mval' x) in *. clearbody m a. subst x. rewrite mneg_res by done. eexists. split; [reflexivity|]. destruct (res_ok (- a) m Pm) as (O & V & M). split; [done|]. split; [done|]. rewrite V. rewrite Zplus_mod_idemp_l. replace (- a + a) with 0 by ring. apply Z.mod_0_l. lia.
Qed.
(** Powers for every [u64] exponent. *)
Theorem C52_pow x e : mod_ok x -> is_u64 e -> exists p, mod_pow x e = Some p /\ mod_ok p /\ mmod p = mmod x /\ mval' p = (mval' x ^ e) mod mmod x.
Proof.
  intros Hx He. destruct (ok_res x Hx) as (Ex & Pm & Bd). set (m := mmod x) in *. set (a := mval' x) in *. clearbody m a. subst x. unfold mod_pow. cbn [m_modulus res]. rewrite one_of_Z', mnew_pos by done. cbn [must].
  change (Mod (of_Z (a mod m)) (of_Z m)) with (res a m). rewrite mpow_loop_res; [|done|exact He]. eexists. split; [reflexivity|]. rewrite Z.mul_1_l. destruct (res_ok (a ^ e) m Pm) as (O & V & M). done.
Qed.
(** The inverse is found exactly when value and modulus have no common factor. *)
Theorem C52_inverse x : mod_ok x ->
  (Z.gcd (mval' x) (mmod x) <> 1 -> mod_inverse x = Some None) /\
  (Z.gcd (mval' x) (mmod x) = 1 -> exists i, mod_inverse x = Some (Some i) /\ mod_ok i /\ mmod i = mmod x /\ (mval' i * mval' x) mod mmod x = 1 mod mmod x).
Proof.
  intros Hx. destruct (ok_res x Hx) as (Ex & Pm & Bd). set (m := mmod x) in *. set (a := mval' x) in *. clearbody m a. subst x. unfold mod_inverse. cbn [m_value m_modulus res]. rewrite Z.mod_small by done.
  destruct (egcd_of_Z a m) as (u & v & E & Bz); [lia|lia|]. rewrite E, one_of_Z', eqb_of_Z. destruct (Z.eqb_spec (Z.gcd a m) 1) as [G|G]; cbn [negb]; split; try done.
  intros _. rewrite mnew_pos by done. eexists. split; [reflexivity|]. destruct (res_ok u m Pm) as (O & V & M). split; [done|]. split; [done|]. rewrite V. rewrite Zmult_mod_idemp_l. rewrite G in Bz. rewrite <- Bz. replace (u * a) with (a * u + m * v + (- v) * m) by ring. now rewrite Z_mod_plus_full.
Qed.
(** So a value has an inverse exactly when one exists at all. *)
Theorem C52_inverse_complete x b : mod_ok x -> (b * mval' x) mod mmod x = 1 mod mmod x -> exists i, mod_inverse x = Some (Some i) /\ mval' i = b mod mmod x.
Proof.
  intros Hx H. destruct (ok_res x Hx) as (_ & Pm & Bd). assert (G : Z.gcd (mval' x) (mmod x) = 1).
  { apply Z.bezout_1_gcd. pose proof (Z.div_mod (b * mval' x) (mmod x) ltac:(lia)) as D1. pose proof (Z.div_mod 1 (mmod x) ltac:(lia)) as D2. exists b, (1 / mmod x - b * mval' x / mmod x). rewrite <- H in D2. lia. }
  destruct (proj2 (C52_inverse x Hx) G) as (i & E & Oi & Mi & Vi). exists i. split; [done|]. destruct (ok_res i Oi) as (_ & _ & Bi). rewrite Mi in Bi. rewrite <- (Z.mod_small (mval' i) (mmod x)) by done.
  set (m := mmod x) in *. set (a := mval' x) in *. set (c := mval' i) in *. clearbody m a c.
  rewrite <- (Z.mul_1_r c). rewrite <- (Z.mul_1_r b). rewrite <- (Z.mul_mod_idemp_r c 1) by lia. rewrite <- (Z.mul_mod_idemp_r b 1) by lia. rewrite <- H at 1. rewrite <- Vi. rewrite !Z.mul_mod_idemp_r by lia. f_equal. ring.
Qed.
Theorem C52_div x y : mod_ok x -> mod_ok y ->
  (mmod x <> mmod y \/ Z.gcd (mval' y) (mmod y) <> 1 -> mod_div x y = Some None) /\
  (mmod x = mmod y -> Z.gcd (mval' y) (mmod y) = 1 -> exists q, mod_div x y = Some (Some q) /\ mod_ok q /\ mmod q = mmod x /\ (mval' q * mval' y) mod mmod x = mval' x).
Proof.
  intros Hx Hy. unfold mod_div. split.
  - intros [N|N]; [now rewrite (neq_moduli x y Hx Hy N)|]. rewrite (proj1 (C52_inverse y Hy) N). now destruct (negb _).
  - intros E G. assert (Eb : bi_eqb (m_modulus x) (m_modulus y) = true). { apply bi_eqb_iff. apply canon_inj; [apply Hx|apply Hy|exact E]. } rewrite Eb. cbn [negb]. destruct (proj2 (C52_inverse y Hy) G) as (i & Ei & Oi & Mi & Vi). rewrite Ei.
    destruct (proj2 (C52_ring x i Hx Oi) ltac:(congruence)) as (_ & _ & p & _ & _ & Ep & _ & _ & Op & _ & _ & Mp & _ & _ & Vp). exists p. split; [done|]. split; [done|]. split; [done|]. destruct (ok_res x Hx) as (_ & Pm & Bd). rewrite Vp. rewrite Zmult_mod_idemp_l. rewrite <- Z.mul_assoc. rewrite <- Z.mul_mod_idemp_r by lia. rewrite E, Vi. rewrite Z.mul_mod_idemp_r by lia. rewrite Z.mul_1_r. rewrite <- E. now apply Z.mod_small.
Qed.
(** Equality compares residue and modulus. *)
Theorem C52_equality x y : mod_ok x -> mod_ok y -> (mod_eqb x y = true <-> mval' x = mval' y /\ mmod x = mmod y) /\ (mod_is_zero x = true <-> mval' x = 0).
Proof.
  intros Hx Hy. split.
  - unfold mod_eqb. rewrite andb_true_iff, !bi_eqb_iff. unfold mval', mmod. split; [intros [-> ->]; done|]. intros [A C]. split; (apply canon_inj; [apply Hx|apply Hy|done]).
  - destruct (ok_res x Hx) as (Ex & Pm & Bd). rewrite Ex at 1. unfold mod_is_zero. cbn [m_value res]. rewrite is_zero_of_Z, Z.mod_small by done. apply Z.eqb_eq.
Qed.

(** ** Examples *)
Definition md (v m : Z) : modular := Mod (bi_from_i64 v) (bi_from_i64 m).
Example ex_ok : mod_ok (md 3 7) /\ Z.gcd (mval' (md 3 7)) (mmod (md 3 7)) = 1.
Proof. split; [|vm_compute; reflexivity]. split; [apply C27_canonical; constructor; unfold is_i64; lia|]. split; [apply C27_canonical; constructor; unfold is_i64; lia|]. vm_compute. split; done. Qed.
Example ex_new : mod_from_i64 (-1) 7 = Some (Some (md 6 7)) /\ mod_from_i64 3 0 = Some None. Proof. vm_compute. done. Qed.
Example ex_inv : mod_inverse (md 3 7) = Some (Some (md 5 7)) /\ mod_inverse (md 2 4) = Some None /\ mod_inverse (md 0 1) = Some (Some (md 0 1)). Proof. vm_compute. done. Qed.
Example ex_pow : mod_pow (md 2 1000) 10 = Some (md 24 1000) /\ mod_pow (md 0 7) 0 = Some (md 1 7). Proof. vm_compute. done. Qed.
Example ex_div : mod_div (md 6 7) (md 3 7) = Some (Some (md 2 7)) /\ mod_div (md 6 7) (md 3 8) = Some None. Proof. vm_compute. done. Qed.
