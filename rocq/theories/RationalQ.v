(** Fractions as rational numbers: every operation of the model is the operation on [Q]. *)
From Coq Require Import ZArith List Lia QArith Qround Qabs Qpower Znumtheory.
From Coq Require Qcanon.
From stdpp Require Import list.
From Verif Require Import MachInt BitLemmas BigIntModel BigIntProofs BigIntZ BigIntText RationalModel.
Open Scope Z_scope.

(** The number a fraction stands for; lowest terms, positive denominator, canonical parts. *)
Definition rval (x : rational) : Q := bval (r_num x) # Z.to_pos (bval (r_den x)).
Definition rcanon (x : rational) : Prop :=
  canon (r_num x) /\ canon (r_den x) /\ 0 < bval (r_den x) /\ Z.gcd (bval (r_num x)) (bval (r_den x)) = 1.

Definition ratz (n d : Z) : rational := Rat (of_Z n) (of_Z d).
Definition ofQ (q : Q) : rational := ratz (Qnum (Qred q)) (QDen (Qred q)).

Lemma Qred_gcd q : Z.gcd (Qnum (Qred q)) (QDen (Qred q)) = 1.
Proof.
  destruct q as [n d]. unfold Qred. pose proof (Z.ggcd_gcd n (Zpos d)) as G. pose proof (Z.ggcd_correct_divisors n (Zpos d)) as D.
  destruct (Z.ggcd n (Zpos d)) as [g [a b]]. cbn [fst snd] in *. destruct D as [Dn Dd]. assert (Hg : 0 < g).
  { pose proof (Z.gcd_nonneg n (Zpos d)). assert (g <> 0); [|lia]. intros ->. lia. }
  assert (Hb : 0 < b) by nia. cbn. rewrite Z2Pos.id by done.
  assert (g * Z.gcd a b = g); [|nia]. rewrite <- Z.gcd_mul_mono_l_nonneg by lia. rewrite <- Dn, <- Dd. done.
Qed.
Lemma Qnum_red_den q : 0 < QDen (Qred q). Proof. lia. Qed.
Lemma ofQ_char n d q : 0 < d -> Z.gcd n d = 1 -> n * QDen q = Qnum q * d -> ratz n d = ofQ q.
Proof.
  intros Hd Hg E. unfold ofQ. assert (Qred q = n # Z.to_pos d) as ->.
  { rewrite <- (Qcanon.Qred_identity (n # Z.to_pos d)) by (cbn; rewrite Z2Pos.id by done; done). apply Qred_complete. unfold Qeq. cbn. rewrite Z2Pos.id by done. lia. }
  cbn. rewrite Z2Pos.id by done. done.
Qed.
Lemma rcanon_ofQ q : rcanon (ofQ q).
Proof. unfold rcanon, ofQ, ratz. cbn [r_num r_den]. rewrite !bval_of_Z. split; [apply canon_of_Z|]. split; [apply canon_of_Z|]. split; [lia|apply Qred_gcd]. Qed.
Lemma rval_ofQ q : (rval (ofQ q) == q)%Q.
Proof. unfold rval, ofQ, ratz. cbn [r_num r_den]. rewrite !bval_of_Z. cbn [Z.to_pos]. rewrite <- (Qred_correct q) at 3. destruct (Qred q). reflexivity. Qed.
Lemma ofQ_rval x : rcanon x -> ofQ (rval x) = x.
Proof.
  intros (Cn & Cd & P & G). symmetry. destruct x as [n d]. cbn [r_num r_den] in *. rewrite <- (of_Z_bval n Cn), <- (of_Z_bval d Cd) at 1. apply ofQ_char; [done|done|].
  unfold rval. cbn. rewrite Z2Pos.id by done. done.
Qed.
Lemma ofQ_proper p q : (p == q)%Q -> ofQ p = ofQ q.
Proof. intros E. unfold ofQ. now rewrite (Qred_complete p q E). Qed.
Lemma ofQ_inj p q : ofQ p = ofQ q -> (p == q)%Q.
Proof. intros E. rewrite <- (rval_ofQ p), <- (rval_ofQ q), E. reflexivity. Qed.
(** The canonical parts of a number. *)
Lemma ofQ_parts q : exists n d, ofQ q = ratz n d /\ 0 < d /\ Z.gcd n d = 1 /\ (q == n # Z.to_pos d)%Q.
Proof.
  exists (Qnum (Qred q)), (QDen (Qred q)). split; [done|]. split; [lia|]. split; [apply Qred_gcd|]. rewrite <- (Qred_correct q) at 1. destruct (Qred q). reflexivity.
Qed.
Lemma ratz_ofQ n d : 0 < d -> Z.gcd n d = 1 -> ratz n d = ofQ (n # Z.to_pos d).
Proof. intros Hd Hg. apply ofQ_char; [done|done|]. cbn. rewrite Z2Pos.id by done. done. Qed.
Lemma rational_inj x y : rcanon x -> rcanon y -> (rval x == rval y)%Q -> x = y.
Proof. intros Hx Hy E. rewrite <- (ofQ_rval x Hx), <- (ofQ_rval y Hy). now apply ofQ_proper. Qed.

(** ** The Euclidean loop *)
Lemma gcd_loop_ok k a b : 0 <= a -> 0 <= b < 2 ^ Z.of_nat k -> gcd_loop (2 * k) (of_Z a) (of_Z b) = Some (of_Z (Z.gcd a b)).
Proof.
  revert a b. induction k as [|k IH]; intros a b Ha [H0 H1].
  - assert (b = 0) as -> by (cbn in H1; lia). change (2 * 0)%nat with 0%nat. cbn [gcd_loop]. rewrite is_zero_of_Z, Z.gcd_0_r, Z.abs_eq by lia. done.
  - replace (2 * S k)%nat with (S (S (2 * k))) by lia. cbn [gcd_loop]. rewrite is_zero_of_Z. destruct (Z.eqb_spec b 0) as [->|N]; [rewrite Z.gcd_0_r, Z.abs_eq by lia; done|].
    rewrite div_rem_of_Z. destruct (Z.eqb_spec b 0); [done|]. rewrite Z.rem_mod_nonneg by lia. rewrite is_zero_of_Z. pose proof (Z.mod_pos_bound a b ltac:(lia)) as M.
    rewrite (Z.gcd_comm a b), <- (Z.gcd_mod a b N), (Z.gcd_comm (a mod b) b). destruct (Z.eqb_spec (a mod b) 0) as [E|E]; [rewrite E, Z.gcd_0_r, Z.abs_eq by lia; done|].
    rewrite div_rem_of_Z. destruct (Z.eqb_spec (a mod b) 0); [done|]. rewrite Z.rem_mod_nonneg by lia. rewrite IH; [|lia|].
    + f_equal. f_equal. rewrite Z.gcd_comm, Z.gcd_mod by done. apply Z.gcd_comm.
    + set (r := a mod b) in *. pose proof (Z.mod_pos_bound b r ltac:(lia)) as M2. split; [lia|]. rewrite Nat2Z.inj_succ, Z.pow_succ_r in H1 by lia.
      pose proof (Z.div_mod b r E) as D. assert (1 <= b / r) by (apply Z.div_le_lower_bound; lia). assert (b mod r < r) by lia. nia.
Qed.
Lemma gcd_of_Z a b : bigint_gcd (of_Z a) (of_Z b) = Some (of_Z (Z.gcd a b)).
Proof.
  unfold bigint_gcd. rewrite !abs_of_Z. destruct (limbs_of_Z b) as (K & _ & V). pose proof (val_bound _ K) as Bd. rewrite V in Bd.
  replace (128 * length (limbs (bi_mag (of_Z b))))%nat with (2 * (64 * length (limbs (bi_mag (of_Z b)))))%nat by lia.
  rewrite gcd_loop_ok; [now rewrite Z.gcd_abs_l, Z.gcd_abs_r|lia|]. split; [lia|].
  replace (2 ^ Z.of_nat (64 * length (limbs (bi_mag (of_Z b))))) with (B ^ Z.of_nat (length (limbs (bi_mag (of_Z b))))); [lia|].
  change B with (2 ^ 64). rewrite <- (Z.pow_mul_r 2 64) by lia. f_equal. lia.
Qed.

(** ** Construction *)
Lemma one_of_Z : bi_one = of_Z 1.
Proof. unfold bi_one. apply from_i64_of_Z. unfold is_i64. lia. Qed.
Definition Qfrac (n d : Z) : Q := (inject_Z n / inject_Z d)%Q.
Lemma Qfrac_pos n d : 0 < d -> (Qfrac n d == n # Z.to_pos d)%Q.
Proof. intros H. unfold Qfrac. destruct d as [|p|p]; try lia. symmetry. rewrite Qmake_Qdiv. reflexivity. Qed.
Lemma Qfrac_neg n d : (Qfrac (- n) (- d) == Qfrac n d)%Q.
Proof. destruct (Z.eq_dec d 0) as [->|N]; [unfold Qfrac, Qdiv; change (/ inject_Z (- 0))%Q with 0%Q; change (/ inject_Z 0)%Q with 0%Q; ring|]. unfold Qfrac. rewrite !inject_Z_opp. field. intros E. apply N. unfold Qeq in E. cbn in E. lia. Qed.
Lemma frac_reduced n d : 0 < d -> let g := Z.gcd n d in ratz (Z.quot n g) (Z.quot d g) = ofQ (n # Z.to_pos d).
Proof.
  intros Hd g. assert (Hg : 0 < g) by (pose proof (Z.gcd_nonneg n d); assert (g <> 0) by (unfold g; intros E; apply Z.gcd_eq_0 in E; lia); lia).
  destruct (Z.gcd_divide_l n d) as [a Ea]. destruct (Z.gcd_divide_r n d) as [b Eb]. fold g in Ea, Eb. assert (Hb : 0 < b) by nia.
  assert (Z.quot n g = a) as -> by (rewrite Ea; apply Z.quot_mul; lia). assert (Z.quot d g = b) as -> by (rewrite Eb; apply Z.quot_mul; lia).
  apply ofQ_char; [done| |cbn; rewrite Z2Pos.id by done; rewrite Ea, Eb; ring].
  assert (g * Z.gcd a b = g); [|nia]. rewrite <- Z.gcd_mul_mono_l_nonneg by lia. rewrite (Z.mul_comm g a), (Z.mul_comm g b), <- Ea, <- Eb. done.
Qed.
Lemma new_of_Z n d : rat_new (of_Z n) (of_Z d) = Some (if d =? 0 then None else Some (ofQ (Qfrac n d))).
Proof.
  unfold rat_new. rewrite is_zero_of_Z. destruct (Z.eqb_spec d 0) as [->|N]; [done|]. rewrite is_negative_of_Z.
  assert (G : forall n d, 0 < d -> (if bi_is_zero (of_Z n) then Some (Some (Rat bi_zero bi_one)) else
    match bigint_gcd (of_Z n) (of_Z d) with None => None | Some g => match bi_div_rem (of_Z n) g, bi_div_rem (of_Z d) g with Some (n, _), Some (d, _) => Some (Some (Rat n d)) | _, _ => None end end) = Some (Some (ofQ (Qfrac n d)))).
  { clear. intros n d Hd. rewrite (ofQ_proper _ _ (Qfrac_pos n d Hd)). rewrite is_zero_of_Z. destruct (Z.eqb_spec n 0) as [->|Nn].
    - rewrite zero_of_Z, one_of_Z. change (Rat (of_Z 0) (of_Z 1)) with (ratz 0 1). rewrite (ofQ_char 0 1 (0 # Z.to_pos d)); [done|lia|done|]. cbn. lia.
    - rewrite gcd_of_Z. assert (Hg : Z.gcd n d <> 0) by (intros E; apply Z.gcd_eq_0 in E; lia). rewrite !div_rem_of_Z. destruct (Z.eqb_spec (Z.gcd n d) 0); [done|].
      do 2 f_equal. now apply frac_reduced. }
  destruct (Z.ltb_spec d 0) as [H|H].
  - rewrite !negated_of_Z. rewrite G by lia. do 2 f_equal. apply ofQ_proper, Qfrac_neg.
  - apply G. lia.
Qed.
Lemma expect_new n d : d <> 0 -> expect (rat_new (of_Z n) (of_Z d)) = Some (ofQ (Qfrac n d)).
Proof. intros H. rewrite new_of_Z. destruct (Z.eqb_spec d 0); done. Qed.
Lemma from_bigint_ofQ z : rat_from_bigint (of_Z z) = ofQ (inject_Z z).
Proof. unfold rat_from_bigint. rewrite one_of_Z. apply (ofQ_char z 1); [lia|apply Z.gcd_1_r|]. cbn. lia. Qed.
Lemma from_i64_ofQ x : is_i64 x -> rat_from_i64 x = ofQ (inject_Z x).
Proof. intros H. unfold rat_from_i64. rewrite from_i64_of_Z by done. apply from_bigint_ofQ. Qed.
Lemma rat_zero_ofQ : rat_zero = ofQ 0.
Proof. unfold rat_zero. rewrite zero_of_Z. apply (from_bigint_ofQ 0). Qed.
Lemma rat_one_ofQ : rat_one = ofQ 1.
Proof. unfold rat_one. rewrite from_i64_ofQ by (unfold is_i64; lia). reflexivity. Qed.

(** Work with the canonical parts. *)
Ltac parts q n d := let E := fresh "E" in let P := fresh "P" in let G := fresh "G" in let V := fresh "V" in
  destruct (ofQ_parts q) as (n & d & E & P & G & V); rewrite E; unfold ratz; cbn [r_num r_den].

Lemma Qfrac_num n d q : 0 < d -> (q == n # Z.to_pos d)%Q -> (inject_Z n == q * inject_Z d)%Q.
Proof. intros H ->. unfold Qeq. cbn [Qnum Qden Qmult inject_Z]. rewrite Pos.mul_1_r, Z2Pos.id by done. lia. Qed.
Lemma inj_neq0 d : d <> 0 -> ~ (inject_Z d == 0)%Q.
Proof. intros N E. apply N. unfold Qeq in E. cbn in E. lia. Qed.
Lemma q_zero n d q : 0 < d -> (q == n # Z.to_pos d)%Q -> n = 0 <-> (q == 0)%Q.
Proof. intros H ->. unfold Qeq. cbn. lia. Qed.
Lemma q_compare n d q n' d' q' : 0 < d -> (q == n # Z.to_pos d)%Q -> 0 < d' -> (q' == n' # Z.to_pos d')%Q -> (n * d' ?= n' * d) = (q ?= q')%Q.
Proof. intros H V H' V'. rewrite (Qcompare_comp _ _ V _ _ V'). unfold Qcompare. cbn. rewrite !Z2Pos.id by done. done. Qed.

Lemma add_ofQ p q : rat_add (ofQ p) (ofQ q) = Some (ofQ (p + q)).
Proof.
  unfold rat_add. parts p a b. parts q c d. rewrite !mul_of_Z, add_of_Z, expect_new by nia. f_equal. apply ofQ_proper. unfold Qfrac. rewrite inject_Z_plus, !inject_Z_mult.
  rewrite (Qfrac_num a b p), (Qfrac_num c d q) by done. field. split; apply inj_neq0; lia.
Qed.
Lemma sub_ofQ p q : rat_sub (ofQ p) (ofQ q) = Some (ofQ (p - q)).
Proof.
  unfold rat_sub. parts p a b. parts q c d. rewrite !mul_of_Z, sub_of_Z, expect_new by nia. f_equal. apply ofQ_proper. unfold Qfrac, Z.sub. rewrite inject_Z_plus, inject_Z_opp, !inject_Z_mult.
  rewrite (Qfrac_num a b p), (Qfrac_num c d q) by done. field. split; apply inj_neq0; lia.
Qed.
Lemma rmul_ofQ p q : rat_mul (ofQ p) (ofQ q) = Some (ofQ (p * q)).
Proof.
  unfold rat_mul. parts p a b. parts q c d. rewrite !mul_of_Z, expect_new by nia. f_equal. apply ofQ_proper. unfold Qfrac. rewrite !inject_Z_mult.
  rewrite (Qfrac_num a b p), (Qfrac_num c d q) by done. field. split; apply inj_neq0; lia.
Qed.
Definition Qis0 (q : Q) : bool := Qeq_bool q 0.
Lemma Qis0_spec q : Bool.reflect (q == 0)%Q (Qis0 q).
Proof. unfold Qis0. destruct (Qeq_bool q 0) eqn:E; constructor; [now apply Qeq_bool_eq|now apply Qeq_bool_neq]. Qed.
Lemma div_ofQ p q : rat_div (ofQ p) (ofQ q) = Some (if Qis0 q then None else Some (ofQ (p / q))).
Proof.
  unfold rat_div. parts p a b. parts q c d. rewrite !mul_of_Z, new_of_Z. f_equal. pose proof (q_zero c d q P0 V0) as Z0. destruct (Qis0_spec q) as [Hq|Hq].
  - apply Z0 in Hq. subst c. rewrite Z.mul_0_r. done.
  - destruct (Z.eqb_spec (b * c) 0) as [Hc|Hc]; [exfalso; apply Hq, Z0; nia|]. f_equal. apply ofQ_proper. unfold Qfrac. rewrite !inject_Z_mult.
    rewrite (Qfrac_num a b p), (Qfrac_num c d q) by done. field. repeat apply conj; try exact Hq; apply inj_neq0; lia.
Qed.
Lemma recip_ofQ q : rat_recip (ofQ q) = Some (if Qis0 q then None else Some (ofQ (/ q))).
Proof.
  unfold rat_recip. parts q c d. rewrite new_of_Z. f_equal. pose proof (q_zero c d q P V) as Z0. destruct (Qis0_spec q) as [Hq|Hq].
  - apply Z0 in Hq. subst c. done.
  - destruct (Z.eqb_spec c 0) as [Hc|Hc]; [exfalso; tauto|]. f_equal. apply ofQ_proper. unfold Qfrac. rewrite (Qfrac_num c d q) by done. field. repeat apply conj; try exact Hq; apply inj_neq0; lia.
Qed.
Lemma rnegated_ofQ q : rat_negated (ofQ q) = ofQ (- q).
Proof.
  unfold rat_negated. parts q c d. rewrite negated_of_Z. apply ofQ_char; [done|now rewrite Z.gcd_opp_l|]. unfold Qeq in V. cbn in *. rewrite Z2Pos.id in V by done. lia.
Qed.
Lemma rabs_ofQ q : rat_abs (ofQ q) = ofQ (Qabs q).
Proof.
  unfold rat_abs. parts q c d. rewrite abs_of_Z. apply ofQ_char; [done|now rewrite Z.gcd_abs_l|]. destruct q as [n e]. unfold Qeq in V. cbn in *. rewrite Z2Pos.id in V by done.
  assert (Z.abs (n * d) = Z.abs (c * Zpos e)) as X by (now rewrite V). rewrite !Z.abs_mul in X. rewrite (Z.abs_eq d) in X by lia. cbn in X. lia.
Qed.
Lemma rcmp_ofQ p q : rat_cmp (ofQ p) (ofQ q) = (p ?= q)%Q.
Proof. unfold rat_cmp. parts p a b. parts q c d. rewrite !mul_of_Z, cmp_of_Z. now apply q_compare. Qed.
Lemma rat_eqb_iff x y : rat_eqb x y = true <-> x = y.
Proof. unfold rat_eqb. rewrite andb_true_iff, !bi_eqb_iff. destruct x, y. cbn. split; [intros [-> ->]; done|intros [= -> ->]; done]. Qed.
Lemma ris_zero_ofQ q : rat_is_zero (ofQ q) = Qis0 q.
Proof. unfold rat_is_zero. parts q c d. rewrite is_zero_of_Z. pose proof (q_zero c d q P V). destruct (Qis0_spec q), (Z.eqb_spec c 0); tauto. Qed.
Definition Qneg (q : Q) : bool := Qnum q <? 0.
Lemma Qneg_spec q : Bool.reflect (q < 0)%Q (Qneg q).
Proof. unfold Qneg. destruct (Qnum q <? 0) eqn:H; constructor; [apply Z.ltb_lt in H|apply Z.ltb_ge in H]; unfold Qlt; cbn; lia. Qed.
Lemma q_neg n d q : 0 < d -> (q == n # Z.to_pos d)%Q -> n < 0 <-> (q < 0)%Q.
Proof. intros H ->. unfold Qlt. cbn. lia. Qed.
Lemma q_pos n d q : 0 < d -> (q == n # Z.to_pos d)%Q -> 0 < n <-> (0 < q)%Q.
Proof. intros H ->. unfold Qlt. cbn. lia. Qed.
Lemma ris_negative_ofQ q : rat_is_negative (ofQ q) = Qneg q.
Proof. unfold rat_is_negative. parts q c d. rewrite is_negative_of_Z. pose proof (q_neg c d q P V). destruct (Qneg_spec q), (Z.ltb_spec c 0); try done; exfalso; [assert (c < 0) by tauto; lia|tauto]. Qed.
Lemma ris_positive_ofQ q : rat_is_positive (ofQ q) = (0 <? Qnum q).
Proof.
  unfold rat_is_positive. parts q c d. rewrite is_positive_of_Z. pose proof (q_pos c d q P V) as H. assert (H2 : 0 < Qnum q <-> (0 < q)%Q) by (unfold Qlt; cbn; lia).
  destruct (Z.ltb_spec 0 c), (Z.ltb_spec 0 (Qnum q)); try done; exfalso; [assert (0 < Qnum q) by tauto|assert (0 < c) by tauto]; lia.
Qed.
Lemma is_integer_ofQ q : rat_is_integer (ofQ q) = true <-> exists z, (q == inject_Z z)%Q.
Proof.
  unfold rat_is_integer. parts q c d. rewrite bi_eqb_iff, one_of_Z. split.
  - intros ->%of_Z_inj. exists c. exact V.
  - intros [z Hz]. f_equal. rewrite Hz in V. unfold Qeq in V. cbn in V. rewrite Z2Pos.id in V by done. assert (D : (d | Z.gcd c d)). { apply Z.gcd_greatest; [exists z; lia|reflexivity]. } rewrite G in D. apply Z.divide_1_r_nonneg in D; lia.
Qed.
Lemma to_bigint_ofQ q b : rat_to_bigint (ofQ q) = Some b <-> canon b /\ (q == inject_Z (bval b))%Q.
Proof.
  unfold rat_to_bigint. destruct (rat_is_integer (ofQ q)) eqn:E.
  - apply is_integer_ofQ in E as [z Hz]. rewrite (ofQ_proper _ _ Hz), <- from_bigint_ofQ. cbn. split.
    + intros [= <-]. split; [apply canon_of_Z|]. now rewrite bval_of_Z.
    + intros [C H]. rewrite Hz in H. unfold Qeq in H. cbn in H. f_equal. rewrite <- (of_Z_bval b C). f_equal. lia.
  - split; [done|]. intros [C H]. assert (rat_is_integer (ofQ q) = true); [|congruence]. apply is_integer_ofQ. eauto.
Qed.
Lemma rat_to_i64_ofQ q n : rat_to_i64 (ofQ q) = Some n <-> is_i64 n /\ (q == inject_Z n)%Q.
Proof.
  unfold rat_to_i64. destruct (rat_is_integer (ofQ q)) eqn:E.
  - apply is_integer_ofQ in E as [z Hz]. rewrite (ofQ_proper _ _ Hz), <- from_bigint_ofQ. cbn [r_num rat_from_bigint]. rewrite to_i64_of_Z.
    rewrite Hz. unfold Qeq, is_i64. cbn [Qnum Qden inject_Z]. destruct (Z.leb_spec (- 2 ^ 63) z), (Z.ltb_spec z (2 ^ 63)); cbn [andb]; split; try done; try (intros [= <-]; lia); intros [? ?]; try (f_equal; lia); lia.
  - split; [done|]. intros [C H]. assert (rat_is_integer (ofQ q) = true); [|congruence]. apply is_integer_ofQ. eauto.
Qed.

(** ** Rounding *)
Lemma quot_floor n d : 0 < d -> (if (n <? 0) && negb (Z.rem n d =? 0) then Z.quot n d - 1 else Z.quot n d) = n / d.
Proof.
  intros Hd. pose proof (Z.quot_rem' n d) as E. destruct (Z.ltb_spec n 0) as [H|H]; cbn [andb].
  - pose proof (Z.rem_bound_abs n d ltac:(lia)) as R. pose proof (Z.rem_sign_mul n d ltac:(lia)) as R2. assert (Z.rem n d <= 0) by nia. destruct (Z.eqb_spec (Z.rem n d) 0) as [Z0|Z0]; cbn [negb].
    + apply (Z.div_unique_pos n d (Z.quot n d) 0); lia.
    + apply (Z.div_unique_pos n d (Z.quot n d - 1) (Z.rem n d + d)); lia.
  - apply Z.quot_div_nonneg; lia.
Qed.
Lemma quot_ceil n d : 0 < d -> (if negb (n <? 0) && negb (Z.rem n d =? 0) then Z.quot n d + 1 else Z.quot n d) = - ((- n) / d).
Proof.
  intros Hd. rewrite <- (quot_floor (- n) d Hd). rewrite Z.quot_opp_l, Z.rem_opp_l by lia. destruct (Z.eqb_spec (Z.rem n d) 0) as [Z0|Z0].
  - replace (- Z.rem n d =? 0) with true by (symmetry; apply Z.eqb_eq; lia). cbn [negb]. rewrite !andb_false_r. lia.
  - replace (- Z.rem n d =? 0) with false by (symmetry; apply Z.eqb_neq; lia). cbn [negb]. rewrite !andb_true_r. destruct (Z.eq_dec n 0) as [->|N]; [rewrite Z.rem_0_l in Z0 by lia; done|].
    destruct (Z.ltb_spec n 0), (Z.ltb_spec (- n) 0); cbn [negb]; lia.
Qed.
Lemma Qfloor_parts n d q : 0 < d -> (q == n # Z.to_pos d)%Q -> Qfloor q = n / d.
Proof. intros H V. rewrite (Qfloor_comp _ _ V). cbn. now rewrite Z2Pos.id. Qed.
Lemma floor_ofQ q : rat_floor (ofQ q) = Some (of_Z (Qfloor q)).
Proof.
  unfold rat_floor. parts q n d. rewrite div_rem_of_Z. destruct (Z.eqb_spec d 0); [lia|]. f_equal. rewrite is_negative_of_Z, is_zero_of_Z, one_of_Z, sub_of_Z.
  rewrite (Qfloor_parts n d q P V), <- quot_floor by done. now destruct ((n <? 0) && negb (Z.rem n d =? 0)).
Qed.
Lemma ceil_ofQ q : rat_ceil (ofQ q) = Some (of_Z (Qceiling q)).
Proof.
  unfold rat_ceil. parts q n d. rewrite div_rem_of_Z. destruct (Z.eqb_spec d 0); [lia|]. f_equal. rewrite is_negative_of_Z, is_zero_of_Z, one_of_Z, add_of_Z.
  unfold Qceiling. rewrite (Qfloor_parts (- n) d (- q)); [|done|rewrite V; reflexivity]. rewrite <- quot_ceil by done. now destruct (negb (n <? 0) && negb (Z.rem n d =? 0)).
Qed.
Lemma round_ofQ q : rat_round (ofQ q) = Some (of_Z (if Qneg q then - Qfloor (- q + (1 # 2)) else Qfloor (q + (1 # 2)))).
Proof.
  rewrite <- ris_negative_ofQ. unfold rat_round, rat_is_negative. parts q n d. rewrite (from_i64_of_Z 2) by (unfold is_i64; lia). rewrite abs_of_Z, !mul_of_Z, add_of_Z, div_rem_of_Z. destruct (Z.eqb_spec (d * 2) 0); [lia|].
  f_equal. rewrite is_negative_of_Z, Z.quot_div_nonneg by lia.
  assert (F : forall m p, (p == m # Z.to_pos d)%Q -> Qfloor (p + (1 # 2)) = (m * 2 + d) / (d * 2)).
  { intros m p Hp. apply Qfloor_parts; [lia|]. rewrite Hp. unfold Qeq. cbn. rewrite Pos2Z.inj_mul. rewrite !Z2Pos.id by lia. ring. }
  destruct (Z.ltb_spec n 0) as [H|H].
  - rewrite negated_of_Z. do 2 f_equal. rewrite (F (- n) (- q)%Q); [do 2 f_equal; lia|]. rewrite V. reflexivity.
  - f_equal. rewrite (F n q V). do 2 f_equal. lia.
Qed.

(** ** Powers *)
Lemma Qpower_inject z e : 0 <= e -> (Qpower (inject_Z z) e == inject_Z (z ^ e))%Q.
Proof. intros H. symmetry. now apply Zpower_Qpower. Qed.
Lemma Qpower_frac a b e : b <> 0 -> 0 <= e -> (Qfrac (a ^ e) (b ^ e) == Qpower (Qfrac a b) e)%Q.
Proof. intros Hb He. unfold Qfrac, Qdiv. rewrite Qmult_power, Qinv_power, !Qpower_inject by done. reflexivity. Qed.
Lemma q_frac n d q : 0 < d -> (q == n # Z.to_pos d)%Q -> (Qfrac n d == q)%Q.
Proof. intros H ->. now apply Qfrac_pos. Qed.
Lemma rpow_ofQ q e : - 2 ^ 31 <= e < 2 ^ 31 -> rat_pow (ofQ q) e = Some (if (e <? 0) && Qis0 q then None else Some (ofQ (Qpower q e))).
Proof.
  intros He. unfold rat_pow. pose proof (ris_zero_ofQ q) as Z0. unfold rat_is_zero in Z0. parts q n d. rewrite E in Z0. cbn [r_num ratz] in Z0. pose proof (q_frac n d q P V) as F.
  destruct (Z.leb_spec 0 e) as [H|H].
  - rewrite !pow_of_Z by lia. rewrite expect_new by (apply Z.pow_nonzero; lia). destruct (Z.ltb_spec e 0); [lia|]. cbn [andb]. do 2 f_equal. apply ofQ_proper. rewrite Qpower_frac, F by lia. reflexivity.
  - rewrite Z0. destruct (Z.ltb_spec e 0); [|lia]. cbn [andb]. destruct (Qis0_spec q) as [Hq|Hq]; [done|]. rewrite !pow_of_Z by lia. pose proof (q_zero n d q P V) as Zn. assert (n <> 0) by tauto.
    rewrite new_of_Z. destruct (Z.eqb_spec (n ^ Z.abs e) 0) as [X|X]; [exfalso; revert X; apply Z.pow_nonzero; lia|]. do 2 f_equal. apply ofQ_proper. rewrite Qpower_frac by lia.
    assert (Qfrac d n == / q)%Q as ->. { rewrite <- F. unfold Qfrac. field. split; apply inj_neq0; lia. }
    rewrite Qinv_power. replace e with (- Z.abs e) at 2 by lia. rewrite Qpower_opp. reflexivity.
Qed.
