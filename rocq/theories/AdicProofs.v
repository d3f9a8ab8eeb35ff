(* Lemmas on the 2-adic reconstruction and the maximal order complexity *)
From Coq Require Import ZArith List Lia Bool Arith Znumtheory.
Import ListNotations.
From Verif Require Import AdicModel.
Open Scope Z_scope.

(* the number written by a list of bits, least significant first *)
Fixpoint value (bits : list bool) : Z :=
  match bits with [] => 0 | b :: bits => (if b then 1 else 0) + 2 * value bits end.
Lemma value_range bits : 0 <= value bits < 2 ^ Z.of_nat (length bits).
Proof.
  induction bits as [|b bits IH]; cbn [value length]; [cbn; lia|].
  rewrite Nat2Z.inj_succ, Z.pow_succ_r by lia. destruct b; lia.
Qed.
Lemma value_inj x : forall y, length x = length y -> value x = value y -> x = y.
Proof.
  induction x as [|b x IH]; intros [|c y] L E; cbn [length value] in *; try discriminate; [reflexivity|].
  destruct b, c; try lia; f_equal; apply IH; lia.
Qed.
Lemma value_fold bits : forall a P, fold_left value_step bits (a, P) = (a + P * value bits, P * 2 ^ Z.of_nat (length bits)).
Proof.
  induction bits as [|b bits IH]; intros a P; cbn [fold_left value_step value length].
  - f_equal; cbn; lia.
  - rewrite IH. rewrite Nat2Z.inj_succ, Z.pow_succ_r by lia. f_equal; [destruct b; ring|ring].
Qed.

Lemma euclid_fuel nb : forall k f r0 t0 r1 t1, 0 <= r1 < 2 ^ Z.of_nat k -> (2 * k <= f)%nat ->
  0 < nb -> exists r, euclid f nb r0 t0 r1 t1 = Some r.
Proof.
  induction k as [|k IH]; intros f r0 t0 r1 t1 H1 Hf Hn.
  - cbn in H1. assert (r1 = 0) as -> by lia. destruct f; cbn; eauto.
  - destruct f as [|[|f]]; [lia|lia|]. cbn [euclid]. destruct (negb (r1 =? 0) && (nb <? r1 * r1)) eqn:C; [|eauto].
    apply andb_prop in C as [C _]. apply negb_true_iff, Z.eqb_neq in C.
    set (r2 := Z.rem r0 r1). set (t2 := t0 - Z.quot r0 r1 * t1).
    destruct (negb (r2 =? 0) && (nb <? r2 * r2)) eqn:C2; [|eauto].
    apply andb_prop in C2 as [C2 _]. apply negb_true_iff, Z.eqb_neq in C2.
    destruct (Z_lt_ge_dec r2 0) as [Neg|Pos].
    + (* not reached from non-negative numbers; the bound still holds *)
      assert (Hr : Z.abs r2 < r1) by (unfold r2; pose proof (Z.rem_bound_abs r0 r1 ltac:(lia)); lia).
      apply IH; [|lia|exact Hn]. pose proof (Z.rem_bound_pos_pos r1 (- r2) ltac:(lia) ltac:(lia)) as B.
      rewrite Z.rem_opp_r in B by lia. split; [lia|]. rewrite Nat2Z.inj_succ, Z.pow_succ_r in H1 by lia.
      assert (2 * Z.rem r1 r2 < r1); [|lia].
      pose proof (Z.quot_rem' r1 r2) as Q. assert (Z.quot r1 r2 < 0 \/ Z.quot r1 r2 = 0) as [Qn|Qz].
      { pose proof (Z.quot_opp_r r1 r2 ltac:(lia)). pose proof (Z.quot_pos r1 (- r2) ltac:(lia) ltac:(lia)). lia. }
      * nia.
      * rewrite Qz in Q. nia.
    + assert (Hr : r2 < r1) by (unfold r2; pose proof (Z.rem_bound_abs r0 r1 ltac:(lia)); lia).
      apply IH; [|lia|exact Hn]. pose proof (Z.rem_bound_pos_pos r1 r2 ltac:(lia) ltac:(lia)) as B.
      split; [lia|]. rewrite Nat2Z.inj_succ, Z.pow_succ_r in H1 by lia.
      pose proof (Z.quot_rem' r1 r2) as Q. assert (1 <= Z.quot r1 r2).
      { apply Z.quot_le_lower_bound; lia. }
      nia.
Qed.

Lemma euclid_spec nb alpha : 0 < nb -> forall f r0 t0 r1 t1 p q, euclid f nb r0 t0 r1 t1 = Some (p, q) ->
  0 <= r1 < r0 -> nb < r0 * r0 -> t0 * t1 <= 0 -> t1 <> 0 -> r0 * Z.abs t1 + r1 * Z.abs t0 = nb ->
  (nb | t1 * alpha - r1) -> (nb | t0 * alpha - r0) ->
  0 <= p /\ p * p <= nb /\ q * q <= nb /\ q <> 0 /\ (nb | q * alpha - p).
Proof.
  intros Hn f. induction f as [|f IH]; intros r0 t0 r1 t1 p q E H1 H0 Hs Ht Hsum D1 D0; cbn [euclid] in E.
  - destruct (negb (r1 =? 0) && (nb <? r1 * r1)) eqn:C; [discriminate|]. injection E as <- <-.
    assert (r1 * r1 <= nb).
    { apply andb_false_iff in C as [C|C]; [apply negb_false_iff, Z.eqb_eq in C; subst; lia|apply Z.ltb_ge in C; exact C]. }
    repeat split; auto; [lia|].
    assert (r0 * Z.abs t1 <= nb) by nia. assert (Z.abs t1 * Z.abs t1 = t1 * t1) by lia.
    destruct (Z_le_gt_dec (t1 * t1) nb) as [|G]; [assumption|exfalso]. 
    assert ((r0 * Z.abs t1) * (r0 * Z.abs t1) <= nb * nb) by nia.
    assert (nb * nb < (r0 * r0) * (t1 * t1)) by nia. nia.
  - destruct (negb (r1 =? 0) && (nb <? r1 * r1)) eqn:C.
    + apply andb_prop in C as [C C2]. apply negb_true_iff, Z.eqb_neq in C. apply Z.ltb_lt in C2.
      pose proof (Z.quot_rem' r0 r1) as Q. pose proof (Z.rem_bound_pos_pos r0 r1 ltac:(lia) ltac:(lia)) as B.
      assert (Q1 : 1 <= Z.quot r0 r1) by (apply Z.quot_le_lower_bound; lia).
      set (k := Z.quot r0 r1) in *. set (r2 := Z.rem r0 r1) in *.
      assert (Ab : Z.abs (t0 - k * t1) = Z.abs t0 + k * Z.abs t1 /\ t1 * (t0 - k * t1) <= 0 /\ t0 - k * t1 <> 0).
      { destruct (Z_lt_ge_dec 0 t1) as [P|P].
        - assert (t0 <= 0) by nia. repeat split; nia.
        - assert (0 <= t0) by nia. repeat split; nia. }
      destruct Ab as (Ab & Sg & Nz).
      apply IH in E; auto.
      * nia.
      * replace ((t0 - k * t1) * alpha - r2) with ((t0 * alpha - r0) - k * (t1 * alpha - r1)) by lia.
        apply Z.divide_sub_r; [exact D0|apply Z.divide_mul_r; exact D1].
    + injection E as <- <-.
      assert (r1 * r1 <= nb).
      { apply andb_false_iff in C as [C|C]; [apply negb_false_iff, Z.eqb_eq in C; subst; lia|apply Z.ltb_ge in C; exact C]. }
      repeat split; auto; [lia|].
      assert (r0 * Z.abs t1 <= nb) by nia. assert (Z.abs t1 * Z.abs t1 = t1 * t1) by lia.
      destruct (Z_le_gt_dec (t1 * t1) nb) as [|G]; [assumption|exfalso]. 
      assert ((r0 * Z.abs t1) * (r0 * Z.abs t1) <= nb * nb) by nia.
      assert (nb * nb < (r0 * r0) * (t1 * t1)) by nia. nia.
Qed.

Lemma gcd_loop_spec : forall f a b g, 0 <= a -> 0 <= b -> gcd_loop f a b = Some g -> g = Z.gcd a b.
Proof.
  induction f as [|f IH]; intros a b g Ha Hb E; cbn [gcd_loop] in E; destruct (Z.eqb_spec b 0) as [->|N]; try discriminate.
  - injection E as <-. rewrite Z.gcd_0_r. lia.
  - injection E as <-. rewrite Z.gcd_0_r. lia.
  - pose proof (Z.rem_bound_pos_pos a b ltac:(lia) ltac:(lia)).
    apply IH in E; [|lia|lia]. rewrite E. rewrite Z.rem_mod_nonneg by lia. rewrite Z.gcd_comm, Z.gcd_mod by lia. apply Z.gcd_comm.
Qed.
Lemma gcd_loop_fuel : forall k f a b, 0 <= b < a -> b < 2 ^ Z.of_nat k -> (2 * k <= f)%nat -> exists g, gcd_loop f a b = Some g.
Proof.
  induction k as [|k IH]; intros f a b H Hk Hf.
  - cbn in Hk. assert (b = 0) as -> by lia. destruct f; cbn; eauto.
  - destruct f as [|[|f]]; [lia|lia|]. cbn [gcd_loop]. destruct (Z.eqb_spec b 0); [eauto|].
    pose proof (Z.rem_bound_pos_pos a b ltac:(lia) ltac:(lia)) as B. set (c := Z.rem a b) in *.
    destruct (Z.eqb_spec c 0); [eauto|]. pose proof (Z.rem_bound_pos_pos b c ltac:(lia) ltac:(lia)) as B2.
    apply IH; [lia| |lia]. rewrite Nat2Z.inj_succ, Z.pow_succ_r in Hk by lia.
    pose proof (Z.quot_rem' b c) as Q. assert (1 <= Z.quot b c) by (apply Z.quot_le_lower_bound; lia). nia.
Qed.
Lemma bitlen_spec x : 0 <= bigint_bitlen x /\ Z.abs x < 2 ^ bigint_bitlen x /\ (x <> 0 -> 2 ^ (bigint_bitlen x - 1) <= Z.abs x).
Proof.
  unfold bigint_bitlen. destruct (Z.eqb_spec x 0) as [->|N]; [cbn; repeat split; lia|].
  pose proof (Z.log2_spec (Z.abs x) ltac:(lia)) as [A B]. pose proof (Z.log2_nonneg (Z.abs x)).
  replace (Z.log2 (Z.abs x) + 1 - 1) with (Z.log2 (Z.abs x)) by lia. rewrite <- Z.add_1_r in B. auto with zarith.
Qed.
Lemma gcd_spec a b : bigint_gcd_local a b = Some (Z.gcd a b).
Proof.
  unfold bigint_gcd_local. destruct (bitlen_spec b) as (L & B & _).
  assert (E : exists g, gcd_loop (2 * Z.to_nat (bigint_bitlen b) + 2) (Z.abs a) (Z.abs b) = Some g).
  { replace (2 * Z.to_nat (bigint_bitlen b) + 2)%nat with (S (2 * Z.to_nat (bigint_bitlen b) + 1)) by lia. cbn [gcd_loop].
    destruct (Z.eqb_spec (Z.abs b) 0); [eauto|]. pose proof (Z.rem_bound_pos_pos (Z.abs a) (Z.abs b) ltac:(lia) ltac:(lia)).
    apply gcd_loop_fuel with (Z.to_nat (bigint_bitlen b)); [lia| |lia]. rewrite Z2Nat.id by lia. lia. }
  destruct E as [g E]. rewrite E. apply gcd_loop_spec in E; [|lia|lia]. rewrite E, Z.gcd_abs_l, Z.gcd_abs_r. reflexivity.
Qed.

Lemma reconstruct_spec bits : bits <> [] -> exists p q g,
  two_adic_reconstruct bits = Some (Some (p, q)) /\ 0 < q /\ Z.odd q = true /\ Z.gcd p q = 1 /\ 1 <= g
  /\ (2 ^ Z.of_nat (length bits) | g * (q * value bits - p))
  /\ (g * p) * (g * p) <= 2 ^ Z.of_nat (length bits) /\ (g * q) * (g * q) <= 2 ^ Z.of_nat (length bits).
Proof.
  intros NE. set (n := length bits). assert (Hn : (1 <= n)%nat) by (destruct bits; [congruence|cbn in *; lia]).
  assert (Hp : 2 <= 2 ^ Z.of_nat n).
  { replace (Z.of_nat n) with (Z.succ (Z.of_nat (n - 1))) by lia. rewrite Z.pow_succ_r by lia. pose proof (Z.pow_pos_nonneg 2 (Z.of_nat (n - 1))). lia. }
  unfold two_adic_reconstruct.
  assert (MB : forall A (x y : A), match bits with [] => x | _ :: _ => y end = y) by (destruct bits; [congruence|reflexivity]).
  rewrite MB. clear MB.
  rewrite value_fold. rewrite Z.add_0_l, !Z.mul_1_l. fold n. pose proof (value_range bits) as R. fold n in R.
  set (N := 2 ^ Z.of_nat n) in *. set (alpha := value bits) in *.
  destruct (euclid_fuel N n (2 * n + 2) N 0 alpha 1) as [[P Q] E]; [exact R|lia|lia|].
  rewrite E. apply (euclid_spec N alpha) in E; try lia.
  2:{ nia. }
  2:{ exists 0. lia. }
  2:{ exists (-1). lia. }
  destruct E as (P0 & PP & QQ & QN & D). destruct (Z.eqb_spec Q 0); [contradiction|].
  (* make the denominator positive *)
  set (P1 := if Q <? 0 then 0 - P else P). set (Q1 := if Q <? 0 then 0 - Q else Q).
  assert (EQ : (if Q <? 0 then (0 - P, 0 - Q) else (P, Q)) = (P1, Q1)) by (unfold P1, Q1; destruct (Q <? 0); reflexivity).
  rewrite EQ. clear EQ.
  assert (F1 : 0 < Q1 /\ P1 * P1 <= N /\ Q1 * Q1 <= N /\ (N | Q1 * alpha - P1)).
  { unfold P1, Q1. destruct (Z.ltb_spec Q 0); repeat split; try lia; try nia; auto.
    replace ((0 - Q) * alpha - (0 - P)) with (- (Q * alpha - P)) by lia. apply Z.divide_opp_r. exact D. }
  destruct F1 as (Qp & PP1 & QQ1 & D1). rewrite gcd_spec. set (g := Z.gcd P1 Q1).
  assert (Gp : 0 < g). { pose proof (Z.gcd_nonneg P1 Q1). assert (g <> 0); [|unfold g in *; lia]. intros Z0. apply Z.gcd_eq_0_r in Z0. lia. }
  destruct (Z.gcd_divide_l P1 Q1) as [p Ep]. destruct (Z.gcd_divide_r P1 Q1) as [q Eq]. fold g in Ep, Eq.
  assert (ER : (if negb (g =? 0) && negb (g =? 1) then (Z.quot P1 g, Z.quot Q1 g) else (P1, Q1)) = (p, q)).
  { destruct (Z.eqb_spec g 0); [lia|]. destruct (Z.eqb_spec g 1) as [E1|]; cbn [negb andb].
    - rewrite E1 in Ep, Eq. f_equal; lia.
    - rewrite Ep, Eq, !Z.quot_mul by lia. reflexivity. }
  rewrite ER. clear ER.
  assert (Cop : Z.gcd p q = 1).
  { assert (G1 : g = Z.gcd p q * g).
    { unfold g at 1. rewrite Ep, Eq. rewrite Z.gcd_mul_mono_r_nonneg by lia. reflexivity. }
    pose proof (Z.gcd_nonneg p q). nia. }
  assert (q0 : 0 < q) by nia.
  assert (DG : (N | g * (q * alpha - p))).
  { replace (g * (q * alpha - p)) with (Q1 * alpha - P1) by (rewrite Ep, Eq; ring). exact D1. }
  assert (Od : Z.odd q = true).
  { (* an even denominator would make the numerator even *)
    destruct (Z.odd q) eqn:O; [reflexivity|exfalso].
    assert (Ev : (2 | q)). { rewrite <- Z.negb_even in O. apply negb_false_iff in O. apply Z.even_spec in O as [k Ek]. exists k. lia. }
    (* the power of two in g is too small to absorb N *)
    assert (Dp : (2 | p)).
    { destruct (Z.odd p) eqn:Op; [|rewrite <- Z.negb_even in Op; apply negb_false_iff in Op; apply Z.even_spec in Op as [k Ek]; exists k; lia].
      exfalso. assert (OddD : Z.odd (q * alpha - p) = true).
      { rewrite Z.odd_sub, Z.odd_mul, O, Op. reflexivity. }
      assert (RP : rel_prime N (q * alpha - p)).
      { apply rel_prime_sym. unfold N. clear - OddD. induction n as [|n IH]; [apply rel_prime_1 || (apply rel_prime_sym, rel_prime_1)|].
        rewrite Nat2Z.inj_succ, Z.pow_succ_r by lia. apply rel_prime_mult; [|exact IH].
        apply rel_prime_sym. apply prime_rel_prime; [exact prime_2|]. intros [k Ek]. rewrite Ek, Z.odd_mul, andb_false_r in OddD. discriminate. }
      apply (Gauss N (q * alpha - p) g) in RP; [|rewrite Z.mul_comm; exact DG].
      apply Z.divide_pos_le in RP; [|lia].
      assert (2 <= q) by (destruct Ev as [k Ek]; lia). rewrite Eq in QQ1. nia. }
    pose proof (Z.gcd_greatest p q 2 Dp Ev) as G2. rewrite Cop in G2. destruct G2 as [k Ek]. lia. }
  rewrite Od. cbn [negb]. exists p, q, g. repeat split; auto; try lia.
Qed.

Lemma odd_coprime q n : Z.odd q = true -> rel_prime (2 ^ Z.of_nat n) q.
Proof.
  intros O. apply rel_prime_sym. induction n as [|n IH]; [apply rel_prime_sym, rel_prime_1|].
  rewrite Nat2Z.inj_succ, Z.pow_succ_r by lia. apply rel_prime_mult; [|exact IH].
  apply rel_prime_sym. apply prime_rel_prime; [exact prime_2|]. intros [k Ek]. rewrite Ek, Z.odd_mul, andb_false_r in O. discriminate.
Qed.

Lemma fcsr_spec q : Z.odd q = true -> forall n r, length (fcsr_generate r q n) = n
  /\ (2 ^ Z.of_nat n | q * value (fcsr_generate r q n) - r).
Proof.
  intros O. induction n as [|n IH]; intros r.
  - cbn. split; [reflexivity|]. exists (- r). lia.
  - cbn [fcsr_generate value length]. set (r1 := if Z.odd r then r - q else r).
    assert (Ev : Z.even r1 = true).
    { unfold r1. destruct (Z.odd r) eqn:Or; [rewrite Z.even_sub, <- !Z.negb_odd, Or, O; reflexivity|rewrite <- Z.negb_odd, Or; reflexivity]. }
    apply Z.even_spec in Ev as [k Ek].
    assert (Qk : Z.quot r1 2 = k) by (rewrite Ek, Z.mul_comm; apply Z.quot_mul; lia). rewrite Qk.
    destruct (IH k) as [L [m Em]]. split; [rewrite L; reflexivity|]. exists m.
    rewrite Nat2Z.inj_succ, Z.pow_succ_r by lia. unfold r1 in Ek. destruct (Z.odd r); nia.
Qed.

Lemma bits_eqb_eq a : forall b, bits_eqb a b = true <-> a = b.
Proof.
  induction a as [|x a IH]; intros [|y b]; cbn [bits_eqb]; try (split; congruence).
  rewrite andb_true_iff, IH. rewrite Bool.eqb_true_iff. split; [intros [-> ->]; reflexivity|intros E; injection E as -> ->; auto].
Qed.

(* one value for each key *)
Definition functional (m : list (list bool * bool)) : Prop := forall k v v', In (k, v) m -> In (k, v') m -> v = v'.
Lemma lookup_some m k v : lookup m k = Some v -> In (k, v) m.
Proof.
  induction m as [|[k' v'] m IH]; cbn [lookup]; [discriminate|]. destruct (bits_eqb k' k) eqn:E.
  - intros H. injection H as <-. apply bits_eqb_eq in E as ->. left; reflexivity.
  - intros H. right. auto.
Qed.
Lemma lookup_none m k v : lookup m k = None -> ~ In (k, v) m.
Proof.
  induction m as [|[k' v'] m IH]; cbn [lookup]; intros H I; [destruct I|]. destruct (bits_eqb k' k) eqn:E; [discriminate|].
  destruct I as [I|I]; [injection I as -> ->; assert (bits_eqb k k = true) by (apply bits_eqb_eq; reflexivity); congruence|].
  exact (IH H I).
Qed.
Lemma scan_spec bits l : forall is m, functional m ->
  (scan bits l is m = true <-> functional (m ++ map (fun i => (window bits i l, nth (i + l) bits false)) is)).
Proof.
  induction is as [|i is IH]; intros m Fm; cbn [scan map].
  - rewrite app_nil_r. tauto.
  - set (w := window bits i l). set (nx := nth (i + l) bits false).
    assert (Per : forall ps, functional (((w, nx) :: m) ++ ps) <-> functional (m ++ (w, nx) :: ps)).
    { intros ps. unfold functional. split; intros H k v v' I1 I2; apply (H k v v').
      - rewrite in_app_iff in I1. cbn [In app] in *. rewrite in_app_iff. tauto.
      - rewrite in_app_iff in I2. cbn [In app] in *. rewrite in_app_iff. tauto.
      - cbn [In app] in I1. rewrite in_app_iff in *. cbn [In]. tauto.
      - cbn [In app] in I2. rewrite in_app_iff in *. cbn [In]. tauto. }
    destruct (lookup m w) as [prev|] eqn:El.
    + apply lookup_some in El. destruct (Bool.eqb prev nx) eqn:Eq.
      * apply Bool.eqb_prop in Eq. subst prev. rewrite IH, Per; [tauto|].
        intros k v v' [I1|I1] [I2|I2].
        -- congruence.
        -- injection I1 as <- <-. exact (Fm _ _ _ El I2).
        -- injection I2 as <- <-. exact (Fm _ _ _ I1 El).
        -- exact (Fm _ _ _ I1 I2).
      * split; [discriminate|]. intros H. exfalso. apply eqb_false_iff in Eq. apply Eq. apply (H w); apply in_app_iff; [left; exact El|right; left; reflexivity].
    + rewrite IH, Per; [tauto|]. intros k v v' [I1|I1] [I2|I2].
      * congruence.
      * injection I1 as <- <-. exfalso. exact (lookup_none m w v' El I2).
      * injection I2 as <- <-. exfalso. exact (lookup_none m w v El I1).
      * exact (Fm _ _ _ I1 I2).
Qed.

(* equal windows of length l are followed by equal bits *)
Definition determined (bits : list bool) (l : nat) : Prop := forall i j, (i + l < length bits)%nat -> (j + l < length bits)%nat ->
  window bits i l = window bits j l -> nth (i + l) bits false = nth (j + l) bits false.
Lemma consistent_spec bits l : consistent bits l = true <-> determined bits l.
Proof.
  unfold consistent. destruct (Nat.leb_spec (length bits) l) as [H|H].
  - split; [intros _ i j Hi Hj; lia|reflexivity].
  - rewrite scan_spec by (intros ? ? ? []). cbn [app]. split.
    + intros F i j Hi Hj E. apply (F (window bits i l)); apply in_map_iff; [exists i|exists j; rewrite E]; (split; [reflexivity|apply in_seq; lia]).
    + intros D k v v' I1 I2. apply in_map_iff in I1 as (i & E1 & I1), I2 as (j & E2 & I2). apply in_seq in I1, I2.
      injection E1 as <- <-. injection E2 as E2 <-. apply D; [lia|lia|congruence].
Qed.
Lemma determined_mono bits l : determined bits l -> determined bits (S l).
Proof.
  intros D i j Hi Hj E.
  assert (T : forall k, window bits (S k) l = skipn 1 (window bits k (S l))).
  { intros k. unfold window. rewrite skipn_firstn_comm. f_equal; [lia|]. clear. revert k. induction bits as [|b bits IH]; intros k; [rewrite !skipn_nil; reflexivity|].
    destruct k as [|k]; [reflexivity|]. exact (IH k). }
  replace (i + S l)%nat with (S i + l)%nat by lia. replace (j + S l)%nat with (S j + l)%nat by lia.
  apply D; [lia|lia|]. rewrite !T, E. reflexivity.
Qed.
Lemma search_spec p : (forall x y, (x <= y)%nat -> p x = true -> p y = true) -> forall fuel lo hi, (lo <= hi)%nat -> (hi - lo <= fuel)%nat ->
  (forall x, (x < lo)%nat -> p x = false) -> p hi = true ->
  let r := search fuel p lo hi in p r = true /\ (r <= hi)%nat /\ forall x, (x < r)%nat -> p x = false.
Proof.
  intros Mo. induction fuel as [|f IH]; intros lo hi H1 H2 Lo Hi r; subst r; cbn [search].
  - assert (lo = hi) as -> by lia. auto.
  - destruct (Nat.ltb_spec lo hi) as [Hlt|Hge]; [|assert (lo = hi) as -> by lia; auto].
    assert (Mid : (lo <= (lo + hi) / 2 < hi)%nat).
    { split; [apply Nat.div_le_lower_bound; lia|apply Nat.div_lt_upper_bound; lia]. }
    set (mid := ((lo + hi) / 2)%nat) in *. destruct (p mid) eqn:Em.
    + destruct (IH lo mid) as (A & B & C); try lia; auto. split; [exact A|]. split; [lia|exact C].
    + apply IH; try lia; auto. intros x Hx. destruct (p x) eqn:Ex; [|reflexivity].
      rewrite (Mo x mid) in Em; [discriminate|lia|exact Ex].
Qed.
