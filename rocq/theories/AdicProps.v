(* C109: 2-adic complexity and maximal order complexity *)
From Coq Require Import ZArith List Lia Bool Arith Znumtheory.
Import ListNotations.
From Verif Require Import AdicModel AdicProofs BmModel BmProofs BmProps.
Open Scope Z_scope.

Notation modulus bits := (2 ^ Z.of_nat (length (bits : list bool))).

(* The keystream of p/q is its 2-adic expansion: the only n bits whose number times
   q is p modulo 2^n *)
Theorem C109_generate : forall p q n, Z.odd q = true ->
  length (fcsr_generate p q n) = n
  /\ (2 ^ Z.of_nat n | q * value (fcsr_generate p q n) - p)
  /\ forall bits, length bits = n -> (2 ^ Z.of_nat n | q * value bits - p) -> bits = fcsr_generate p q n.
Proof.
  intros p q n O. destruct (fcsr_spec q O n p) as [L D]. split; [exact L|]. split; [exact D|].
  intros bits Lb Db. apply value_inj; [congruence|].
  pose proof (value_range bits) as R. rewrite Lb in R. pose proof (value_range (fcsr_generate p q n)) as R'. rewrite L in R'.
  pose proof (Z.divide_sub_r _ _ _ Db D) as DD.
  replace (q * value bits - p - (q * value (fcsr_generate p q n) - p)) with (q * (value bits - value (fcsr_generate p q n))) in DD by ring.
  apply Gauss in DD; [|apply odd_coprime; exact O]. destruct DD as [k Ek]. assert (k = 0) by nia. subst k. lia.
Qed.

(* The reconstruction of a non-empty sequence always ends with a fraction in lowest
   terms, its denominator odd and positive, numerator and denominator at most
   2^(n/2); the congruence holds up to a factor that was cancelled *)
Theorem C109_reconstruct : forall bits, bits <> [] -> exists p q g,
  two_adic_reconstruct bits = Some (Some (p, q)) /\ 0 < q /\ Z.odd q = true /\ Z.gcd p q = 1 /\ 1 <= g
  /\ (modulus bits | g * (q * value bits - p))
  /\ (g * p) * (g * p) <= modulus bits /\ (g * q) * (g * q) <= modulus bits.
Proof. exact reconstruct_spec. Qed.

(* so the complexity is at most n/2 + 1 *)
Theorem C109_complexity_bound : forall bits, exists c, two_adic_complexity bits = Some c
  /\ 0 <= c /\ 2 * c <= Z.of_nat (length bits) + 2.
Proof.
  intros bits. unfold two_adic_complexity. destruct bits as [|b bits]; [exists 0; cbn; repeat split; lia|].
  destruct (reconstruct_spec (b :: bits)) as (p & q & g & E & Q & _ & _ & G & _ & P2 & Q2); [discriminate|]. rewrite E.
  set (n := length (b :: bits)) in *. eexists. split; [reflexivity|].
  assert (B : forall x, x * x <= 2 ^ Z.of_nat n -> 2 * bigint_bitlen x <= Z.of_nat n + 2).
  { intros x Hx. destruct (bitlen_spec x) as (L & _ & Lo). destruct (Z.eq_dec x 0) as [->|N]; [cbn; lia|].
    specialize (Lo N). assert (L1 : 1 <= bigint_bitlen x) by (unfold bigint_bitlen; destruct (Z.eqb_spec x 0); [contradiction|]; pose proof (Z.log2_nonneg (Z.abs x)); lia).
    assert (S : 2 ^ (bigint_bitlen x - 1) * 2 ^ (bigint_bitlen x - 1) <= 2 ^ Z.of_nat n).
    { apply Z.le_trans with (Z.abs x * Z.abs x); [|nia].
      apply Z.mul_le_mono_nonneg; try exact Lo; apply Z.pow_nonneg; lia. }
    rewrite <- Z.pow_add_r in S by lia. apply Z.pow_le_mono_r_iff in S; lia. }
  pose proof (proj1 (bitlen_spec p)). pose proof (proj1 (bitlen_spec q)).
  assert (M : forall x, (g * x) * (g * x) <= 2 ^ Z.of_nat n -> x * x <= 2 ^ Z.of_nat n).
  { intros x Hx. replace ((g * x) * (g * x)) with ((g * g) * (x * x)) in Hx by ring.
    assert (1 <= g * g) by nia. assert (0 <= x * x) by nia. nia. }
  pose proof (B p (M p P2)). pose proof (B q (M q Q2)). lia.
Qed.

(* the documented congruence p/q = sum of s_i 2^i (mod 2^n) fails when the cancelled
   factor is even: the fraction of 001 is 0/1, which generates 000 *)
Theorem C109_congruence_refuted : exists bits p q, two_adic_reconstruct bits = Some (Some (p, q))
  /\ ~ (modulus bits | q * value bits - p) /\ fcsr_generate p q (length bits) <> bits.
Proof.
  exists [false; false; true], 0, 1. split; [reflexivity|]. split; [|discriminate]. cbn. intros [k Ek]. lia.
Qed.

(* Every register with a small fraction is found: the keystream of p/q in lowest
   terms, with (|p| + q)^2 < 2^n, gives back p/q and is reported *)
Theorem C109_recovers : forall p q n, Z.odd q = true -> 0 < q -> Z.gcd p q = 1 ->
  (Z.abs p + q) * (Z.abs p + q) < 2 ^ Z.of_nat n ->
  two_adic_reconstruct (fcsr_generate p q n) = Some (Some (p, q))
  /\ detect_fcsr (fcsr_generate p q n) = Some (Some (p, q)).
Proof.
  intros p q n O Q Cop Sm. destruct (C109_generate p q n O) as (L & D & _). set (bits := fcsr_generate p q n) in *.
  assert (R : two_adic_reconstruct bits = Some (Some (p, q))).
  { assert (NE : bits <> []). { intros E. rewrite E in L. cbn in L. subst n. cbn in Sm. nia. }
    destruct (reconstruct_spec bits NE) as (p' & q' & g & E & Q' & O' & Cop' & G & D' & P2 & Q2). rewrite L in *.
    set (N := 2 ^ Z.of_nat n) in *. assert (Hn : 0 < N) by (apply Z.pow_pos_nonneg; lia).
    (* cross multiply *)
    assert (X : (N | (g * p') * q - (g * q') * p)).
    { replace ((g * p') * q - (g * q') * p) with ((g * q') * (q * value bits - p) - q * (g * (q' * value bits - p'))) by ring.
      apply Z.divide_sub_r; [apply Z.divide_mul_r; exact D|apply Z.divide_mul_r; exact D']. }
    set (P := g * p') in *. set (Qr := g * q') in *.
    assert (Z0 : P * q - Qr * p = 0).
    { destruct X as [k Ek]. destruct (Z.eq_dec k 0) as [->|Nk]; [lia|exfalso].
      assert (Big : N <= Z.abs (P * q - Qr * p)).
      { rewrite Ek, Z.abs_mul, (Z.abs_eq N) by lia. rewrite <- (Z.mul_1_l N) at 1. apply Z.mul_le_mono_nonneg_r; lia. }
      set (M := Z.max (Z.abs P) (Z.abs Qr)).
      assert (M2 : M * M <= N) by (unfold M; destruct (Z.max_spec (Z.abs P) (Z.abs Qr)) as [[_ ->]|[_ ->]]; lia).
      assert (Up : Z.abs (P * q - Qr * p) <= M * (Z.abs p + q)).
      { assert (Z.abs (P * q - Qr * p) <= Z.abs (P * q) + Z.abs (Qr * p)) by lia. rewrite !Z.abs_mul in H.
        assert (Z.abs P <= M) by (unfold M; lia). assert (Z.abs Qr <= M) by (unfold M; lia). rewrite (Z.abs_eq q) in H by lia.
        pose proof (Z.mul_le_mono_nonneg_r (Z.abs P) M q ltac:(lia) H0). pose proof (Z.mul_le_mono_nonneg_r (Z.abs Qr) M (Z.abs p) ltac:(lia) H1).
        rewrite Z.mul_add_distr_l. lia. }
      assert (0 <= M) by (unfold M; lia). assert (LB : N <= M * (Z.abs p + q)) by lia.
      assert (N * N <= (M * (Z.abs p + q)) * (M * (Z.abs p + q))) by (apply Z.mul_le_mono_nonneg; lia).
      assert ((M * (Z.abs p + q)) * (M * (Z.abs p + q)) < N * N); [|lia].
      replace ((M * (Z.abs p + q)) * (M * (Z.abs p + q))) with ((M * M) * ((Z.abs p + q) * (Z.abs p + q))) by ring.
      apply Z.le_lt_trans with (N * ((Z.abs p + q) * (Z.abs p + q))); [apply Z.mul_le_mono_nonneg_r; [apply Z.square_nonneg|exact M2]|].
      apply Z.mul_lt_mono_pos_l; assumption. }
    assert (CR : p' * q = q' * p) by (unfold P, Qr in Z0; apply (Z.mul_reg_l _ _ g); lia).
    assert (Dq : (q | q')).
    { apply (Gauss q p q'); [exists p'; lia|]. apply rel_prime_sym, Zgcd_1_rel_prime. exact Cop. }
    assert (Dq' : (q' | q)).
    { apply (Gauss q' p' q); [exists p; lia|]. apply rel_prime_sym, Zgcd_1_rel_prime. exact Cop'. }
    assert (q' = q) as -> by (apply Z.divide_antisym_nonneg; lia || assumption).
    assert (p' = p) as -> by (apply (Z.mul_reg_r _ _ q); lia). exact E. }
  split; [exact R|]. unfold detect_fcsr. rewrite R. rewrite L. fold bits.
  replace (AdicModel.bits_eqb bits bits) with true; [reflexivity|]. symmetry. apply bits_eqb_eq. reflexivity.
Qed.

(* what is reported regenerates the sequence *)
Theorem C109_detect : forall bits p q, detect_fcsr bits = Some (Some (p, q)) ->
  Z.odd q = true /\ 0 < q /\ fcsr_generate p q (length bits) = bits /\ (modulus bits | q * value bits - p).
Proof.
  intros bits p q E. unfold detect_fcsr in E.
  assert (NE : bits <> []) by (intros ->; cbn in E; discriminate).
  destruct (reconstruct_spec bits NE) as (p' & q' & g & E' & Q' & O' & _). rewrite E' in E.
  destruct (AdicModel.bits_eqb _ bits) eqn:Eb; [|discriminate]. injection E as <- <-. apply bits_eqb_eq in Eb.
  split; [exact O'|]. split; [exact Q'|]. split; [exact Eb|].
  destruct (C109_generate p' q' (length bits) O') as (_ & D & _). rewrite Eb in D. exact D.
Qed.

(* The maximal order complexity is the least length of a window that determines the
   next bit *)
Theorem C109_maximal_order : forall bits, let L := maximal_order_complexity bits in
  (forall i j, (i + L < length bits)%nat -> (j + L < length bits)%nat ->
     firstn L (skipn i bits) = firstn L (skipn j bits) -> nth (i + L) bits false = nth (j + L) bits false)
  /\ (L <= length bits)%nat
  /\ forall M, (M < L)%nat -> exists i j, (i + M < length bits)%nat /\ (j + M < length bits)%nat
     /\ firstn M (skipn i bits) = firstn M (skipn j bits) /\ nth (i + M) bits false <> nth (j + M) bits false.
Proof.
  intros bits L. unfold maximal_order_complexity in L.
  assert (S : consistent bits L = true /\ (L <= length bits)%nat /\ forall x, (x < L)%nat -> consistent bits x = false).
  { destruct (Nat.eqb_spec (length bits) 0) as [E|E].
    - unfold L. split; [unfold consistent; rewrite E; reflexivity|]. split; [lia|intros; lia].
    - apply (search_spec (consistent bits)); try lia.
      + intros x y Hxy. rewrite !consistent_spec. induction Hxy as [|y Hxy IH]; [auto|]. intros H. apply determined_mono. auto.
      + apply consistent_spec. intros i j Hi. lia. }
  destruct S as (S1 & S2 & S3). split; [apply consistent_spec; exact S1|]. split; [exact S2|].
  intros M HM. specialize (S3 M HM). clear - S3.
  assert (DE : forall a b, (exists i j, (i < a)%nat /\ (j < b)%nat /\ (i + M < length bits)%nat /\ (j + M < length bits)%nat
      /\ window bits i M = window bits j M /\ nth (i + M) bits false <> nth (j + M) bits false)
    \/ (forall i j, (i < a)%nat -> (j < b)%nat -> (i + M < length bits)%nat -> (j + M < length bits)%nat ->
          window bits i M = window bits j M -> nth (i + M) bits false = nth (j + M) bits false)).
  { induction a as [|a IHa]; intros b; [right; intros; lia|]. induction b as [|b IHb]; [right; intros; lia|].
    destruct (IHa (S b)) as [(i & j & H)|H]; [left; exists i, j; intuition lia|].
    destruct IHb as [(i & j & H')|H']; [left; exists i, j; intuition lia|].
    destruct (lt_dec (a + M) (length bits)) as [L1|L1]; [|right; intros i j Hi Hj Hi' Hj'; apply H; lia].
    destruct (lt_dec (b + M) (length bits)) as [L2|L2]; [|right; intros i j Hi Hj Hi' Hj'; apply H'; lia].
    destruct (list_eq_dec bool_dec (window bits a M) (window bits b M)) as [W|W].
    - destruct (bool_dec (nth (a + M) bits false) (nth (b + M) bits false)) as [B|B].
      + right. intros i j Hi Hj Hi' Hj' HW. destruct (Nat.eq_dec i a) as [->|]; [|apply H; auto; lia].
        destruct (Nat.eq_dec j b) as [->|]; [exact B|]. apply H'; auto; lia.
      + left. exists a, b. repeat split; auto; lia.
    - right. intros i j Hi Hj Hi' Hj' HW. destruct (Nat.eq_dec i a) as [->|]; [|apply H; auto; lia].
      destruct (Nat.eq_dec j b) as [->|]; [contradiction|]. apply H'; auto; lia. }
  destruct (DE (length bits) (length bits)) as [(i & j & _ & _ & H1 & H2 & H3 & H4)|F]; [exists i, j; auto|exfalso].
  assert (consistent bits M = true); [|congruence]. apply consistent_spec. intros i j Hi Hj HW. apply F; auto; lia.
Qed.

(* a linear register is a special case *)
Theorem C109_below_linear : forall bits L taps, berlekamp_massey_gf2 bits = Some (L, taps) ->
  (maximal_order_complexity bits <= L)%nat.
Proof.
  intros bits L taps E. destruct C108_gf2_field as ((opp & RT) & IV & EQ & _).
  destruct (bm_spec false true xorb xorb andb opp (fun x => x) Bool.eqb RT IV EQ bits) as (L0 & tt & E0 & LT & LL & [_ G] & _).
  assert (L0 = L /\ tt = taps) as [-> ->] by (unfold berlekamp_massey_gf2 in E; split; congruence).
  destruct (C109_maximal_order bits) as (_ & _ & Mn).
  destruct (Nat.le_gt_cases (maximal_order_complexity bits) L) as [|H]; [assumption|exfalso].
  destruct (Mn L H) as (i & j & Hi & Hj & W & N). apply N.
  assert (Next : forall k, (k + L < length bits)%nat -> nth (k + L) bits false =
    BoolFnProofs.sum false xorb L (fun t => nth t taps false && nth (L - 1 - t) (firstn L (skipn k bits)) false)).
  { intros k Hk. specialize (G (k + L)%nat ltac:(lia)). rewrite <- LT in G at 1. 
    rewrite (dis_poly false true xorb xorb andb opp RT) in G by lia. rewrite LT in G.
    apply xorb_eq in G. rewrite G. apply BoolFnProofs.sum_ext. intros t Ht. f_equal.
    transitivity (nth (L - 1 - t) (skipn k bits) false).
    - replace (k + L - 1 - t)%nat with (k + (L - 1 - t))%nat by lia. clear. generalize (L - 1 - t)%nat as m. revert bits.
      induction k as [|k IH]; intros bits m; [reflexivity|]. destruct bits as [|b bits]; [destruct m; reflexivity|]. apply IH.
    - rewrite <- (firstn_skipn L (skipn k bits)) at 1. apply app_nth1. rewrite firstn_length, skipn_length. lia. }
  rewrite !Next by assumption. rewrite W. reflexivity.
Qed.

(* but not the documented bound by the 2-adic complexity: 0001 has maximal order
   complexity 3 and 2-adic complexity 1 *)
Theorem C109_below_two_adic_refuted : exists bits c, two_adic_complexity bits = Some c
  /\ c < Z.of_nat (maximal_order_complexity bits).
Proof. exists [false; false; false; true], 1. split; vm_compute; reflexivity. Qed.

Example C109_ex :
  two_adic_reconstruct (fcsr_generate 3 19 20) = Some (Some (3, 19))
  /\ fcsr_generate 3 19 8 = [true; false; false; false; true; false; true; false]
  /\ two_adic_complexity (fcsr_generate (-7) 23 24) = Some 5 /\ Z.odd 19 = true /\ Z.gcd 3 19 = 1
  /\ maximal_order_complexity [true; false; true; true; true; false; false; true] = 3%nat
  /\ detect_fcsr [false; false; true] = Some None.
Proof. repeat split; vm_compute; reflexivity. Qed.
