(** Bit-level facts about [Z] used by the models of byte-oriented code. *)
From Coq Require Import ZArith Lia.
Open Scope Z_scope.

Lemma testbit_small a n s : 0 <= a < 2 ^ s -> s <= n -> Z.testbit a n = false.
Proof.
  intros H L. destruct (Z.eq_dec a 0) as [->|N]; [apply Z.testbit_0_l|].
  destruct (Z.lt_ge_cases s 0); [rewrite Z.pow_neg_r in H by lia; lia|].
  apply Z.bits_above_log2; [lia|]. assert (Z.log2 a < s) by (apply Z.log2_lt_pow2; lia). lia.
Qed.
(** Disjoint bit ranges: or is addition. *)
Lemma lor_add a b s : 0 <= s -> 0 <= a < 2 ^ s -> Z.lor a (b * 2 ^ s) = a + b * 2 ^ s.
Proof.
  intros Hs Ha. symmetry. apply Z.bits_inj'. intros n Hn. rewrite Z.lor_spec.
  destruct (Z.lt_ge_cases n s).
  - rewrite (Z.mul_pow2_bits_low b) by lia. rewrite Bool.orb_false_r.
    rewrite <- (Z.mod_pow2_bits_low (a + b * 2 ^ s) s n) by lia. rewrite Z.mod_add by lia.
    now rewrite Z.mod_small by lia.
  - rewrite (testbit_small a n s) by lia. cbn [orb].
    rewrite (Z.mul_pow2_bits b) by lia.
    replace (Z.testbit (a + b * 2 ^ s) n) with (Z.testbit (a + b * 2 ^ s) ((n - s) + s)) by (f_equal; lia).
    rewrite <- Z.div_pow2_bits by lia. rewrite Z.div_add by lia. now rewrite Z.div_small, Z.add_0_l by lia.
Qed.
Lemma land_mask x k : 0 <= k -> Z.land x (2 ^ k - 1) = x mod 2 ^ k.
Proof. intros H. replace (2 ^ k - 1) with (Z.ones k) by (rewrite Z.ones_equiv; lia). now apply Z.land_ones. Qed.
