(** Fermat's little theorem over the integers, from the one of mathcomp. *)
From Coq Require Import ZArith Znumtheory Lia.
From mathcomp Require Import ssreflect ssrbool ssrfun eqtype ssrnat div prime binomial.

Lemma prime_ssr (p : nat) : Znumtheory.prime (Z.of_nat p) -> prime.prime p.
Proof.
  move=> H. have P2: (2 <= Z.of_nat p)%Z by apply prime_ge_2. apply/primeP. split; first by apply/ltP; lia.
  move=> d /dvdnP [k E]. have D: (Z.of_nat d | Z.of_nat p)%Z by exists (Z.of_nat k); rewrite E /muln /muln_rec; lia.
  have [X|[X|[X|X]]] := prime_divisors _ H _ D; try lia.
  - have -> : d = 1%nat by lia. by [].
  - have -> : d = p by lia. by rewrite /= eqxx orbT.
Qed.
Lemma expn_pow a n : Z.of_nat (expn a n) = (Z.of_nat a ^ Z.of_nat n)%Z.
Proof.
  elim: n => [|n IH]; first by []. rewrite expnS Nat2Z.inj_succ Z.pow_succ_r; last by lia. by rewrite -IH /muln /muln_rec Nat2Z.inj_mul.
Qed.
Lemma fermat (p a : Z) : Znumtheory.prime p -> (0 <= a)%Z -> (p | a ^ p - a)%Z.
Proof.
  move=> H Ha. have P2: (2 <= p)%Z by apply prime_ge_2. have Ep: Z.of_nat (Z.to_nat p) = p by lia. have Ea: Z.of_nat (Z.to_nat a) = a by lia.
  have PP: prime.prime (Z.to_nat p) by apply prime_ssr; rewrite Ep.
  have F := fermat_little (Z.to_nat a) PP. move/eqP: F. 
  have Le : (Z.to_nat a <= expn (Z.to_nat a) (Z.to_nat p))%nat.
  { case E: (Z.to_nat a) => [|k]; first by []. rewrite -{1}(expn1 (S k)). apply leq_pexp2l; first by []. apply/ltP; lia. }
  rewrite (eqn_mod_dvd _ Le). move/dvdnP=> [k E]. exists (Z.of_nat k). have E2 : expn (Z.to_nat a) (Z.to_nat p) = (k * Z.to_nat p + Z.to_nat a)%nat by rewrite -E subnK.
  have := expn_pow (Z.to_nat a) (Z.to_nat p). rewrite E2 Ea Ep => <-. rewrite /muln /muln_rec /addn /addn_rec. lia.
Qed.
Lemma fermat_inverse (p a : Z) : Znumtheory.prime p -> (0 < a < p)%Z -> ((a * a ^ (p - 2)) mod p = 1)%Z.
Proof.
  move=> H Ha. have P2: (2 <= p)%Z by apply prime_ge_2. have D : (p | a * (a * a ^ (p - 2) - 1))%Z.
  { have -> : (a * (a * a ^ (p - 2) - 1) = a ^ p - a)%Z. { have -> : (a ^ p = a ^ (2 + (p - 2)))%Z by f_equal; lia. rewrite Z.pow_add_r; lia. }
    apply fermat => //; lia. }
  have [X|X] := prime_mult _ H _ _ D.
  - have := Z.divide_pos_le _ _ _ X. lia.
  - case: X => k E. have -> : (a * a ^ (p - 2) = 1 + k * p)%Z by lia. rewrite Z_mod_plus_full Z.mod_1_l; lia.
Qed.
