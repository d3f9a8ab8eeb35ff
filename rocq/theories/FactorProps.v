(** C116: the integer primitives of the factoring module. *)
From Coq Require Import List ZArith Bool Lia Znumtheory Zpow_facts.
From Verif Require Import FactorModel FactorProofs.
Import ListNotations.
Local Open Scope Z_scope.

(** [gcd] is the greatest common divisor, for all signs. *)
Theorem C116_gcd a b : 0 <= gcd a b /\ (gcd a b | a) /\ (gcd a b | b) /\ forall d, (d | a) -> (d | b) -> (d | gcd a b).
Proof.
  rewrite gcd_spec. split; [apply Z.gcd_nonneg|]. split; [apply Z.gcd_divide_l|]. split; [apply Z.gcd_divide_r|]. intros d. apply Z.gcd_greatest.
Qed.
(** For a non-negative number the inverse is found exactly when the numbers are coprime, and it is the inverse in range. *)
Theorem C116_mod_inverse a m : 0 <= a -> 0 < m ->
  (forall x, mod_inverse a m = Some x <-> 0 <= x < m /\ (a * x) mod m = 1 mod m) /\
  (mod_inverse a m = None <-> Z.gcd a m <> 1).
Proof.
  intros Ha Hm. pose proof (mod_inverse_spec a m Ha Hm) as H. destruct (mod_inverse a m) as [y|].
  - destruct H as (H1 & H2 & H3). split.
    + intros x. split.
      * intros [= <-]. split; [exact H1|]. apply mod_eq_divide; [lia|exact H2].
      * intros [Hx E]. f_equal. apply mod_eq_divide in E; [|lia].
        assert (D : (m | a * (y - x))) by (replace (a * (y - x)) with ((a * y - 1) - (a * x - 1)) by ring; now apply Z.divide_sub_r).
        apply Z.gauss in D; [|now rewrite Z.gcd_comm]. destruct D as [k D]. assert (k = 0) by nia. lia.
    + split; [discriminate|]. intros Hn. contradiction.
  - split; [|tauto]. intros x. split; [discriminate|]. intros [Hx E]. exfalso. apply H. apply mod_eq_divide in E; [|lia]. destruct E as [k E].
    apply Zgcd_1_rel_prime. apply bezout_rel_prime. apply Bezout_intro with x (- k). lia.
Qed.
(** For a negative number an existing inverse can be missed. *)
Theorem C116_mod_inverse_negative_refuted : exists a m x, 0 < m /\ Z.gcd a m = 1 /\ (a * x) mod m = 1 /\ mod_inverse a m = None.
Proof. exists (-1), 5, 4. vm_compute. easy. Qed.
Theorem C116_modpow b e m : 0 <= e -> 0 < m ->
  modpow b e m = Z.rem (b ^ e) m /\ (0 <= b -> modpow b e m = b ^ e mod m).
Proof. intros He Hm. split; [now apply modpow_spec|]. intros Hb. now apply modpow_mod. Qed.
(** Whatever positive floating-point estimate the roots start from, the result is the integer root. *)
Theorem C116_isqrt seed n : (forall k, 0 < k -> 1 <= seed k) -> 0 <= n ->
  let s := isqrt seed n in 0 <= s /\ s * s <= n < (s + 1) * (s + 1).
Proof. intros Hs Hn. rewrite isqrt_spec by exact Hs. cbv zeta. split; [apply Z.sqrt_nonneg|]. apply (Z.sqrt_spec n Hn). Qed.
Theorem C116_nth_root seed x n : (forall x n, 1 <= seed x n) -> 1 <= n -> 0 <= x ->
  let r := integer_nth_root seed x n in 0 <= r /\ r ^ n <= x < (r + 1) ^ n.
Proof. apply nth_root_spec. Qed.

(** Chinese remainders: for positive moduli a result exists exactly when they are pairwise coprime, and it is the only
    number in range with the given residues. *)
Definition pairwise_coprime (ms : list Z) : Prop := forall i j, (i < j < length ms)%nat -> Z.gcd (nth i ms 1) (nth j ms 1) = 1.
Definition has_residues (x : Z) (rs ms : list Z) : Prop := forall i, (i < length ms)%nat -> x mod nth i ms 1 = nth i rs 0 mod nth i ms 1.
Definition product (ms : list Z) : Z := fold_right Z.mul 1 ms.
Lemma pairwise_nth ms : pairwise ms <-> pairwise_coprime ms.
Proof.
  unfold pairwise_coprime. induction ms as [|m ms IH]; cbn [pairwise].
  - split; [|easy]. intros _ i j H. cbn in H. lia.
  - unfold coprime_all. rewrite Forall_forall, IH. split.
    + intros [H1 H2] [|i] [|j] Hij; cbn in Hij; try lia; cbn [nth].
      * apply H1, nth_In. lia.
      * apply H2. lia.
    + intros H. split.
      * intros k Hk. apply (In_nth _ _ 1) in Hk as (j & Hj & <-). apply (H 0%nat (S j)). cbn. lia.
      * intros i j Hij. apply (H (S i) (S j)). cbn. lia.
Qed.
Lemma product_divide ms z : pairwise ms -> Forall (fun m => (m | z)) ms -> (product ms | z).
Proof.
  induction ms as [|m ms IH]; intros Hp Hd; cbn; [apply Z.divide_1_l|]. destruct Hp as [H1 H2]. inversion Hd as [|? ? D1 D2]; subst.
  specialize (IH H2 D2). fold (product ms). destruct D1 as [k ->]. rewrite (Z.mul_comm m). apply Z.mul_divide_mono_r.
  apply Z.gauss with m; [now rewrite Z.mul_comm|]. clear -H1. induction H1 as [|x ms H _ IH]; cbn; [apply Z.gcd_1_l|].
  fold (product ms). apply gcd_mul_coprime; [now rewrite Z.gcd_comm|exact IH].
Qed.
Lemma crt_spec rs ms : Forall (fun m => 0 < m) ms ->
  match crt rs ms with
  | Some x => length rs = length ms /\ ms <> [] /\ pairwise ms /\ 0 <= x < product ms /\ Forall (congr x) (combine rs ms)
  | None => length rs = length ms -> ms <> [] -> ~ pairwise ms
  end.
Proof.
  intros Hm. unfold crt. destruct rs as [|r rs], ms as [|m ms]; try (intros; cbn in *; congruence).
  destruct (Nat.eqb_spec (length rs) (length ms)) as [El|]; [|cbn; intros; congruence].
  inversion Hm as [|? ? Hm0 Hm1]; subst.
  assert (Hs : map snd (combine rs ms) = ms).
  { clear -El. revert ms El. induction rs as [|a rs IH]; intros [|b ms] E; cbn in *; try discriminate; [reflexivity|]. f_equal. apply IH. lia. }
  pose proof (crt_loop_spec (combine rs ms) (pos_rem r m) m) as H. rewrite Hs in H. rewrite pos_rem_spec in * by exact Hm0.
  specialize (H (Z.mod_pos_bound r m Hm0)). assert (Hf : Forall (fun e => 0 < snd e) (combine rs ms)).
  { apply Forall_forall. intros [a b] Hab. apply in_combine_r in Hab. rewrite Forall_forall in Hm1. now apply Hm1. }
  specialize (H Hf). destruct (crt_loop _ _ _) as [x|].
  - destruct H as (H1 & H2 & H3 & H4 & H5). split; [cbn; lia|]. split; [easy|]. split; [split; assumption|]. split; [exact H1|].
    cbn [combine]. constructor; [|exact H3]. unfold congr. cbn [fst snd]. replace (x - r) with ((x - r mod m) - (r - r mod m)) by ring.
    apply Z.divide_sub_r; [exact H2|]. apply mod_sub_divide. lia.
  - intros _ _ [P1 P2]. now apply H.
Qed.
Lemma residues_congr x : forall rs ms, length rs = length ms -> Forall (fun m => 0 < m) ms -> has_residues x rs ms <-> Forall (congr x) (combine rs ms).
Proof.
  unfold has_residues. induction rs as [|r rs IH]; intros [|m ms] E Hm; cbn in E; try discriminate; cbn [combine].
  - split; [constructor|]. intros _ i Hi. cbn in Hi. lia.
  - inversion Hm as [|? ? M1 M2]; subst. specialize (IH ms ltac:(lia) M2). split.
    + intros H. constructor.
      * apply mod_eq_divide; [cbn; lia|]. apply (H 0%nat). cbn. lia.
      * apply IH. intros i Hi. apply (H (S i)). cbn. lia.
    + intros H. inversion H as [|? ? H1 H2]; subst. intros [|i] Hi.
      * cbn. apply mod_eq_divide; [lia|exact H1].
      * cbn. apply IH; [exact H2|]. cbn in Hi. lia.
Qed.
Theorem C116_crt rs ms : Forall (fun m => 0 < m) ms -> length rs = length ms -> ms <> [] ->
  (crt rs ms = None <-> ~ pairwise_coprime ms) /\
  (forall x, crt rs ms = Some x -> 0 <= x < product ms /\ has_residues x rs ms) /\
  (forall x, pairwise_coprime ms -> 0 <= x < product ms -> has_residues x rs ms -> crt rs ms = Some x).
Proof.
  intros Hm El Hn. pose proof (crt_spec rs ms Hm) as H. rewrite <- pairwise_nth. split; [|split].
  - destruct (crt rs ms) as [x|]; [|split; [intros _; now apply H|reflexivity]]. split; [discriminate|]. intros Hc. now destruct H as (_ & _ & H & _).
  - intros x E. rewrite E in H. destruct H as (_ & _ & _ & H1 & H2). split; [exact H1|]. now apply residues_congr.
  - intros x Hp Hx Hr. apply pairwise_nth in Hp. destruct (crt rs ms) as [y|]; [|exfalso; exact (H El Hn Hp)]. destruct H as (_ & _ & _ & H1 & H2). f_equal.
    assert (D : (product ms | y - x)).
    { apply product_divide; [exact Hp|]. apply residues_congr in Hr; [|exact El|exact Hm]. apply Forall_forall. intros m Hin.
      apply (In_nth _ _ 1) in Hin as (i & Hi & <-). rewrite Forall_forall in H2, Hr.
      assert (Hin : In (nth i rs 0, nth i ms 1) (combine rs ms)).
      { rewrite <- combine_nth by exact El. apply nth_In. rewrite combine_length. lia. }
      replace (y - x) with ((y - nth i rs 0) - (x - nth i rs 0)) by ring. apply Z.divide_sub_r; [apply (H2 _ Hin)|apply (Hr _ Hin)]. }
    destruct D as [k D]. assert (k = 0) by nia. lia.
Qed.

(** The primality test: a number passes exactly when it is 2 or an odd number above 2 that is a strong probable prime
    to each of the twelve bases. *)
Theorem C116_probable n : is_probable_prime n = true <->
  n = 2 \/ (2 < n /\ Z.odd n = true /\ exists d s, 0 < d /\ Z.odd d = true /\ n - 1 = d * 2 ^ Z.of_nat s /\
    forall a, In a [2; 3; 5; 7; 11; 13; 17; 19; 23; 29; 31; 37] ->
      (n | a) \/ a ^ d mod n = 1 \/ exists r, (r < s)%nat /\ a ^ (d * 2 ^ Z.of_nat r) mod n = n - 1).
Proof. apply probable_spec. Qed.
(** Every prime passes: a rejected number is never prime. *)
Theorem C116_prime_passes n : prime n -> is_probable_prime n = true.
Proof. apply probable_prime. Qed.
Lemma passes : is_probable_prime 318665857834031151167461 = true.
Proof. vm_compute. reflexivity. Qed.
(** A composite number can pass all bases. *)
Theorem C116_pseudoprime_refuted : exists n p q, n = p * q /\ 1 < p < n /\ 1 < q < n /\ is_probable_prime n = true.
Proof. exists 318665857834031151167461, 399165290221, 798330580441. split; [reflexivity|]. split; [lia|]. split; [lia|]. apply passes. Qed.

(** There are primes above every number. *)
Lemma prime_divisor n : 1 < n -> exists p, prime p /\ (p | n).
Proof.
  intros Hn. pose proof Hn as H. revert H. pattern n. apply Zlt_0_ind; [|lia]. clear n Hn. intros n IH _ Hn.
  destruct (prime_dec n) as [Hp|Hp]; [exists n; split; [exact Hp|apply Z.divide_refl]|].
  apply not_prime_divide in Hp as (d & Hd & D); [|exact Hn]. destruct (IH d ltac:(lia) ltac:(lia)) as (p & P1 & P2). exists p. split; [exact P1|]. eapply Z.divide_trans; eassumption.
Qed.
Lemma fact_divide : forall k i, (1 <= i <= k)%nat -> (Z.of_nat i | Z.of_nat (fact k)).
Proof.
  induction k as [|k IH]; intros i Hi; [lia|]. change (fact (S k)) with (S k * fact k)%nat. rewrite Nat2Z.inj_mul. destruct (Nat.eq_dec i (S k)) as [->|].
  - apply Z.divide_factor_l.
  - apply Z.divide_mul_r, IH. lia.
Qed.
Lemma prime_above n : exists p, prime p /\ n <= p.
Proof.
  destruct (prime_divisor (Z.of_nat (fact (Z.to_nat n)) + 1)) as (p & P1 & P2); [pose proof (lt_O_fact (Z.to_nat n)); lia|]. exists p. split; [exact P1|].
  destruct (Z.lt_ge_cases p n) as [L|L]; [exfalso|exact L]. pose proof (prime_ge_2 p P1).
  pose proof (fact_divide (Z.to_nat n) (Z.to_nat p) ltac:(lia)) as D. rewrite Z2Nat.id in D by lia.
  assert (D1 : (p | 1)). { replace 1 with ((Z.of_nat (fact (Z.to_nat n)) + 1) - Z.of_nat (fact (Z.to_nat n))) by ring. now apply Z.divide_sub_r. }
  apply Z.divide_1_r_nonneg in D1; lia.
Qed.
Lemma next_loop_spec : forall fuel c y, next_loop fuel c = Some y ->
  c <= y /\ is_probable_prime y = true /\ Z.even (y - c) = true /\ forall z, c <= z < y -> Z.even (z - c) = true -> is_probable_prime z = false.
Proof.
  induction fuel as [|fuel IH]; intros c y; cbn [next_loop]; [discriminate|]. destruct (is_probable_prime c) eqn:E.
  - intros [= <-]. split; [lia|]. split; [exact E|]. split; [now rewrite Z.sub_diag|]. intros z Hz. lia.
  - intros H. apply IH in H as (H1 & H2 & H3 & H4). split; [lia|]. split; [exact H2|].
    assert (Sh : forall z, Z.even (z - (c + 2)) = Z.even (z - c)). { intros z. replace (z - (c + 2)) with (z - c - 2) by ring. rewrite Z.even_sub. cbn. now destruct (Z.even (z - c)). }
    split; [now rewrite <- Sh|]. intros z Hz Hev. destruct (Z.eq_dec z c) as [->|]; [exact E|]. destruct (Z.eq_dec z (c + 1)) as [->|].
    + replace (c + 1 - c) with 1 in Hev by ring. discriminate.
    + apply H4; [lia|]. now rewrite Sh.
Qed.
Lemma next_loop_some p : is_probable_prime p = true -> forall fuel c, c <= p -> Z.even (p - c) = true -> p - c < 2 * Z.of_nat fuel -> exists y, next_loop fuel c = Some y.
Proof.
  intros Hp. induction fuel as [|fuel IH]; intros c Hc He Hf; [lia|]. cbn [next_loop]. destruct (is_probable_prime c) eqn:E; [now exists c|].
  assert (p <> c) by congruence. assert (p <> c + 1) by (intros ->; replace (c + 1 - c) with 1 in He by ring; discriminate).
  apply IH; [lia| |lia]. replace (p - (c + 2)) with (p - c - 2) by ring. rewrite Z.even_sub, He. reflexivity.
Qed.
Lemma even_fails z : 2 < z -> Z.even z = true -> is_probable_prime z = false.
Proof.
  intros Hz He. destruct (is_probable_prime z) eqn:E; [|reflexivity]. apply probable_spec in E as [->|(_ & Ho & _)]; [lia|]. rewrite <- Z.negb_even, He in Ho. discriminate.
Qed.
(** [next_prime] always ends, and gives the first number from the start on that passes the test; so no prime is skipped,
    and if the result is prime it is the next prime. *)
Theorem C116_next_prime start :
  (exists fuel c, next_prime fuel start = Some c) /\
  forall fuel c, next_prime fuel start = Some c ->
    start <= c /\ is_probable_prime c = true /\ (forall z, start <= z < c -> is_probable_prime z = false) /\ (forall z, start <= z < c -> ~ prime z).
Proof.
  unfold next_prime. destruct (Z.leb_spec start 2) as [L|L].
  - split; [now exists 0%nat, 2|]. intros fuel c [= <-]. split; [exact L|]. split; [reflexivity|].
    assert (G : forall z, z < 2 -> is_probable_prime z = false). { intros z Hz. unfold is_probable_prime. destruct (Z.ltb_spec z 2); [reflexivity|lia]. }
    split; intros z Hz; [apply G; lia|]. intros Hp. apply probable_prime in Hp. rewrite G in Hp by lia. discriminate.
  - set (c0 := if Z.odd start then start else start + 1).
    assert (Hc : start <= c0 <= start + 1 /\ Z.even c0 = false /\ forall z, start <= z < c0 -> Z.even z = true).
    { unfold c0. destruct (Z.odd start) eqn:E.
      - split; [lia|]. split; [rewrite <- Z.negb_odd, E; reflexivity|]. intros. lia.
      - rewrite <- Z.negb_even in E. apply negb_false_iff in E. split; [lia|]. split; [rewrite Z.even_add, E; reflexivity|]. intros z Hz. replace z with start by lia. exact E. }
    destruct Hc as (C1 & C2 & C3). clearbody c0. split.
    + destruct (prime_above (c0 + 3)) as (p & P1 & P2). exists (S (Z.to_nat p)). apply (next_loop_some p (probable_prime p P1)); [lia| |lia].
      rewrite Z.even_sub, C2. destruct (Z.even p) eqn:E; [|reflexivity].
      pose proof (probable_prime p P1) as Q. rewrite (even_fails p ltac:(lia) E) in Q. discriminate.
    + intros fuel c H. apply next_loop_spec in H as (H1 & H2 & H3 & H4). split; [lia|]. split; [exact H2|].
      assert (G : forall z, start <= z < c -> is_probable_prime z = false).
      { intros z Hz. destruct (Z.even z) eqn:E; [apply even_fails; [lia|exact E]|]. destruct (Z.lt_ge_cases z c0) as [Lz|Lz].
        - rewrite C3 in E by lia. discriminate.
        - apply H4; [lia|]. rewrite Z.even_sub, E, C2. reflexivity. }
      split; [exact G|]. intros z Hz Hp. apply probable_prime in Hp. rewrite (G z Hz) in Hp. discriminate.
Qed.
(** It can stop at a composite number, so the result need not be a prime. *)
Theorem C116_next_prime_refuted : exists start p q, 1 < p /\ 1 < q /\ forall fuel, next_prime (S fuel) start = Some (p * q).
Proof.
  exists 318665857834031151167461, 399165290221, 798330580441. split; [lia|]. split; [lia|]. intros fuel.
  unfold next_prime. cbn [next_loop Z.leb Z.odd Z.compare]. replace (318665857834031151167461 <=? 2) with false by reflexivity.
  cbn [Z.odd]. rewrite passes. reflexivity.
Qed.

Example C116_example :
  gcd (-84) 36 = 12 /\ mod_inverse 17 3120 = Some 2753 /\ mod_inverse 6 9 = None /\ modpow 65 17 3233 = 2790 /\
  isqrt (fun _ => 1) 1000 = 31 /\ isqrt (fun _ => 400) 1000 = 31 /\ integer_nth_root (fun _ _ => 3) 1000 3 = 10 /\
  crt [2; 3; 2] [3; 5; 7] = Some 23 /\ crt [1; 2] [4; 6] = None /\ is_probable_prime 97 = true /\ is_probable_prime 561 = false /\
  next_prime 10 90 = Some 97.
Proof. vm_compute. repeat split. Qed.
