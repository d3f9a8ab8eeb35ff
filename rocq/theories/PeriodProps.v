(** C118: multiplicative orders and factoring by order finding. *)
From Coq Require Import List ZArith Bool Lia Znumtheory Zpow_facts.
From Verif Require Import FactorModel FactorProofs FactorProps PeriodModel.
Import ListNotations.
Local Open Scope Z_scope.

(** The order: the least positive exponent that gives 1. *)
Definition is_order (a n o : Z) : Prop := 0 < o /\ a ^ o mod n = 1 /\ forall j, 0 < j < o -> a ^ j mod n <> 1.

Lemma rem_pos_spec a n : 0 < n -> rem_pos a n = a mod n.
Proof. intros Hn. unfold rem_pos. destruct (Z.eqb_spec n 0); [lia|]. now apply pos_rem_spec. Qed.

(** * Prime factors. *)
Lemma strip_spec d : 2 <= d -> forall fuel r, 1 <= r -> (Z.to_nat r <= fuel)%nat ->
  let y := strip fuel r d in 1 <= y <= r /\ ~ (d | y) /\ (y | r) /\ forall p, prime p -> (p | r) -> p = d \/ (p | d) \/ (p | y).
Proof.
  intros Hd. induction fuel as [|fuel IH]; intros r Hr Hf; [lia|]. cbn [strip]. destruct (Z.eqb_spec (Z.rem r d) 0) as [E|E].
  - pose proof (Z.quot_rem' r d) as Q. rewrite E in Q. set (q := Z.quot r d) in *. assert (1 <= q) by nia.
    destruct (IH q ltac:(lia) ltac:(nia)) as (I1 & I2 & I3 & I4). cbv zeta in *. split; [nia|]. split; [exact I2|]. split.
    + eapply Z.divide_trans; [exact I3|]. exists d. lia.
    + intros p Hp D. replace r with (d * q) in D by lia. apply prime_mult in D as [D|D]; [now right; left|now apply I4|exact Hp].
  - cbv zeta. split; [lia|]. split; [intros D; apply E; apply Z.rem_divide; [lia|exact D]|]. split; [apply Z.divide_refl|]. intros p _ D. now right; right.
Qed.
Lemma prime_no_divisor d : 2 <= d -> (forall e, 1 < e < d -> ~ (e | d)) -> prime d.
Proof.
  intros Hd H. destruct (prime_dec d) as [|Hn]; [assumption|]. apply not_prime_divide in Hn as (e & He & D); [|lia]. now apply H in D.
Qed.
Lemma primes_loop_spec : forall fuel r d ps, 1 <= r -> 2 <= d -> (forall e, 1 < e < d -> ~ (e | r)) -> (Z.to_nat r + 2 < fuel + Z.to_nat d)%nat ->
  forall p, In p (primes_loop fuel r d ps) <-> In p ps \/ (prime p /\ (p | r)).
Proof.
  induction fuel as [|fuel IH]; intros r d ps Hr Hd Hno Hf p; cbn [primes_loop].
  - split; [now left|]. intros [H|[Hp D]]; [exact H|]. exfalso. pose proof (prime_ge_2 p Hp). pose proof (Z.divide_pos_le p r ltac:(lia) D). apply (Hno p); [lia|exact D].
  - destruct (Z.leb_spec (d * d) r) as [L|L].
    + destruct (Z.eqb_spec (Z.rem r d) 0) as [E|E].
      * assert (D : (d | r)) by (apply Z.rem_divide; [lia|exact E]).
        destruct (strip_spec d Hd (Z.to_nat r) r Hr (le_n _)) as (S1 & S2 & S3 & S4). cbv zeta in *. set (y := strip _ r d) in *.
        assert (Pd : prime d). { apply prime_no_divisor; [exact Hd|]. intros e He De. apply (Hno e He). eapply Z.divide_trans; eassumption. }
        rewrite IH; [|lia|lia| |lia].
        -- rewrite in_app_iff. cbn [In]. split.
           ++ intros [[H|[<-|[]]]|[Hp Dp]]; [now left|right; split; assumption|right; split; [exact Hp|]]. eapply Z.divide_trans; eassumption.
           ++ intros [H|[Hp Dp]]; [left; now left|]. destruct (S4 p Hp Dp) as [->|[D2|D2]]; [left; right; now left| |right; now split].
              left. right. left. pose proof (prime_ge_2 p Hp). apply prime_divisors in D2; [lia|exact Pd].
        -- intros e He De. destruct (Z.eq_dec e d) as [->|]; [contradiction|]. apply (Hno e); [lia|]. eapply Z.divide_trans; eassumption.
      * apply IH; [exact Hr|lia| |lia]. intros e He De. destruct (Z.eq_dec e d) as [->|]; [|apply (Hno e); [lia|exact De]].
        apply E. apply Z.rem_divide; [lia|exact De].
    + destruct (Z.ltb_spec 1 r) as [L1|L1].
      * assert (Pr : prime r).
        { apply prime_no_divisor; [lia|]. intros e He [f De]. destruct (Z.lt_ge_cases e d) as [Le|Le]; [apply (Hno e); [lia|now exists f]|].
          apply (Hno f); [nia|]. exists e. lia. }
        rewrite in_app_iff. cbn [In]. split.
        -- intros [H|[<-|[]]]; [now left|]. right. split; [exact Pr|apply Z.divide_refl].
        -- intros [H|[Hp D]]; [now left|]. right. left. pose proof (prime_ge_2 p Hp). apply prime_divisors in D; [lia|exact Pr].
      * split; [now left|]. intros [H|[Hp D]]; [exact H|]. pose proof (prime_ge_2 p Hp). apply Z.divide_pos_le in D; lia.
Qed.
(** [distinct_primes] lists exactly the prime divisors. *)
Theorem C118_distinct_primes r p : 1 <= r -> In p (distinct_primes r) <-> prime p /\ (p | r).
Proof.
  intros Hr. unfold distinct_primes. rewrite primes_loop_spec; [|exact Hr|lia|intros; lia|lia]. cbn [In]. tauto.
Qed.

(** * Orders. *)
Section orders.
Variables a n : Z.
Hypothesis Hn : 1 < n.
Hypothesis Ha : 0 <= a.
Lemma pow_add_mod i j : 0 <= i -> 0 <= j -> a ^ (i + j) mod n = (a ^ i mod n * (a ^ j mod n)) mod n.
Proof. intros Hi Hj. rewrite Z.pow_add_r by lia. apply Z.mul_mod. lia. Qed.
Lemma pow_mul_one o q : 0 <= o -> 0 <= q -> a ^ o mod n = 1 -> a ^ (o * q) mod n = 1.
Proof. intros Ho Hq E. rewrite Z.pow_mul_r by lia. rewrite Zpower_mod, E by lia. rewrite Z.pow_1_l by lia. apply Z.mod_small. lia. Qed.
Lemma order_divides o k : is_order a n o -> 0 <= k -> a ^ k mod n = 1 <-> (o | k).
Proof.
  intros (O1 & O2 & O3) Hk. split.
  - intros E. pose proof (Z.div_mod k o ltac:(lia)) as Q. pose proof (Z.mod_pos_bound k o O1) as B. pose proof (Z.div_pos k o Hk O1) as P.
    rewrite Q, pow_add_mod, pow_mul_one in E by (try assumption; nia). rewrite Z.mul_1_l, Z.mod_mod in E by lia.
    apply Z.mod_divide; [lia|]. destruct (Z.eq_dec (k mod o) 0) as [|Hne]; [assumption|]. exfalso. now apply (O3 (k mod o)); [lia|].
  - intros [q ->]. rewrite Z.mul_comm. apply pow_mul_one; [lia|nia|exact O2].
Qed.
Lemma order_exists c : 0 < c -> a ^ c mod n = 1 -> exists o, is_order a n o.
Proof.
  intros Hc E. assert (G : forall k, (forall j, 0 < j <= Z.of_nat k -> a ^ j mod n <> 1) \/ exists o, is_order a n o).
  { induction k as [|k [IH|IH]]; [left; intros; lia| |now right]. destruct (Z.eq_dec (a ^ Z.of_nat (S k) mod n) 1) as [E1|E1].
    - right. exists (Z.of_nat (S k)). split; [lia|]. split; [exact E1|]. intros j Hj. apply IH. lia.
    - left. intros j Hj. destruct (Z.eq_dec j (Z.of_nat (S k))) as [->|]; [exact E1|apply IH; lia]. }
  destruct (G (Z.to_nat c)) as [H|H]; [|exact H]. exfalso. apply (H c); [lia|exact E].
Qed.
Lemma reduce_prime_spec o p : is_order a n o -> prime p -> forall fuel r, 0 < r -> (o | r) -> (Z.to_nat r <= fuel)%nat ->
  let y := reduce_prime fuel a r n p in 0 < y /\ (o | y) /\ (y | r) /\ ~ (exists q, y = p * q /\ (o | q)).
Proof.
  intros Ho Hp. pose proof (prime_ge_2 p Hp). induction fuel as [|fuel IH]; intros r Hr D Hf; [lia|]. cbn [reduce_prime].
  pose proof (Z.quot_rem' r p) as Q. destruct (Z.eqb_spec (Z.rem r p) 0) as [E|E]; cbn [andb].
  - rewrite E in Q. set (q := Z.quot r p) in *. assert (Hq : 0 < q) by nia. rewrite modpow_mod by lia. destruct (Z.eqb_spec (a ^ q mod n) 1) as [E1|E1].
    + apply (order_divides o q Ho) in E1; [|lia]. destruct (IH q Hq E1 ltac:(nia)) as (I1 & I2 & I3 & I4). cbv zeta in *. split; [exact I1|]. split; [exact I2|]. split; [|exact I4].
      eapply Z.divide_trans; [exact I3|]. exists p. lia.
    + cbv zeta. split; [exact Hr|]. split; [exact D|]. split; [apply Z.divide_refl|]. intros (q' & Eq & Dq). assert (q' = q) as -> by nia. apply E1. now apply (order_divides o q Ho); [lia|].
  - cbv zeta. split; [exact Hr|]. split; [exact D|]. split; [apply Z.divide_refl|]. intros (q' & Eq & _). apply E. apply Z.rem_divide; [lia|]. exists q'. lia.
Qed.
Lemma reduce_fold o : is_order a n o -> forall ps r, (forall p, In p ps -> prime p) -> 0 < r -> (o | r) ->
  let y := fold_left (fun r p => reduce_prime (Z.to_nat r) a r n p) ps r in
  0 < y /\ (o | y) /\ (y | r) /\ forall p, In p ps -> ~ (exists q, y = p * q /\ (o | q)).
Proof.
  intros Ho. induction ps as [|p ps IH]; intros r Hps Hr D; cbn [fold_left].
  - cbv zeta. split; [exact Hr|]. split; [exact D|]. split; [apply Z.divide_refl|]. intros p [].
  - destruct (reduce_prime_spec o p Ho (Hps p (or_introl eq_refl)) (Z.to_nat r) r Hr D (le_n _)) as (R1 & R2 & R3 & R4). cbv zeta in *.
    set (r1 := reduce_prime _ a r n p) in *. destruct (IH r1 (fun p Hp => Hps p (or_intror Hp)) R1 R2) as (I1 & I2 & I3 & I4). cbv zeta in *.
    split; [exact I1|]. split; [exact I2|]. split; [eapply Z.divide_trans; eassumption|]. intros p' [<-|Hp']; [|now apply I4].
    intros (q & Eq & Dq). apply R4. destruct I3 as [k I3]. exists (k * q). split; [rewrite I3, Eq; ring|]. now apply Z.divide_mul_r.
Qed.
Lemma reduce_to_order_spec r : 0 < r -> a ^ r mod n = 1 -> is_order a n (reduce_to_order a r n).
Proof.
  intros Hr E. destruct (order_exists r Hr E) as (o & Ho). pose proof Ho as (O1 & _). apply (order_divides o r Ho) in E; [|lia]. unfold reduce_to_order.
  destruct (reduce_fold o Ho (distinct_primes r) r) as (H1 & H2 & H3 & H4); [intros p Hp; apply C118_distinct_primes in Hp; [apply Hp|lia]|exact Hr|exact E|].
  cbv zeta in *. set (y := fold_left _ _ _) in *. replace y with o; [exact Ho|]. destruct H2 as [k Hk]. assert (0 < k) by nia.
  destruct (Z.eq_dec k 1) as [->|Hne]; [lia|exfalso]. destruct (prime_divisor k ltac:(lia)) as (p & Pp & [c Pc]).
  apply (H4 p).
  - apply C118_distinct_primes; [lia|]. split; [exact Pp|]. eapply Z.divide_trans; [|exact H3]. exists (c * o). rewrite Hk, Pc. ring.
  - exists (c * o). split; [rewrite Hk, Pc; ring|]. exists c. reflexivity.
Qed.

(** The table of baby steps. *)
Definition table (t : list (Z * Z)) (j : Z) : Prop :=
  (forall x v, lookup x t = Some v -> 0 <= v < j /\ a ^ v mod n = x) /\ (forall i, 0 <= i < j -> exists v, lookup (a ^ i mod n) t = Some v).
Lemma baby_spec : forall steps j cur t, 0 <= j -> cur = a ^ j mod n -> table t j -> (forall i, 0 < i < j -> a ^ i mod n <> 1) ->
  match baby_loop steps j cur a n t with
  | inl o => is_order a n o
  | inr (t', giant) => giant = a ^ (j + Z.of_nat steps) mod n /\ table t' (j + Z.of_nat steps)
  end.
Proof.
  induction steps as [|steps IH]; intros j cur t Hj Ec Ht Hno; cbn [baby_loop].
  - cbn [Z.of_nat]. rewrite Z.add_0_r. easy.
  - destruct (Z.ltb_spec 0 j) as [L|L], (Z.eqb_spec cur 1) as [E|E]; cbn [andb].
    1: { split; [exact L|]. split; [congruence|exact Hno]. }
    all: specialize (IH (j + 1) (mulmod cur a n) (match lookup cur t with Some _ => t | None => (cur, j) :: t end) ltac:(lia)).
    all: replace (j + 1 + Z.of_nat steps) with (j + Z.of_nat (S steps)) in IH by lia; apply IH.
    all: try (unfold mulmod; rewrite rem_pos_spec by lia; rewrite Ec, Z.mul_mod_idemp_l by lia; rewrite Z.pow_add_r, Z.pow_1_r by lia; reflexivity).
    all: try (destruct Ht as [T1 T2]; destruct (lookup cur t) as [v0|] eqn:El;
      [ split; [intros x v Hx; destruct (T1 x v Hx); split; [lia|assumption]
               |intros i Hi; destruct (Z.eq_dec i j) as [->|]; [exists v0; now rewrite <- Ec|apply T2; lia]]
      | split; [intros x v; cbn [lookup]; destruct (Z.eqb_spec x cur) as [->|]; [intros [= <-]; split; [lia|now symmetry]|intros Hx; destruct (T1 x v Hx); split; [lia|assumption]]
               |intros i Hi; cbn [lookup]; destruct (Z.eqb_spec (a ^ i mod n) cur) as [|Hne]; [now exists j|]; destruct (Z.eq_dec i j) as [->|]; [congruence|apply T2; lia]]]).
    all: intros i Hi; destruct (Z.eq_dec i j) as [->|]; [first [congruence|lia]|apply Hno; lia].
Qed.
Lemma giant_spec m t : Z.gcd a n = 1 -> 0 < m -> table t m -> forall steps k gk giant, 1 <= k -> giant = a ^ m mod n -> gk = a ^ (k * m) mod n ->
  match giant_loop steps k gk giant a n m t with
  | Some o => is_order a n o
  | None => forall k' i, k <= k' < k + Z.of_nat steps -> 0 <= i < m -> a ^ (k' * m) mod n <> a ^ i mod n
  end.
Proof.
  intros Hg Hm [T1 T2]. induction steps as [|steps IH]; intros k gk giant Hk Eg Ek; cbn [giant_loop]; [intros; lia|].
  assert (Enext : mulmod gk giant n = a ^ ((k + 1) * m) mod n).
  { unfold mulmod. rewrite rem_pos_spec by lia. replace ((k + 1) * m) with (k * m + m) by ring. rewrite pow_add_mod by nia. congruence. }
  specialize (IH (k + 1) (mulmod gk giant n) giant ltac:(lia) Eg Enext).
  destruct (lookup gk t) as [idx|] eqn:El.
  - destruct (T1 gk idx El) as [B E]. cbv zeta. destruct (Z.ltb_spec 0 (k * m - idx)) as [L|L]; [|nia]. apply reduce_to_order_spec; [exact L|].
    assert (D : (n | a ^ (k * m) - a ^ idx)) by (apply mod_eq_divide; [lia|congruence]).
    replace (k * m) with (idx + (k * m - idx)) in D by ring. rewrite Z.pow_add_r in D by lia.
    replace (a ^ idx * a ^ (k * m - idx) - a ^ idx) with (a ^ idx * (a ^ (k * m - idx) - 1)) in D by ring. apply Z.gauss in D.
    + apply mod_eq_divide in D; [|lia]. rewrite D. apply Z.mod_small. lia.
    + apply Zgcd_1_rel_prime. apply rel_prime_Zpower_r; [lia|]. apply rel_prime_sym. now apply Zgcd_1_rel_prime.
  - destruct (giant_loop steps (k + 1) (mulmod gk giant n) giant a n m t) as [o|]; [exact IH|]. intros k' i Hk' Hi E.
    destruct (Z.eq_dec k' k) as [->|]; [|apply (IH k' i); [lia|lia|exact E]]. destruct (T2 i Hi) as [v Hv]. rewrite <- E, <- Ek, El in Hv. discriminate.
Qed.
End orders.
(** Modulo any [n] above 1: a result is the exact order; without one, either the numbers are not coprime or no exponent
    up to [m * m] gives 1. *)
Theorem C118_order a n m : 1 < n -> 1 <= m ->
  match multiplicative_order a n m with
  | Some o => Z.gcd a n = 1 /\ is_order (a mod n) n o
  | None => Z.gcd a n <> 1 \/ forall r, 0 < r <= m * m -> (a mod n) ^ r mod n <> 1
  end.
Proof.
  intros Hn Hm. unfold multiplicative_order. rewrite gcd_spec. destruct (Z.eqb_spec (Z.gcd a n) 1) as [Hg|Hg]; cbn [negb]; [|now left].
  rewrite rem_pos_spec by lia. pose proof (Z.mod_pos_bound a n ltac:(lia)) as B. assert (Hg' : Z.gcd (a mod n) n = 1) by (rewrite Z.gcd_mod by lia; now rewrite Z.gcd_comm).
  set (b := a mod n) in *. destruct (Z.eqb_spec b 1) as [->|Hb].
  - split; [exact Hg|]. split; [lia|]. split; [apply Z.mod_small; lia|]. intros. lia.
  - pose proof (baby_spec b n Hn ltac:(lia) (Z.to_nat m) 0 1 []) as HB. specialize (HB ltac:(lia)). rewrite Z.pow_0_r in HB.
    specialize (HB ltac:(symmetry; apply Z.mod_small; lia)).
    specialize (HB ltac:(split; [intros x v; discriminate|intros; lia]) ltac:(intros; lia)).
    destruct (baby_loop _ _ _ _ _ _) as [o|[t giant]]; [now split|]. rewrite Z2Nat.id, Z.add_0_l in HB by lia. destruct HB as [Eg Ht].
    pose proof (giant_spec b n Hn ltac:(lia) m t Hg' ltac:(lia) Ht (Z.to_nat m) 1 giant giant ltac:(lia) Eg) as HG.
    rewrite Z.mul_1_l in HG. specialize (HG Eg). destruct (giant_loop _ _ _ _ _ _ _ _) as [o|]; [now split|]. right. intros r Hr E.
    set (k := (r + m - 1) / m). assert (Hk : r <= k * m < r + m).
    { pose proof (Z.div_mod (r + m - 1) m ltac:(lia)) as Q. pose proof (Z.mod_pos_bound (r + m - 1) m ltac:(lia)). fold k in Q. nia. }
    apply (HG k (k * m - r)); [rewrite Z2Nat.id by lia; nia|lia|].
    replace (k * m) with ((k * m - r) + r) at 1 by ring. rewrite (pow_add_mod b n) by lia. rewrite E, Z.mul_1_r. apply Z.mod_mod. lia.
Qed.
(** So every order up to a bound below [m * m] is found. *)
Theorem C118_order_found a n m bound o : 1 < n -> 1 <= m -> bound <= m * m -> Z.gcd a n = 1 -> is_order (a mod n) n o -> o <= bound ->
  multiplicative_order a n m = Some o.
Proof.
  intros Hn Hm Hb Hg Ho Hle. pose proof (C118_order a n m Hn Hm) as H. destruct (multiplicative_order a n m) as [o'|].
  - destruct H as [_ H']. f_equal. pose proof Ho as (O1 & O2 & O3). pose proof H' as (P1 & P2 & P3).
    destruct (Z.lt_trichotomy o o') as [L|[->|L]]; [exfalso; now apply (P3 o); [lia|]|reflexivity|exfalso; now apply (O3 o'); [lia|]].
  - exfalso. destruct H as [H|H]; [contradiction|]. destruct Ho as (O1 & O2 & _). apply (H o); [lia|exact O2].
Qed.
(** An order above the requested bound can be returned: for bound 2 the code takes [m = 2], and finds order 4. *)
Theorem C118_bound_refuted : exists a n bound m o, m = Z.sqrt bound + 1 /\ multiplicative_order a n m = Some o /\ bound < o.
Proof. exists 2, 5, 2, 2, 4. vm_compute. easy. Qed.
(** Modulo 1 the result is not the order 1. *)
Theorem C118_modulus_one_refuted : exists a m o, multiplicative_order a 1 m = Some o /\ o <> 1 /\ a ^ 1 mod 1 = 1 mod 1.
Proof. exists 5, 11, 10. vm_compute. easy. Qed.

(** Splitting: a returned number is a proper divisor; for an even exponent giving 1 whose half gives neither 1 nor -1, one is
    returned. *)
Theorem C118_factor_from_order a r n : 1 < n -> 0 <= r -> 0 <= a ->
  (forall g, factor_from_order a r n = Some g -> 1 < g < n /\ (g | n)) /\
  (Z.even r = true -> a ^ r mod n = 1 -> a ^ (r / 2) mod n <> 1 -> a ^ (r / 2) mod n <> n - 1 -> exists g, factor_from_order a r n = Some g).
Proof.
  intros Hn Hr Ha. unfold factor_from_order. rewrite !gcd_spec.
  assert (Hd : forall x, negb (Z.gcd x n =? 1) && negb (Z.gcd x n =? n) = true -> 1 < Z.gcd x n < n /\ (Z.gcd x n | n)).
  { intros x H. apply andb_true_iff in H as [H1 H2]. apply negb_true_iff in H1, H2. apply Z.eqb_neq in H1, H2. pose proof (Z.gcd_divide_r x n) as D.
    split; [|exact D]. pose proof (Z.gcd_nonneg x n). pose proof (Z.divide_pos_le _ n ltac:(lia) D). destruct (Z.eq_dec (Z.gcd x n) 0) as [E|]; [apply Z.gcd_eq_0_r in E; lia|lia]. }
  split.
  - intros g. destruct (negb _); [discriminate|]. cbv zeta. destruct (_ || _); [discriminate|].
    destruct (_ && _) eqn:E1; [intros [= <-]; now apply Hd|]. destruct (negb (Z.gcd (_ + 1) n =? 1) && _) eqn:E2; [|discriminate]. intros [= <-]. now apply Hd.
  - intros He E1 H1 H2. rewrite Z.quot_div_nonneg by lia. apply Z.even_spec in He as [h ->]. replace (2 * h / 2) with h in * by (rewrite Z.mul_comm, Z.div_mul; lia).
    replace (Z.rem (2 * h) 2) with 0 by (rewrite Z.mul_comm; symmetry; apply Z.rem_mul; lia). cbn [Z.eqb negb]. cbv zeta. rewrite modpow_mod by lia.
    set (x := a ^ h mod n) in *. pose proof (Z.mod_pos_bound (a ^ h) n ltac:(lia)) as B. fold x in B.
    destruct (Z.eqb_spec x 1); [contradiction|]. destruct (Z.eqb_spec x (n - 1)); [contradiction|]. cbn [orb].
    assert (D : (n | (x - 1) * (x + 1))).
    { replace ((x - 1) * (x + 1)) with (x * x - 1) by ring. apply mod_eq_divide; [lia|]. unfold x. rewrite <- Z.mul_mod by lia. rewrite <- Z.pow_add_r by lia.
      replace (h + h) with (2 * h) by ring. rewrite E1. symmetry. apply Z.mod_small. lia. }
    destruct (negb (Z.gcd (x - 1) n =? 1) && negb (Z.gcd (x - 1) n =? n)) eqn:E; [now eexists|exfalso].
    apply andb_false_iff in E as [E|E]; apply negb_false_iff, Z.eqb_eq in E.
    + apply Z.gauss in D; [|now rewrite Z.gcd_comm]. apply Z.divide_pos_le in D; lia.
    + pose proof (Z.gcd_divide_l (x - 1) n) as D1. rewrite E in D1. destruct (Z.eq_dec x 0) as [E0|]; [|apply Z.divide_pos_le in D1; lia].
      rewrite E0 in D1. destruct D1 as [k D1]. assert (D2 : (n | 1)) by (exists (- k); lia). apply Z.divide_pos_le in D2; lia.
Qed.
(** Factoring by order finding returns only proper divisors of an odd number, so nothing for an odd prime. *)
Theorem C118_factor_via_order n tries m seed : 1 < n -> Z.odd n = true -> 1 <= m ->
  (forall f, factor_via_order n tries m seed = Some f -> 1 < f < n /\ (f | n)) /\ (prime n -> factor_via_order n tries m seed = None).
Proof.
  intros Hn Ho Hm. assert (G : forall f, factor_via_order n tries m seed = Some f -> 1 < f < n /\ (f | n)).
  { intros f. unfold factor_via_order. rewrite Ho. cbn [negb]. generalize 0. induction tries as [|tries IH]; intros t; cbn [via_loop]; [discriminate|]. cbv zeta.
    rewrite rem_pos_spec by lia. set (a := _ mod n). assert (Ha : 0 <= a) by (apply Z.mod_pos_bound; lia). clearbody a. rewrite gcd_spec. destruct (_ || _); [apply IH|]. destruct (_ && _) eqn:E.
    - intros [= <-]. apply andb_true_iff in E as [H1 H2]. apply negb_true_iff in H1, H2. apply Z.eqb_neq in H1, H2. pose proof (Z.gcd_divide_r a n) as D.
      split; [|exact D]. pose proof (Z.gcd_nonneg a n). pose proof (Z.divide_pos_le _ n ltac:(lia) D). destruct (Z.eq_dec (Z.gcd a n) 0) as [E|]; [apply Z.gcd_eq_0_r in E; lia|lia].
    - pose proof (C118_order a n m Hn Hm) as O. destruct (multiplicative_order a n m) as [r|]; [|apply IH]. destruct O as [_ (R & _)].
      destruct (factor_from_order a r n) as [g|] eqn:Ef; [|apply IH]. intros [= <-]. apply (C118_factor_from_order a r n Hn ltac:(lia) Ha) in Ef. exact Ef. }
  split; [exact G|]. intros Hp. destruct (factor_via_order n tries m seed) as [f|] eqn:E; [|reflexivity]. exfalso.
  destruct (G f eq_refl) as [B D]. apply prime_divisors in D; [|exact Hp]. lia.
Qed.
(** For the prime 2 it returns 2 itself. *)
Theorem C118_even_prime_refuted : exists n, prime n /\ forall tries m seed, factor_via_order n tries m seed = Some n.
Proof. exists 2. split; [apply prime_2|]. reflexivity. Qed.

Example C118_example :
  distinct_primes 360 = [2; 3; 5] /\ multiplicative_order 7 15 11 = Some 4 /\ multiplicative_order 6 15 11 = None /\ multiplicative_order 2 101 4 = None /\
  multiplicative_order 2 101 11 = Some 100 /\ factor_from_order 7 4 15 = Some 3 /\ factor_via_order 91 5 11 1 = Some 13.
Proof. vm_compute. repeat split. Qed.
