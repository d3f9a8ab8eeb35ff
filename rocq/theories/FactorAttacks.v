(** C117: the structural attacks on a modulus. *)
From Coq Require Import List ZArith Bool Lia Znumtheory Zpow_facts.
From Verif Require Import FactorModel FactorProofs FactorProps.
Import ListNotations.
Local Open Scope Z_scope.

Definition proper (n : Z) (f : Z * Z) : Prop := fst f * snd f = n /\ 1 < fst f < n /\ 1 < snd f < n.
Lemma verify_spec n p q : verify_factorization n p q = true <-> proper n (p, q).
Proof.
  unfold verify_factorization, proper. cbn [fst snd]. rewrite !andb_true_iff, !Z.ltb_lt, Z.eqb_eq. tauto.
Qed.
Lemma split_spec n d : match split n d with
  | Some f => fst f = d /\ proper n f
  | None => ~ (1 < d < n /\ (d | n))
  end.
Proof.
  unfold split. destruct (Z.ltb_spec 1 d) as [L|L], (Z.ltb_spec d n) as [L'|L']; cbn [andb]; try (intros [? _]; lia).
  destruct (Z.eqb_spec (Z.rem n d) 0) as [E|E].
  - pose proof (Z.quot_rem' n d) as Q. rewrite E in Q. split; [reflexivity|]. unfold proper. cbn [fst snd]. split; [lia|]. split; [lia|]. nia.
  - intros [_ D]. apply E. apply Z.rem_divide; [lia|exact D].
Qed.

(** [verify_factorization] accepts exactly the proper factorizations. *)
Theorem C117_verify n p q : verify_factorization n p q = true <-> p * q = n /\ 1 < p < n /\ 1 < q < n.
Proof. apply verify_spec. Qed.

Lemma trial_sound n limit : forall fuel d f, trial_loop fuel n limit d = Some f -> proper n f.
Proof.
  induction fuel as [|fuel IH]; intros d f; cbn [trial_loop]; [discriminate|]. destruct (d <=? limit); [|discriminate]. destruct (n <? d * d); [discriminate|].
  pose proof (split_spec n d) as S. destruct (split n d) as [g|]; [intros [= <-]; apply S|apply IH].
Qed.
Lemma fermat_loop_sound seed n : forall k a f, fermat_loop k seed n a = Some f -> proper n f.
Proof.
  induction k as [|k IH]; intros a f; cbn [fermat_loop]; [discriminate|]. destruct (_ && _) eqn:E; [|apply IH].
  intros [= <-]. apply andb_true_iff in E as [_ E]. now apply verify_spec.
Qed.
Lemma p1_sound n bound : forall r k a f, p1_loop r n bound k a = Some f -> proper n f.
Proof.
  assert (G : forall d f, split n d = Some f -> proper n f).
  { intros d f E. pose proof (split_spec n d) as S. rewrite E in S. apply S. }
  induction r as [|r IH]; intros k a f; cbn [p1_loop]; [apply G|]. cbv zeta.
  destruct (if (_ || _)%bool then _ else _) as [g|] eqn:E; [|apply IH]. intros [= <-].
  destruct (_ || _)%bool; [now apply G in E|discriminate].
Qed.
Lemma wiener_sound seed e n : forall r num den h2 h1 k2 k1 f, wiener_loop r seed e n num den h2 h1 k2 k1 = Some f -> proper n f.
Proof.
  induction r as [|r IH]; intros num den h2 h1 k2 k1 f; cbn [wiener_loop]; [discriminate|]. destruct (den =? 0); [discriminate|]. cbv zeta.
  set (h := _ * h1 + h2). set (k := _ * k1 + k2). clearbody h k.
  set (att := if h =? 0 then None else _). assert (Ha : forall g, att = Some g -> proper n g).
  { intros g. unfold att. destruct (h =? 0); [discriminate|]. destruct (_ =? 0); [|discriminate]. destruct (_ <? 0); [discriminate|].
    destruct (_ =? _); [|discriminate]. destruct (verify_factorization _ _ _) eqn:E; [|discriminate]. intros [= <-]. now apply verify_spec. }
  clearbody att. destruct att as [g|]; [|apply IH]. intros [= <-]. now apply Ha.
Qed.
(** Whatever an attack returns is a proper factorization; so on a prime (or below 4) every attack fails. *)
Theorem C117_sound seed n f : 
  (exists limit, trial_division n limit = Some f) \/ (exists k, fermat seed n k = Some f) \/ (exists k, pollard_rho n k = Some f) \/
  (exists b, pollard_p_minus_1 n b = Some f) \/ (exists e, wiener seed e n = Some f) ->
  fst f * snd f = n /\ 1 < fst f < n /\ 1 < snd f < n.
Proof.
  assert (G : forall d g, split n d = Some g -> proper n g).
  { intros d g E. pose proof (split_spec n d) as S. rewrite E in S. apply S. }
  intros [[l H]|[[k H]|[[k H]|[[b H]|[e H]]]]].
  - now apply trial_sound in H.
  - unfold fermat in H. destruct (negb _); [now apply G in H|]. now apply fermat_loop_sound in H.
  - unfold pollard_rho in H. destruct (negb _); now apply G in H.
  - now apply p1_sound in H.
  - unfold wiener in H. revert H. generalize (Z.to_nat 2000). intros r H. now apply wiener_sound in H.
Qed.
Theorem C117_prime_survives seed n k b e limit : prime n ->
  trial_division n limit = None /\ fermat seed n k = None /\ pollard_rho n k = None /\ pollard_p_minus_1 n b = None /\ wiener seed e n = None.
Proof.
  intros Hp. assert (G : forall o : option (Z * Z), (forall f, o = Some f -> proper n f) -> o = None).
  { intros [[p q]|] H; [|reflexivity]. destruct (H _ eq_refl) as (H1 & H2 & H3). cbn in *.
    assert (D : (p | n)) by (exists q; lia). apply prime_divisors in D; [|exact Hp]. lia. }
  repeat split; apply G; intros f E; apply (C117_sound seed n f); eauto 10.
Qed.

(** Trial division finds a factor exactly when some divisor lies within the limit and the square root, and then the
    least one, which is prime. *)
Lemma trial_loop_spec n limit : forall fuel d, 2 <= d -> (d = 2 \/ Z.odd d = true) -> (Z.to_nat (limit - d + 1) <= fuel)%nat ->
  (forall e, 1 < e < d -> ~ (e | n)) ->
  match trial_loop fuel n limit d with
  | Some f => fst f <= limit /\ fst f * fst f <= n /\ (fst f | n) /\ forall e, 1 < e < fst f -> ~ (e | n)
  | None => forall e, 1 < e <= limit -> e * e <= n -> ~ (e | n)
  end.
Proof.
  induction fuel as [|fuel IH]; intros d Hd Ho Hf Hno; cbn [trial_loop].
  - intros e He _. apply Hno. lia.
  - destruct (Z.leb_spec d limit) as [L|L]; [|intros e He _; apply Hno; lia].
    destruct (Z.ltb_spec n (d * d)) as [L2|L2].
    + intros e He Hs. apply Hno. nia.
    + pose proof (split_spec n d) as S. destruct (split n d) as [f|].
      * destruct S as [Ed S]. rewrite Ed. split; [exact L|]. split; [exact L2|]. split; [|exact Hno]. destruct S as (S & _).
        destruct f as [a b]. cbn [fst snd] in *. exists b. nia.
      * assert (Hnd : ~ (d | n)) by (intros D; apply S; split; [nia|exact D]).
        destruct (Z.eqb_spec d 2) as [->|Hne].
        -- apply IH; [lia|now right|lia|]. intros e He. replace e with 2 by lia. exact Hnd.
        -- destruct Ho as [|Ho]; [contradiction|]. apply IH; [lia|right; rewrite Z.odd_add, Ho; reflexivity|lia|].
           intros e He D. destruct (Z.eq_dec e d) as [->|]; [contradiction|]. destruct (Z.eq_dec e (d + 1)) as [->|]; [|apply (Hno e); [lia|exact D]].
           apply (Hno 2); [lia|]. eapply Z.divide_trans; [|exact D]. apply Z.odd_spec in Ho as [k ->]. exists (k + 1). ring.
Qed.
Theorem C117_trial n limit :
  match trial_division n limit with
  | Some (p, q) => p * q = n /\ prime p /\ p <= limit /\ p <= q /\ forall e, 1 < e < p -> ~ (e | n)
  | None => forall e, 1 < e <= limit -> e * e <= n -> ~ (e | n)
  end.
Proof.
  unfold trial_division. pose proof (trial_loop_spec n limit (Z.to_nat limit) 2 ltac:(lia) (or_introl eq_refl) ltac:(lia) ltac:(intros; lia)) as H.
  destruct (trial_loop _ _ _ _) as [[p q]|] eqn:E; [|exact H]. apply trial_sound in E as (E1 & E2 & E3). cbn [fst snd] in *. destruct H as (H1 & H2 & H3 & H4).
  split; [exact E1|]. split; [|split; [exact H1|split; [nia|exact H4]]].
  destruct (prime_dec p) as [|Hp]; [assumption|exfalso]. apply not_prime_divide in Hp as (e & He & D); [|lia].
  apply (H4 e He). eapply Z.divide_trans; eassumption.
Qed.

(** Fermat's method: with enough rounds for some factor pair of an odd number it succeeds, and the pair it returns
    is the closest one. *)
Definition hits (n a : Z) : Prop := exists b, 0 <= b /\ b * b = a * a - n /\ 1 < a - b /\ a + b < n.
Lemma fermat_test seed n a : (forall k, 0 < k -> 1 <= seed k) ->
  let b := isqrt seed (a * a - n) in (b * b =? a * a - n) && verify_factorization n (a - b) (a + b) = true <-> hits n a.
Proof.
  intros Hs. cbv zeta. rewrite isqrt_spec by exact Hs. rewrite andb_true_iff, Z.eqb_eq, verify_spec. unfold proper. cbn [fst snd]. split.
  - intros [H1 (H2 & H3 & H4)]. exists (Z.sqrt (a * a - n)). split; [apply Z.sqrt_nonneg|]. split; [exact H1|]. lia.
  - intros (b & B1 & B2 & B3 & B4). rewrite <- B2, Z.sqrt_square by exact B1. split; [reflexivity|]. split; [nia|]. lia.
Qed.
Lemma fermat_loop_spec seed n : (forall k, 0 < k -> 1 <= seed k) -> forall k a,
  match fermat_loop k seed n a with
  | Some (p, q) => exists a', a <= a' /\ p + q = 2 * a' /\ forall x, a <= x < a' -> ~ hits n x
  | None => forall x, a <= x < a + Z.of_nat k -> ~ hits n x
  end.
Proof.
  intros Hs. induction k as [|k IH]; intros a; cbn [fermat_loop]; [intros x Hx; lia|].
  pose proof (fermat_test seed n a Hs) as T. cbv zeta in *. set (b := isqrt seed (a * a - n)) in *. destruct (_ && _).
  - exists a. split; [lia|]. split; [lia|]. intros x Hx. lia.
  - assert (Hh : ~ hits n a) by (intros H; now apply T in H). specialize (IH (a + 1)). destruct (fermat_loop k seed n (a + 1)) as [[p q]|].
    + destruct IH as (a' & A1 & A2 & A3). exists a'. split; [lia|]. split; [exact A2|]. intros x Hx. destruct (Z.eq_dec x a) as [->|]; [exact Hh|apply A3; lia].
    + intros x Hx. destruct (Z.eq_dec x a) as [->|]; [exact Hh|apply IH; lia].
Qed.
Lemma pair_hits n p q : Z.odd n = true -> p * q = n -> 1 < p <= q -> exists a, p + q = 2 * a /\ hits n a /\ n <= a * a.
Proof.
  intros Ho E H. rewrite <- E, Z.odd_mul in Ho. apply andb_true_iff in Ho as [O1 O2]. apply Z.odd_spec in O1 as [i ->], O2 as [j ->].
  exists (i + j + 1). split; [lia|]. split; [exists (j - i); split; [lia|]; split; [nia|]; split; [lia|nia]|]. nia.
Qed.
Theorem C117_fermat seed n iters : (forall k, 0 < k -> 1 <= seed k) -> 0 < n -> Z.odd n = true ->
  (forall p q, p * q = n -> 1 < p <= q -> p + q < 2 * (Z.sqrt_up n + Z.of_nat iters) -> exists f, fermat seed n iters = Some f) /\
  (forall p q, fermat seed n iters = Some (p, q) -> forall p' q', p' * q' = n -> 1 < p' <= q' -> p + q <= p' + q').
Proof.
  intros Hs Hn Ho. unfold fermat. rewrite Ho. cbn [negb]. rewrite isqrt_spec by exact Hs.
  assert (Es : (if Z.sqrt n * Z.sqrt n <? n then Z.sqrt n + 1 else Z.sqrt n) = Z.sqrt_up n).
  { pose proof (Z.sqrt_spec n ltac:(lia)) as S. cbv zeta in S. destruct (Z.ltb_spec (Z.sqrt n * Z.sqrt n) n) as [L|L].
    - symmetry. apply Z.sqrt_up_unique; [pose proof (Z.sqrt_nonneg n); lia|]. unfold Z.pred. rewrite Z.add_simpl_r || idtac. replace (Z.sqrt n + 1 + -1) with (Z.sqrt n) by lia. lia.
    - assert (E : n = Z.sqrt n * Z.sqrt n) by lia. rewrite E at 2. rewrite Z.sqrt_up_square; [reflexivity|]. apply Z.sqrt_nonneg. }
  rewrite Es. pose proof (fermat_loop_spec seed n Hs iters (Z.sqrt_up n)) as L.
  assert (Hge : forall a, 0 <= a -> n <= a * a -> Z.sqrt_up n <= a).
  { intros a Ha H. apply Z.sqrt_up_le_mono in H. rewrite Z.sqrt_up_square in H by exact Ha. exact H. }
  split.
  - intros p q E H Hk. destruct (pair_hits n p q Ho E H) as (a & A1 & A2 & A3). destruct (fermat_loop _ _ _ _) as [f|]; [now exists f|exfalso].
    apply (L a); [|exact A2]. split; [apply Hge; lia|lia].
  - intros p q Ef p' q' E H. rewrite Ef in L. destruct L as (a' & L1 & L2 & L3). destruct (pair_hits n p' q' Ho E H) as (a & A1 & A2 & A3).
    destruct (Z.lt_ge_cases a a') as [Lt|Ge]; [|lia]. exfalso. apply (L3 a); [|exact A2]. split; [apply Hge; lia|exact Lt].
Qed.

(** Pollard's p-1: if p - 1 divides the factorial of the bound for some odd prime p of n, and the power is not 1 modulo
    n itself, a factor is found. *)
Lemma p1_loop_none n bound : 1 < n -> forall r k a E, 0 <= a -> 0 <= E -> 1 <= k -> a mod n = 2 ^ E mod n -> p1_loop r n bound k a = None ->
  exists a', 0 <= a' /\ a' mod n = 2 ^ (E * Z.of_nat (fact (Z.to_nat k - 1 + r)) / Z.of_nat (fact (Z.to_nat k - 1))) mod n /\ split n (gcd (a' - 1) n) = None.
Proof.
  intros Hn. induction r as [|r IH]; intros k a E Ha HE Hk Ea H; cbn [p1_loop] in H.
  - exists a. split; [exact Ha|]. split; [|exact H]. rewrite Nat.add_0_r, Z.div_mul by (pose proof (lt_O_fact (Z.to_nat k - 1)); lia). exact Ea.
  - cbv zeta in H. set (a1 := modpow a k n) in *. assert (E1 : a1 = a ^ k mod n) by (apply modpow_mod; lia).
    assert (H' : p1_loop r n bound (k + 1) a1 = None).
    { destruct (if (_ || _)%bool then _ else _); [discriminate|exact H]. }
    apply (IH (k + 1) a1 (E * k)) in H'.
    + destruct H' as (a' & A1 & A2 & A3). exists a'. split; [exact A1|]. split; [|exact A3]. rewrite A2. do 2 f_equal.
      replace (Z.to_nat (k + 1) - 1)%nat with (S (Z.to_nat k - 1)) by lia. replace (S (Z.to_nat k - 1) + r)%nat with (Z.to_nat k - 1 + S r)%nat by lia.
      change (fact (S (Z.to_nat k - 1))) with (S (Z.to_nat k - 1) * fact (Z.to_nat k - 1))%nat. rewrite Nat2Z.inj_mul.
      replace (Z.of_nat (S (Z.to_nat k - 1))) with k by lia. pose proof (lt_O_fact (Z.to_nat k - 1)).
      replace (E * k * Z.of_nat (fact (Z.to_nat k - 1 + S r))) with (k * (E * Z.of_nat (fact (Z.to_nat k - 1 + S r)))) by ring.
      now rewrite Z.div_mul_cancel_l by lia.
    + rewrite E1. apply Z.mod_pos_bound. lia.
    + nia.
    + lia.
    + rewrite E1, Z.mod_mod by lia. rewrite Zpower_mod, Ea, <- Zpower_mod by lia. now rewrite <- Z.pow_mul_r by lia.
Qed.
Theorem C117_p_minus_1 n p (bound : nat) : 1 < n -> (2 <= bound)%nat -> prime p -> p <> 2 -> (p | n) -> (p - 1 | Z.of_nat (fact bound)) ->
  2 ^ Z.of_nat (fact bound) mod n <> 1 -> exists f, pollard_p_minus_1 n (Z.of_nat bound) = Some f.
Proof.
  intros Hn Hb Hp H2 Hd Hf H1. destruct (pollard_p_minus_1 n (Z.of_nat bound)) as [f|] eqn:E; [now exists f|exfalso].
  unfold pollard_p_minus_1 in E. apply (p1_loop_none n (Z.of_nat bound) Hn _ 2 2 1) in E; [|lia|lia|lia|now rewrite Z.pow_1_r].
  destruct E as (a & A1 & A2 & A3). replace (Z.to_nat 2 - 1 + Z.to_nat (Z.of_nat bound - 1))%nat with bound in A2 by lia.
  change (Z.of_nat (fact (Z.to_nat 2 - 1))) with 1 in A2. rewrite Z.div_1_r, Z.mul_1_l in A2. pose proof (prime_ge_2 p Hp).
  set (F := Z.of_nat (fact bound)) in *. assert (HF : 0 < F) by (pose proof (lt_O_fact bound); lia).
  pose proof (split_spec n (gcd (a - 1) n)) as S. rewrite A3, gcd_spec in S. apply S. split; [|apply Z.gcd_divide_r].
  assert (Hp1 : (p | a - 1)).
  { assert (Fp : 2 ^ (p - 1) mod p = 1). { apply fermat_mod; [exact Hp|lia|]. intros D. apply prime_divisors in D; [|exact prime_2]. lia. }
    assert (F2 : 2 ^ F mod p = 1).
    { destruct Hf as [k Hk]. fold F in Hk. assert (0 <= k) by nia. rewrite Hk, Z.mul_comm, Z.pow_mul_r by lia. rewrite Zpower_mod, Fp by lia. rewrite Z.pow_1_l by lia. apply Z.mod_small. lia. }
    replace (a - 1) with ((a - 2 ^ F) + (2 ^ F - 1)) by ring. apply Z.divide_add_r.
    - eapply Z.divide_trans; [exact Hd|]. apply mod_eq_divide; [lia|exact A2].
    - apply mod_eq_divide; [lia|]. rewrite F2. symmetry. apply Z.mod_small. lia. }
  assert (Dg : (p | Z.gcd (a - 1) n)) by (now apply Z.gcd_greatest).
  assert (Pg : 0 < Z.gcd (a - 1) n). { pose proof (Z.gcd_nonneg (a - 1) n). destruct (Z.eq_dec (Z.gcd (a - 1) n) 0) as [E|]; [|lia]. apply Z.gcd_eq_0_r in E. lia. }
  apply Z.divide_pos_le in Dg; [|exact Pg]. split; [lia|].
  pose proof (Z.gcd_divide_r (a - 1) n) as Dn. apply Z.divide_pos_le in Dn; [|lia].
  destruct (Z.eq_dec (Z.gcd (a - 1) n) n) as [Eg|]; [|lia]. exfalso. apply H1. rewrite <- A2.
  pose proof (Z.gcd_divide_l (a - 1) n) as Da. rewrite Eg in Da. apply mod_eq_divide in Da; [|lia]. rewrite Da. apply Z.mod_small. lia.
Qed.
(** Smoothness of p - 1 alone is not enough: a repeated small prime factor escapes the factorial. *)
Theorem C117_smooth_refuted : exists n p q (bound : nat), p * q = n /\ prime p /\ prime q /\ p - 1 = Z.of_nat bound ^ 4 /\
  prime (Z.of_nat bound) /\ 2 ^ (p - 1) mod n <> 1 /\ pollard_p_minus_1 n (Z.of_nat bound) = None.
Proof.
  exists 391, 17, 23, 2%nat. split; [reflexivity|].
  assert (P : forall n, 1 < n -> forallb (fun k => Z.gcd n (Z.of_nat k) =? 1) (seq 1 (Z.to_nat (n - 1))) = true -> prime n).
  { intros n Hn H. constructor; [exact Hn|]. intros k Hk. rewrite forallb_forall in H. specialize (H (Z.to_nat k)). rewrite in_seq, Z2Nat.id in H by lia.
    apply rel_prime_sym, Zgcd_1_rel_prime. rewrite Z.gcd_comm || idtac. specialize (H ltac:(lia)). apply Z.eqb_eq in H. first [exact H | now rewrite Z.gcd_comm]. }
  split; [apply P; [lia|reflexivity]|]. split; [apply P; [lia|reflexivity]|]. split; [reflexivity|]. split; [apply prime_2|]. split; [vm_compute; discriminate|reflexivity].
Qed.

(** The message attacks. *)
Lemma congr_pow_combine m e ms : Forall (fun k => 0 < k) ms -> has_residues (m ^ e) (map (fun k => m ^ e mod k) ms) ms.
Proof.
  intros Hm i Hi. rewrite (nth_indep _ 0 (m ^ e mod 1)) by (now rewrite map_length). rewrite (map_nth (fun k => m ^ e mod k)). rewrite Forall_forall in Hm.
  specialize (Hm _ (nth_In ms 1 Hi)). now rewrite Z.mod_mod by lia.
Qed.
Lemma product_gt m ms : 0 <= m -> Forall (fun k => m < k) ms -> ms <> [] -> m ^ Z.of_nat (length ms) < product ms.
Proof.
  intros Hm H Hn. induction H as [|k ms Hk H IH]; [contradiction|]. cbn [length product fold_right]. fold (product ms). rewrite Nat2Z.inj_succ, Z.pow_succ_r by lia.
  destruct ms as [|k2 ms]; [cbn; lia|]. specialize (IH ltac:(discriminate)). pose proof (Z.pow_nonneg m (Z.of_nat (length (k2 :: ms))) Hm). nia.
Qed.
(** Broadcasting one message below all of at least [e] pairwise coprime moduli reveals it; and whatever is returned
    encrypts to the given residues. *)
Theorem C117_hastad seed (e : nat) ms : (forall x n, 1 <= seed x n) -> Forall (fun k => 0 < k) ms -> ms <> [] ->
  (forall m, (1 <= e <= length ms)%nat -> pairwise_coprime ms -> 0 <= m -> Forall (fun k => m < k) ms ->
     hastad_broadcast_attack seed e (map (fun k => m ^ Z.of_nat e mod k) ms) ms = Some m) /\
  (forall cs m, length cs = length ms -> hastad_broadcast_attack seed e cs ms = Some m -> has_residues (m ^ Z.of_nat e) cs ms).
Proof.
  intros Hs Hpos Hn. split.
  - intros m He Hc Hm Hlt. unfold hastad_broadcast_attack. rewrite map_length. destruct (Nat.ltb_spec (length ms) e); [lia|].
    destruct (C116_crt (map (fun k => m ^ Z.of_nat e mod k) ms) ms Hpos ltac:(now rewrite map_length) Hn) as (_ & _ & U).
    rewrite (U (m ^ Z.of_nat e) Hc); [| |now apply congr_pow_combine].
    + rewrite nth_root_pow by (try exact Hs; lia). now rewrite Z.eqb_refl.
    + split; [apply Z.pow_nonneg; lia|]. apply Z.le_lt_trans with (m ^ Z.of_nat (length ms)); [|now apply product_gt].
      destruct (Z.eq_dec m 0) as [->|]; [rewrite !Z.pow_0_l by lia; lia|]. apply Z.pow_le_mono_r; lia.
  - intros cs m El H. unfold hastad_broadcast_attack in H. destruct (_ <? _)%nat; [discriminate|]. destruct (crt cs ms) as [c|] eqn:E; [|discriminate].
    destruct (Z.eqb_spec (integer_nth_root seed c (Z.of_nat e) ^ Z.of_nat e) c) as [Er|]; [|discriminate]. injection H as <-. rewrite Er.
    destruct (C116_crt cs ms Hpos El Hn) as (_ & S & _). now apply S.
Qed.
(** A power is recognised and its root returned; anything else is refused. *)
Theorem C117_low_exponent seed c (e : nat) : (forall x n, 1 <= seed x n) -> (1 <= e)%nat ->
  forall m, low_exponent_message seed c e = Some m <-> 0 <= m /\ m ^ Z.of_nat e = c.
Proof.
  intros Hs He m. unfold low_exponent_message. split.
  - destruct (Z.eqb_spec (integer_nth_root seed c (Z.of_nat e) ^ Z.of_nat e) c) as [E|]; [|discriminate]. intros [= <-]. split; [|exact E].
    destruct (Z.lt_ge_cases c 0) as [L|L]; [|now apply nth_root_spec; lia || idtac].
    + unfold integer_nth_root. destruct (_ || _) eqn:G; [lia|]. apply orb_false_iff in G as [_ G]. apply Z.ltb_ge in G. lia.
  - intros [Hm <-]. rewrite nth_root_pow by (try exact Hs; lia). now rewrite Z.eqb_refl.
Qed.
Lemma ext_loop_spec a b : forall fuel old_r r old_s s old_t t g x y, 0 <= old_r -> 0 <= r -> (Z.to_nat r < fuel)%nat ->
  old_s * a + old_t * b = old_r -> s * a + t * b = r -> ext_loop fuel old_r r old_s s old_t t = (g, x, y) ->
  g = Z.gcd old_r r /\ x * a + y * b = g.
Proof.
  induction fuel as [|fuel IH]; intros old_r r old_s s old_t t g x y H1 H2 Hf D1 D2; [lia|]. cbn [ext_loop]. destruct (Z.eqb_spec r 0) as [->|Hn].
  - intros [= <- <- <-]. rewrite Z.gcd_0_r. split; [lia|exact D1].
  - cbv zeta. intros E. pose proof (Z.rem_bound_pos old_r r H1 ltac:(lia)). pose proof (Z.quot_rem' old_r r) as Q.
    set (q := Z.quot old_r r) in *. assert (Er : old_r - q * r = Z.rem old_r r) by lia. rewrite Er in E. apply IH in E; [|lia|lia|lia|exact D2|].
    + rewrite gcd_rem in E by exact Hn. exact E.
    + rewrite <- Er, <- D1, <- D2. ring.
Qed.
Lemma ext_gcd_spec a b g x y : 0 <= a -> 0 <= b -> ext_gcd a b = (g, x, y) -> g = Z.gcd a b /\ x * a + y * b = g.
Proof. intros Ha Hb. unfold ext_gcd. apply ext_loop_spec; lia. Qed.
Lemma signed_pow_spec m e a n : 0 <= m -> 0 < e -> 0 < n ->
  match signed_pow (m ^ e mod n) a n with
  | Some t => 0 <= t /\ (0 <= a -> (n | t - m ^ (e * a))) /\ (a < 0 -> (n | t * m ^ (e * - a) - 1))
  | None => Z.gcd m n <> 1
  end.
Proof.
  intros Hm He Hn. unfold signed_pow. assert (Hc : 0 <= m ^ e mod n) by (apply Z.mod_pos_bound; exact Hn).
  destruct (Z.ltb_spec a 0) as [L|L].
  - pose proof (mod_inverse_spec (m ^ e mod n) n Hc Hn) as H. destruct (mod_inverse _ _) as [i|].
    + destruct H as (I1 & I2 & _). rewrite modpow_mod by lia. split; [apply Z.mod_pos_bound; exact Hn|]. split; [lia|]. intros _.
      apply mod_eq_divide; [lia|]. apply mod_eq_divide in I2; [|lia].
      rewrite Z.pow_mul_r by lia. rewrite Z.mul_mod_idemp_l by lia. rewrite <- Z.pow_mul_l. rewrite Zpower_mod by lia.
      rewrite (Z.mul_comm i), <- (Z.mul_mod_idemp_l (m ^ e)) by lia. rewrite I2. rewrite <- Zpower_mod by lia. now rewrite Z.pow_1_l by lia.
    + intros G. apply H. rewrite Z.gcd_mod by lia. rewrite Z.gcd_comm. apply Zgcd_1_rel_prime. apply rel_prime_sym, rel_prime_Zpower_r; [lia|].
      apply rel_prime_sym. now apply Zgcd_1_rel_prime.
  - rewrite modpow_mod by lia. split; [apply Z.mod_pos_bound; exact Hn|]. split; [|lia]. intros _. apply mod_eq_divide; [lia|].
    rewrite Z.mod_mod by lia. rewrite <- Zpower_mod by lia. now rewrite Z.pow_mul_r by lia.
Qed.
(** Two coprime exponents under one modulus: only the message is ever returned, and it is returned when it is coprime
    to the modulus. *)
Theorem C117_common_modulus e1 e2 m n : 0 < e1 -> 0 < e2 -> Z.gcd e1 e2 = 1 -> 0 <= m < n ->
  let r := common_modulus_attack e1 e2 (m ^ e1 mod n) (m ^ e2 mod n) n in
  (r = None \/ r = Some m) /\ (Z.gcd m n = 1 -> r = Some m).
Proof.
  intros H1 H2 Hg Hm. unfold common_modulus_attack. destruct (ext_gcd e1 e2) as [[g a] b] eqn:E. apply ext_gcd_spec in E as [-> E]; [|lia|lia].
  rewrite Hg in *. cbn [Z.eqb negb]. change (1 =? 1) with true. cbn [negb]. cbv zeta.
  pose proof (signed_pow_spec m e1 a n ltac:(lia) H1 ltac:(lia)) as S1. pose proof (signed_pow_spec m e2 b n ltac:(lia) H2 ltac:(lia)) as S2.
  destruct (signed_pow (m ^ e1 mod n) a n) as [t1|]; [|split; [now left|contradiction]].
  destruct (signed_pow (m ^ e2 mod n) b n) as [t2|]; [|split; [now left|contradiction]].
  destruct S1 as (P1 & Q1 & R1), S2 as (P2 & Q2 & R2).
  enough (Ht : Some (rem (t1 * t2) n) = Some m) by (rewrite Ht; split; auto). f_equal. unfold rem. rewrite Z.rem_mod_nonneg by nia.
  rewrite <- (Z.mod_small m n) by lia. apply mod_eq_divide; [lia|].
  assert (Hsum : e1 * a + e2 * b = 1) by lia.
  destruct (Z.lt_ge_cases a 0) as [La|La], (Z.lt_ge_cases b 0) as [Lb|Lb].
  - nia.
  - specialize (R1 La). specialize (Q2 ltac:(lia)).
    (* t2 ≡ m^(e2 b) = m^(1 + e1 (-a)) = m * m^(e1 (-a)) *)
    replace (e2 * b) with (1 + e1 * - a) in Q2 by lia. rewrite Z.pow_add_r, Z.pow_1_r in Q2 by nia. set (M := m ^ (e1 * - a)) in *.
    replace (t1 * t2 - m) with (t1 * (t2 - m * M) + m * (t1 * M - 1)) by ring. apply Z.divide_add_r; now apply Z.divide_mul_r.
  - specialize (R2 Lb). specialize (Q1 ltac:(lia)).
    replace (e1 * a) with (1 + e2 * - b) in Q1 by lia. rewrite Z.pow_add_r, Z.pow_1_r in Q1 by nia. set (M := m ^ (e2 * - b)) in *.
    replace (t1 * t2 - m) with (t2 * (t1 - m * M) + m * (t2 * M - 1)) by ring. apply Z.divide_add_r; now apply Z.divide_mul_r.
  - specialize (Q1 ltac:(lia)). specialize (Q2 ltac:(lia)).
    assert (Em : m = m ^ (e1 * a) * m ^ (e2 * b)) by (rewrite <- Z.pow_add_r by nia; rewrite Hsum; ring).
    set (A := m ^ (e1 * a)) in *. set (B := m ^ (e2 * b)) in *. clearbody A B.
    replace (t1 * t2 - m) with (t1 * (t2 - B) + B * (t1 - A)) by (rewrite Em; ring).
    apply Z.divide_add_r; now apply Z.divide_mul_r.
Qed.
(** Exponents with a common factor are refused, whatever the ciphertexts: no wrong message is returned. *)
Theorem C117_common_modulus_refuses e1 e2 c1 c2 n : 0 < e1 -> 0 < e2 -> Z.gcd e1 e2 <> 1 -> common_modulus_attack e1 e2 c1 c2 n = None.
Proof.
  intros H1 H2 Hg. unfold common_modulus_attack. destruct (ext_gcd e1 e2) as [[g a] b] eqn:E. apply ext_gcd_spec in E as [-> _]; [|lia|lia].
  destruct (Z.eqb_spec (Z.gcd e1 e2) 1); [contradiction|reflexivity].
Qed.
Example C117_common_modulus_refuses_example : Z.gcd 4 6 <> 1 /\ common_modulus_attack 4 6 (2 ^ 4 mod 35) (2 ^ 6 mod 35) 35 = None.
Proof. split; [vm_compute; discriminate|vm_compute; reflexivity]. Qed.

Example C117_example :
  trial_division 91 10 = Some (7, 13) /\ trial_division 91 5 = None /\ fermat (fun _ => 1) 5959 20 = Some (59, 101) /\
  pollard_rho 8051 50 = Some (97, 83) /\ pollard_p_minus_1 299 5 = Some (13, 23) /\
  wiener (fun _ => 1) 17993 90581 = Some (239, 379) /\ hastad_broadcast_attack (fun _ _ => 1) 3 [8; 8; 8] [11; 13; 17] = Some 2 /\
  common_modulus_attack 3 5 (7 ^ 3 mod 33) (7 ^ 5 mod 33) 33 = Some 7 /\ low_exponent_message (fun _ _ => 2) 343 3 = Some 7.
Proof. vm_compute. repeat split. Qed.
