(** Lemmas for [FactorModel]. *)
From Coq Require Import List ZArith Bool Lia Znumtheory Zpow_facts.
From Verif Require Import FactorModel.
From Verif Require ModpFermat.
Import ListNotations.
Local Open Scope Z_scope.

(** * Greatest common divisors and inverses. *)
Lemma gcd_rem a b : b <> 0 -> Z.gcd b (Z.rem a b) = Z.gcd a b.
Proof.
  intros Hb. pose proof (Z.quot_rem' a b) as E. rewrite (Z.gcd_comm a b). replace (Z.rem a b) with (a - Z.quot a b * b) by lia.
  rewrite <- (Z.gcd_add_mult_diag_r b (a - Z.quot a b * b) (Z.quot a b)). f_equal. lia.
Qed.
Lemma gcd_loop_spec : forall fuel a b, 0 <= a -> 0 <= b -> (Z.to_nat b < fuel)%nat -> gcd_loop fuel a b = Z.gcd a b.
Proof.
  induction fuel as [|fuel IH]; intros a b Ha Hb Hf; [lia|]. cbn [gcd_loop]. destruct (Z.eqb_spec b 0) as [->|Hn].
  - rewrite Z.gcd_0_r. lia.
  - unfold rem. pose proof (Z.rem_bound_pos a b Ha ltac:(lia)). rewrite IH by lia. now apply gcd_rem.
Qed.
Lemma gcd_spec a b : gcd a b = Z.gcd a b.
Proof. unfold gcd. rewrite gcd_loop_spec by lia. now rewrite Z.gcd_abs_l, Z.gcd_abs_r. Qed.

Lemma inv_loop_spec a m : forall fuel old_r r old_s s g x, 0 <= old_r -> 0 <= r -> (Z.to_nat r < fuel)%nat ->
  (m | a * old_s - old_r) -> (m | a * s - r) -> inv_loop fuel old_r r old_s s = (g, x) ->
  g = Z.gcd old_r r /\ (m | a * x - g).
Proof.
  induction fuel as [|fuel IH]; intros old_r r old_s s g x H1 H2 Hf D1 D2; [lia|]. cbn [inv_loop]. destruct (Z.eqb_spec r 0) as [->|Hn].
  - intros [= <- <-]. rewrite Z.gcd_0_r. split; [lia|exact D1].
  - intros E. pose proof (Z.rem_bound_pos old_r r H1 ltac:(lia)). apply IH in E; [|lia|lia|lia|exact D2|].
    + rewrite gcd_rem in E by exact Hn. exact E.
    + pose proof (Z.quot_rem' old_r r) as Q.
      replace (a * (old_s - Z.quot old_r r * s) - Z.rem old_r r) with ((a * old_s - old_r) - Z.quot old_r r * (a * s - r)) by nia.
      apply Z.divide_sub_r; [exact D1|]. now apply Z.divide_mul_r.
Qed.
Lemma rem_mod_divide a m : (m | a - Z.rem a m).
Proof. exists (Z.quot a m). pose proof (Z.quot_rem' a m). lia. Qed.
Lemma mod_inverse_spec a m : 0 <= a -> 0 < m ->
  match mod_inverse a m with
  | Some x => 0 <= x < m /\ (m | a * x - 1) /\ Z.gcd a m = 1
  | None => Z.gcd a m <> 1
  end.
Proof.
  intros Ha Hm. unfold mod_inverse. destruct (inv_loop (S (Z.abs_nat m)) (rem a m) m 1 0) as [g s] eqn:E.
  apply (inv_loop_spec a m) in E.
  - destruct E as [E D]. unfold rem in E. rewrite Z.gcd_comm, gcd_rem in E by lia. destruct (Z.eqb_spec g 1) as [->|Hn]; [|congruence].
    split; [|split; [|congruence]].
    + unfold rem. destruct (Z.ltb_spec (Z.rem s m) 0).
      * pose proof (Z.rem_bound_abs s m ltac:(lia)). lia.
      * pose proof (Z.rem_bound_abs s m ltac:(lia)). lia.
    + unfold rem. pose proof (rem_mod_divide s m) as R. destruct R as [k R]. destruct D as [j D]. destruct (Z.ltb_spec (Z.rem s m) 0).
      * exists (j - a * k + a). nia.
      * exists (j - a * k). nia.
  - unfold rem. apply Z.rem_nonneg; lia.
  - lia.
  - lia.
  - unfold rem. rewrite Z.mul_1_r. apply rem_mod_divide.
  - exists (-1). lia.
Qed.

(** * Powers. *)
Lemma rem_idemp_l a b m : m <> 0 -> Z.rem (Z.rem a m * b) m = Z.rem (a * b) m.
Proof. intros. now apply Z.mul_rem_idemp_l. Qed.
Lemma rem_idemp_r a b m : m <> 0 -> Z.rem (a * Z.rem b m) m = Z.rem (a * b) m.
Proof. intros. now apply Z.mul_rem_idemp_r. Qed.
Lemma rem_pow b e m : m <> 0 -> 0 <= e -> Z.rem (Z.rem b m ^ e) m = Z.rem (b ^ e) m.
Proof.
  intros Hm He. revert e He. apply natlike_ind; [reflexivity|]. intros e He IH. rewrite !Z.pow_succ_r by exact He.
  rewrite rem_idemp_l by exact Hm. rewrite <- rem_idemp_r, IH, rem_idemp_r by exact Hm. reflexivity.
Qed.
Lemma modpow_loop_spec m : 1 < m -> forall fuel b e result, 0 <= e < 2 ^ Z.of_nat fuel -> Z.rem result m = result ->
  modpow_loop fuel b e result m = Z.rem (result * b ^ e) m.
Proof.
  intros Hm. induction fuel as [|fuel IH]; intros b e result He Hr.
  - cbn in *. replace e with 0 by lia. now rewrite Z.pow_0_r, Z.mul_1_r.
  - rewrite Nat2Z.inj_succ, Z.pow_succ_r in He by lia. cbn [modpow_loop]. destruct (Z.eqb_spec e 0) as [->|Hn]; [now rewrite Z.pow_0_r, Z.mul_1_r|].
    unfold rem. pose proof (Z.quot_rem' e 2) as Q. pose proof (Z.rem_bound_pos e 2 ltac:(lia) ltac:(lia)) as B.
    rewrite IH.
    + set (q := Z.quot e 2) in *. set (t := Z.rem e 2) in *. assert (Hq : 0 <= q) by lia. clearbody q t.
      rewrite <- rem_idemp_r by lia. rewrite rem_pow by lia. rewrite rem_idemp_r by lia.
      assert (Et : t = 0 \/ t = 1) by lia. destruct Et as [-> | ->]; cbn [Z.eqb negb].
      * replace e with (q + q) by lia. rewrite Z.pow_add_r, Z.pow_mul_l by lia. reflexivity.
      * rewrite rem_idemp_l by lia. replace e with (1 + (q + q)) by lia. rewrite !Z.pow_add_r, Z.pow_1_r, Z.pow_mul_l by lia. f_equal. ring.
    + lia.
    + destruct (negb _); [apply Z.rem_rem; lia|exact Hr].
Qed.
Lemma modpow_spec base e m : 0 <= e -> 0 < m -> modpow base e m = Z.rem (base ^ e) m.
Proof.
  intros He Hm. unfold modpow. destruct (Z.eqb_spec m 1) as [->|Hn]; [now rewrite Z.rem_1_r|]. rewrite modpow_loop_spec; [|lia| |].
  - unfold rem. rewrite Z.mul_1_l. apply rem_pow; lia.
  - pose proof (Z.log2_nonneg e). rewrite Z2Nat.id by lia. destruct (Z.eq_dec e 0) as [->|]; [cbn; lia|].
    pose proof (Z.log2_spec e ltac:(lia)) as L. unfold Z.succ in L. lia.
  - apply Z.rem_small. lia.
Qed.
Lemma modpow_mod base e m : 0 <= base -> 0 <= e -> 0 < m -> modpow base e m = base ^ e mod m.
Proof. intros Hb He Hm. rewrite modpow_spec by assumption. apply Z.rem_mod_nonneg; [now apply Z.pow_nonneg|exact Hm]. Qed.

(** * Roots. *)
Lemma isqrt_up_spec n : 0 < n -> forall fuel x, 1 <= x -> n <= (x * 2 ^ Z.of_nat fuel) * (x * 2 ^ Z.of_nat fuel) ->
  1 <= isqrt_up fuel x n /\ n <= isqrt_up fuel x n * isqrt_up fuel x n.
Proof.
  intros Hn. induction fuel as [|fuel IH]; intros x Hx H; cbn [isqrt_up].
  - cbn in H. rewrite Z.mul_1_r in H. easy.
  - destruct (Z.ltb_spec (x * x) n); [|easy]. apply IH; [lia|]. rewrite Nat2Z.inj_succ, Z.pow_succ_r in H by lia.
    replace (x * 2 * 2 ^ Z.of_nat fuel) with (x * (2 * 2 ^ Z.of_nat fuel)) by ring. exact H.
Qed.
Lemma newton_spec n : 0 < n -> forall fuel x, (Z.to_nat x <= fuel)%nat -> 1 <= x -> Z.sqrt n <= x -> isqrt_newton fuel n x = Z.sqrt n.
Proof.
  intros Hn. pose proof (Z.sqrt_spec n ltac:(lia)) as S. cbv zeta in S. set (s := Z.sqrt n) in *. assert (Hs : 0 < s) by (now apply Z.sqrt_pos).
  induction fuel as [|fuel IH]; intros x Hf Hx Hge; [lia|]. cbn [isqrt_newton]. rewrite !Z.quot_div_nonneg by (try apply Z.add_nonneg_nonneg; try apply Z.quot_pos; lia).
  set (q := n / x). assert (Hq : 2 * s - x <= q). { apply Z.div_le_lower_bound; [lia|]. pose proof (Z.square_nonneg (s - x)). lia. }
  assert (Hq2 : q * x <= n) by (unfold q; rewrite Z.mul_comm; apply Z.mul_div_le; lia).
  assert (Hy : s <= (x + q) / 2) by (apply Z.div_le_lower_bound; lia).
  destruct (Z.leb_spec x ((x + q) / 2)) as [L|L].
  - assert (x <= q). { pose proof (Z.mul_div_le (x + q) 2 ltac:(lia)). lia. } nia.
  - apply IH; lia.
Qed.
Lemma isqrt_spec seed n : (forall k, 0 < k -> 1 <= seed k) -> isqrt seed n = Z.sqrt n.
Proof.
  intros Hs. unfold isqrt. destruct (Z.leb_spec n 0) as [L|L].
  - destruct (Z.eq_dec n 0) as [->|]; [reflexivity|]. now rewrite Z.sqrt_neg by lia.
  - destruct (isqrt_up_spec n L (Z.to_nat (Z.log2_up n)) (seed n)) as [H1 H2]; [now apply Hs| |].
    + pose proof (Z.log2_up_nonneg n). rewrite Z2Nat.id by lia. pose proof (Hs n L). assert (n <= 2 ^ Z.log2_up n).
      { destruct (Z.eq_dec n 1) as [->|]; [cbn; lia|]. apply Z.log2_up_spec. lia. }
      set (P := 2 ^ Z.log2_up n) in *. clearbody P. assert (n <= seed n * P) by nia. nia.
    + apply newton_spec; [exact L|lia|exact H1|]. apply Z.sqrt_le_mono in H2. rewrite Z.sqrt_square in H2 by lia. exact H2.
Qed.

Lemma root_up_spec n x : 1 <= n -> forall fuel r, 1 <= r -> 1 <= root_up fuel n x r.
Proof. intros Hn. induction fuel as [|fuel IH]; intros r Hr; cbn; [exact Hr|]. destruct (_ <? _); [apply IH; lia|exact Hr]. Qed.
Lemma root_up_enough n x : 1 <= n -> forall fuel r, 1 <= r -> x <= r * 2 ^ Z.of_nat fuel -> x <= root_up fuel n x r ^ n.
Proof.
  intros Hn. assert (G : forall r, 1 <= r -> r <= r ^ n).
  { intros r Hr. rewrite <- (Z.pow_1_r r) at 1. apply Z.pow_le_mono_r; lia. }
  induction fuel as [|fuel IH]; intros r Hr H; cbn [root_up].
  - cbn in H. specialize (G r Hr). lia.
  - destruct (Z.ltb_spec (r ^ n) x) as [L|L]; [|exact L]. apply IH; [lia|]. rewrite Nat2Z.inj_succ, Z.pow_succ_r in H by lia. lia.
Qed.
Lemma root_newton_pos n x : 2 <= n -> 1 <= x -> forall fuel r, 1 <= r -> 1 <= root_newton fuel n x r.
Proof.
  intros Hn Hx. induction fuel as [|fuel IH]; intros r Hr; cbn [root_newton]; [exact Hr|]. destruct (_ <=? _); [exact Hr|]. apply IH.
  assert (0 < r ^ (n - 1)) by (apply Z.pow_pos_nonneg; lia). rewrite Z.quot_div_nonneg; [|apply Z.add_nonneg_nonneg; [nia|apply Z.quot_pos; lia]|lia].
  apply Z.div_le_lower_bound; [lia|]. rewrite Z.mul_1_r. destruct (Z.eq_dec r 1) as [->|].
  - rewrite Z.pow_1_l by lia. rewrite Z.quot_1_r. lia.
  - assert (0 <= Z.quot x (r ^ (n - 1))) by (apply Z.quot_pos; lia). nia.
Qed.
Lemma root_down_spec n x : 1 <= n -> 0 <= x -> forall fuel r, 0 <= r -> (Z.to_nat r <= fuel)%nat ->
  0 <= root_down fuel n x r /\ root_down fuel n x r ^ n <= x.
Proof.
  intros Hn Hx. induction fuel as [|fuel IH]; intros r Hr Hf; cbn [root_down].
  - replace r with 0 by lia. rewrite Z.pow_0_l by lia. lia.
  - destruct (Z.ltb_spec x (r ^ n)) as [L|L]; [|lia]. apply IH; [|lia].
    destruct (Z.eq_dec r 0) as [->|]; [rewrite Z.pow_0_l in L by lia; lia|lia].
Qed.
Lemma root_fix_spec n x : 1 <= n -> 0 <= x -> forall fuel r, 0 <= r -> r ^ n <= x -> (Z.to_nat x - Z.to_nat r <= fuel)%nat ->
  let y := root_fix fuel n x r in 0 <= y /\ y ^ n <= x < (y + 1) ^ n.
Proof.
  intros Hn Hx. assert (G : forall r, 0 <= r -> r <= r ^ n).
  { intros r Hr. destruct (Z.eq_dec r 0) as [->|]; [apply Z.pow_nonneg; lia|]. rewrite <- (Z.pow_1_r r) at 1. apply Z.pow_le_mono_r; lia. }
  induction fuel as [|fuel IH]; intros r Hr Hp Hf; cbn [root_fix].
  - cbv zeta. specialize (G (r + 1) ltac:(lia)). lia.
  - destruct (Z.leb_spec ((r + 1) ^ n) x) as [L|L]; [apply IH; [lia|exact L|lia]|]. cbv zeta. lia.
Qed.
Lemma nth_root_spec seed x n : (forall x n, 1 <= seed x n) -> 1 <= n -> 0 <= x ->
  let r := integer_nth_root seed x n in 0 <= r /\ r ^ n <= x < (r + 1) ^ n.
Proof.
  intros Hs Hn Hx. unfold integer_nth_root. destruct (Z.eqb_spec n 0); [lia|]. destruct (Z.ltb_spec x 0); [lia|]. cbn [orb].
  destruct (Z.eqb_spec n 1) as [->|]; cbn [orb].
  - cbv zeta. rewrite !Z.pow_1_r. lia.
  - destruct (Z.eqb_spec x 0) as [->|]; [cbv zeta; rewrite Z.pow_0_l, Z.pow_1_l by lia; lia|].
    cbv zeta. set (r0 := root_up _ n x _). assert (H0 : 1 <= r0) by (apply root_up_spec; [lia|apply Hs]).
    assert (H1 : 1 <= root_newton (Z.to_nat r0) n x r0) by (apply root_newton_pos; lia). set (r1 := root_newton _ n x r0) in *.
    destruct (root_down_spec n x Hn Hx (Z.to_nat r1) r1) as [H2 H3]; [lia|lia|]. apply root_fix_spec; [lia|lia|exact H2|exact H3|lia].
Qed.
Lemma pow_lt_inv a b n : 1 <= n -> 0 <= a -> 0 <= b -> a ^ n < b ^ n -> a < b.
Proof. intros Hn Ha Hb H. destruct (Z.lt_ge_cases a b) as [|L]; [assumption|]. pose proof (Z.pow_le_mono_l b a n ltac:(lia)). lia. Qed.
Lemma nth_root_pow seed m n : (forall x n, 1 <= seed x n) -> 1 <= n -> 0 <= m -> integer_nth_root seed (m ^ n) n = m.
Proof.
  intros Hs Hn Hm. destruct (nth_root_spec seed (m ^ n) n Hs Hn) as (H1 & H2 & H3); [apply Z.pow_nonneg; lia|].
  set (r := integer_nth_root _ _ _) in *. apply pow_lt_inv in H3; [|lia|lia|lia]. destruct (Z.lt_ge_cases m r) as [L|L]; [|lia].
  assert (m ^ n < r ^ n) by (apply Z.pow_lt_mono_l; lia). lia.
Qed.

(** * Remainders. *)
Lemma pos_rem_spec a m : 0 < m -> pos_rem a m = a mod m.
Proof.
  intros Hm. unfold pos_rem, rem. pose proof (Z.rem_bound_abs a m ltac:(lia)) as B. pose proof (Z.quot_rem' a m) as Q.
  destruct (Z.ltb_spec (Z.rem a m) 0); [apply Z.mod_unique with (Z.quot a m - 1)|apply Z.mod_unique with (Z.quot a m)]; try (left; lia); lia.
Qed.
Lemma mod_sub_divide a m : m <> 0 -> (m | a - a mod m).
Proof. intros Hm. exists (a / m). pose proof (Z.div_mod a m Hm). lia. Qed.
Lemma mod_eq_divide a b m : m <> 0 -> a mod m = b mod m <-> (m | a - b).
Proof.
  intros Hm. split.
  - intros E. replace (a - b) with ((a - a mod m) - (b - b mod m)) by lia. apply Z.divide_sub_r; now apply mod_sub_divide.
  - intros [k H]. replace a with (b + k * m) by lia. now apply Z.mod_add.
Qed.

(** * Chinese remainders. *)
Definition congr (x : Z) (e : Z * Z) : Prop := (snd e | x - fst e).
Lemma crt_step x m ri mi inv : 0 <= x < m -> 0 < mi -> (mi | m mod mi * inv - 1) ->
  let t := pos_rem (pos_rem (ri - x) mi * inv) mi in let y := pos_rem (x + m * t) (m * mi) in
  0 <= y < m * mi /\ (m | y - x) /\ (mi | y - ri).
Proof.
  intros Hx Hmi Hi. cbv zeta. rewrite !pos_rem_spec by nia. set (t := ((ri - x) mod mi * inv) mod mi). split; [|split].
  - apply Z.mod_pos_bound. nia.
  - pose proof (mod_sub_divide (x + m * t) (m * mi) ltac:(nia)) as [k H]. exists (t - k * mi). lia.
  - pose proof (mod_sub_divide (x + m * t) (m * mi) ltac:(nia)) as [k H].
    pose proof (mod_sub_divide m mi ltac:(lia)) as [k1 H1]. destruct Hi as [k2 H2].
    pose proof (mod_sub_divide (ri - x) mi ltac:(lia)) as [k3 H3]. pose proof (mod_sub_divide ((ri - x) mod mi * inv) mi ltac:(lia)) as [k4 H4]. fold t in H4.
    set (d := (ri - x) mod mi) in *. set (mm := m mod mi) in *. set (Y := (x + m * t) mod (m * mi)) in *.
    (* y - ri = x + m t - k m mi - ri ; m t = m (d inv - k4 mi) ; m inv = (mm + k1 mi) inv = 1 + (k2 + k1 inv) mi *)
    exists (d * (k2 + k1 * inv) - m * k4 - k * m - k3).
    assert (Et : t = d * inv - k4 * mi) by lia. assert (Em : m * inv = 1 + (k2 + k1 * inv) * mi) by nia.
    assert (EY : Y = x + m * t - k * (m * mi)) by lia. rewrite EY, Et.
    replace (m * (d * inv - k4 * mi)) with (d * (m * inv) - m * k4 * mi) by ring. rewrite Em. lia.
Qed.
Definition coprime_all (m : Z) (ms : list Z) : Prop := Forall (fun k => Z.gcd m k = 1) ms.
Fixpoint pairwise (ms : list Z) : Prop := match ms with [] => True | m :: ms => coprime_all m ms /\ pairwise ms end.
Lemma gcd_mul_coprime a b c : Z.gcd a c = 1 -> Z.gcd b c = 1 -> Z.gcd (a * b) c = 1.
Proof.
  intros H1 H2. apply Zgcd_1_rel_prime. apply rel_prime_sym, rel_prime_mult; apply rel_prime_sym; now apply Zgcd_1_rel_prime.
Qed.
Lemma gcd_mul_factor a b c : Z.gcd (a * b) c = 1 -> Z.gcd a c = 1 /\ Z.gcd b c = 1.
Proof.
  intros H. apply Zgcd_1_rel_prime in H. split; apply Zgcd_1_rel_prime; eapply rel_prime_div; eauto; [exists b|exists a]; ring.
Qed.
Lemma coprime_all_mul a b ms : coprime_all (a * b) ms <-> coprime_all a ms /\ coprime_all b ms.
Proof.
  unfold coprime_all. rewrite !Forall_forall. split.
  - intros H. split; intros k Hk; now apply (gcd_mul_factor a b k (H k Hk)).
  - intros [H1 H2] k Hk. apply gcd_mul_coprime; auto.
Qed.
Definition zprod (ms : list Z) : Z := fold_right Z.mul 1 ms.
Lemma crt_loop_spec : forall l x m, 0 <= x < m -> Forall (fun e => 0 < snd e) l ->
  match crt_loop l x m with
  | Some y => 0 <= y < m * zprod (map snd l) /\ (m | y - x) /\ Forall (congr y) l /\ coprime_all m (map snd l) /\ pairwise (map snd l)
  | None => ~ (coprime_all m (map snd l) /\ pairwise (map snd l))
  end.
Proof.
  induction l as [|[ri mi] l IH]; intros x m Hx Hl; cbn [crt_loop map zprod fold_right snd pairwise].
  - split; [lia|]. split; [exists 0; lia|]. split; [constructor|]. split; [constructor|exact I].
  - inversion Hl as [|? ? Hmi Hl']; subst. cbn [snd] in Hmi. pose proof (mod_inverse_spec (pos_rem m mi) mi) as Hi.
    rewrite !pos_rem_spec in Hi by exact Hmi. specialize (Hi ltac:(apply Z.mod_pos_bound; exact Hmi) Hmi).
    assert (Hg : Z.gcd (m mod mi) mi = Z.gcd m mi) by (rewrite Z.gcd_mod by lia; apply Z.gcd_comm).
    rewrite (pos_rem_spec m mi Hmi). destruct (mod_inverse (m mod mi) mi) as [inv|].
    + destruct Hi as (_ & Hi & Hc). rewrite Hg in Hc. destruct (crt_step x m ri mi inv Hx Hmi Hi) as (Y1 & Y2 & Y3). cbv zeta in *.
      set (y := pos_rem (x + m * _) (m * mi)) in *. specialize (IH y (m * mi) Y1 Hl'). destruct (crt_loop l y (m * mi)) as [z|].
      * destruct IH as (Z1 & Z2 & Z3 & Z4 & Z5). apply coprime_all_mul in Z4 as [Z4 Z6]. split; [fold (zprod (map snd l)); rewrite Z.mul_assoc; exact Z1|]. split.
        -- replace (z - x) with ((z - y) + (y - x)) by ring. apply Z.divide_add_r; [|exact Y2]. eapply Z.divide_trans; [|exact Z2]. exists mi. ring.
        -- split; [|split; [|split]]; [|constructor; assumption|exact Z6|exact Z5]. constructor; [|exact Z3]. unfold congr. cbn [fst snd].
           replace (z - ri) with ((z - y) + (y - ri)) by ring. apply Z.divide_add_r; [|exact Y3]. eapply Z.divide_trans; [|exact Z2]. exists m. ring.
      * intros [H1 [H2 H3]]. apply IH. split; [|exact H3]. apply coprime_all_mul. split; [now inversion H1|exact H2].
    + rewrite Hg in Hi. intros [H1 _]. inversion H1; subst. contradiction.
Qed.

(** * Miller-Rabin. *)
Lemma odd_part_spec : forall fuel d s, 0 < d < 2 ^ Z.of_nat fuel -> forall d' s', odd_part fuel d s = (d', s') ->
  0 < d' /\ Z.odd d' = true /\ (s <= s')%nat /\ d = d' * 2 ^ Z.of_nat (s' - s).
Proof.
  induction fuel as [|fuel IH]; intros d s Hd d' s'; [cbn in Hd; lia|]. rewrite Nat2Z.inj_succ, Z.pow_succ_r in Hd by lia. cbn [odd_part].
  destruct (Z.odd d) eqn:E.
  - intros [= <- <-]. rewrite Nat.sub_diag. cbn. split; [lia|]. split; [exact E|]. lia.
  - intros H. assert (Ev : d = 2 * Z.quot d 2).
    { rewrite Z.quot_div_nonneg by lia. rewrite <- Z.negb_even in E. apply negb_false_iff, Z.even_spec in E as [k ->].
      rewrite Z.mul_comm, Z.div_mul by lia. ring. }
    apply IH in H; [|lia]. destruct H as (H1 & H2 & H3 & H4). split; [exact H1|]. split; [exact H2|]. split; [lia|].
    rewrite Ev, H4. replace (s' - s)%nat with (S (s' - S s)) by lia. rewrite Nat2Z.inj_succ, Z.pow_succ_r by lia. ring.
Qed.
Lemma mr_squares_spec n : 0 < n -> forall k x, 0 <= x ->
  mr_squares k x n = true <-> exists r, (1 <= r <= k)%nat /\ x ^ (2 ^ Z.of_nat r) mod n = n - 1.
Proof.
  intros Hn. induction k as [|k IH]; intros x Hx; cbn [mr_squares].
  - split; [discriminate|]. intros (r & H & _). lia.
  - unfold rem. rewrite Z.rem_mod_nonneg by nia.
    assert (Hp : forall r, ((x * x) mod n) ^ (2 ^ Z.of_nat r) mod n = x ^ (2 ^ Z.of_nat (S r)) mod n).
    { intros r. assert (0 < 2 ^ Z.of_nat r) by (apply Z.pow_pos_nonneg; lia). rewrite <- Zpower_mod by lia. rewrite Nat2Z.inj_succ, Z.pow_succ_r by lia.
      rewrite Z.pow_mul_r by lia. rewrite Z.pow_2_r. reflexivity. }
    cbv zeta. destruct (Z.eqb_spec ((x * x) mod n) (n - 1)) as [E|E].
    + split; [|reflexivity]. intros _. exists 1%nat. split; [lia|]. change (2 ^ Z.of_nat 1) with 2. rewrite Z.pow_2_r. exact E.
    + rewrite IH by (apply Z.mod_pos_bound; exact Hn). split.
      * intros (r & Hr & H). rewrite Hp in H. exists (S r). split; [lia|exact H].
      * intros (r & Hr & H). destruct (Nat.eq_dec r 1) as [->|].
        -- exfalso. apply E. change (2 ^ Z.of_nat 1) with 2 in H. rewrite Z.pow_2_r in H. exact H.
        -- exists (r - 1)%nat. split; [lia|]. rewrite Hp. replace (S (r - 1)) with r by lia. exact H.
Qed.
Definition strong (n d : Z) (s : nat) (a : Z) : Prop :=
  (n | a) \/ a ^ d mod n = 1 \/ exists r, (r < s)%nat /\ a ^ (d * 2 ^ Z.of_nat r) mod n = n - 1.
Lemma mr_base_spec n d s a : 2 < n -> 0 < d -> (1 <= s)%nat -> 0 <= a -> mr_base n d s a = true <-> strong n d s a.
Proof.
  intros Hn Hd Hs Ha. unfold mr_base, strong. unfold rem. rewrite Z.rem_mod_nonneg by lia. destruct (Z.eqb_spec (a mod n) 0) as [E|E].
  - split; [|reflexivity]. intros _. left. apply Z.mod_divide; [lia|exact E].
  - rewrite modpow_mod by lia. cbv zeta.
    assert (Hp : forall r, (a ^ d mod n) ^ (2 ^ Z.of_nat r) mod n = a ^ (d * 2 ^ Z.of_nat r) mod n).
    { intros r. rewrite <- Zpower_mod by lia. rewrite Z.pow_mul_r by (try apply Z.pow_nonneg; lia). reflexivity. }
    assert (E' : ~ (n | a)) by (intros H; apply E, Z.mod_divide; [lia|exact H]).
    destruct (Z.eqb_spec (a ^ d mod n) 1) as [E1|E1]; cbn [orb]; [tauto|].
    destruct (Z.eqb_spec (a ^ d mod n) (n - 1)) as [E2|E2].
    + split; [|reflexivity]. intros _. right. right. exists 0%nat. split; [lia|]. cbn. now rewrite Z.mul_1_r.
    + rewrite mr_squares_spec by (try apply Z.mod_pos_bound; lia). split.
      * intros (r & Hr & H). rewrite Hp in H. right. right. exists r. split; [lia|exact H].
      * intros [H|[H|(r & Hr & H)]]; [contradiction|contradiction|]. destruct r as [|r].
        -- cbn in H. rewrite Z.mul_1_r in H. contradiction.
        -- exists (S r). split; [lia|]. rewrite Hp. exact H.
Qed.
Lemma probable_spec n : is_probable_prime n = true <->
  n = 2 \/ (2 < n /\ Z.odd n = true /\ exists d s, 0 < d /\ Z.odd d = true /\ n - 1 = d * 2 ^ Z.of_nat s /\ forall a, In a mr_bases -> strong n d s a).
Proof.
  unfold is_probable_prime. destruct (Z.ltb_spec n 2); [split; [discriminate|intros [->|[? _]]; lia]|].
  destruct (Z.eqb_spec n 2) as [->|]; [tauto|]. destruct (Z.odd n) eqn:Eo; cbn [negb].
  2:{ split; [discriminate|]. intros [->|(_ & [=] & _)]. lia. }
  destruct (odd_part (Z.to_nat (Z.log2 n + 1)) (n - 1) 0) as [d s] eqn:E.
  apply odd_part_spec in E as (H1 & H2 & _ & H4).
  2:{ pose proof (Z.log2_nonneg n). rewrite Z2Nat.id by lia. pose proof (Z.log2_spec n ltac:(lia)) as L. unfold Z.succ in L. lia. }
  rewrite Nat.sub_0_r in H4.
  assert (Hs : (1 <= s)%nat). { destruct s; [|lia]. cbn in H4. exfalso. rewrite <- Z.negb_even in H2, Eo.
    apply negb_true_iff in H2, Eo. replace d with (n - 1) in H2 by lia. rewrite Z.even_sub, Eo in H2. discriminate. }
  assert (Hb : forall a, In a mr_bases -> 0 <= a) by (intros a Ha; cbn in Ha; lia).
  rewrite forallb_forall. split.
  - intros H0. right. split; [lia|]. split; [reflexivity|]. exists d, s. repeat split; auto. intros a Ha. apply mr_base_spec; auto. lia.
  - intros [->|(_ & _ & d' & s' & D1 & D2 & D3 & D4)]; [lia|]. 
    assert (Hd : d' = d /\ s' = s).
    { assert (Huniq : forall k k' x y, Z.odd x = true -> Z.odd y = true -> x * 2 ^ Z.of_nat k = y * 2 ^ Z.of_nat k' -> k = k' /\ x = y).
      { induction k as [|k IH]; intros k' x y Hx Hy Exy.
        - destruct k' as [|k']; [cbn in Exy; lia|]. rewrite (Nat2Z.inj_succ k'), Z.pow_succ_r in Exy by lia. change (2 ^ Z.of_nat 0) with 1 in Exy.
          replace (x * 1) with x in Exy by ring. rewrite Exy in Hx. replace (y * (2 * 2 ^ Z.of_nat k')) with (2 * (y * 2 ^ Z.of_nat k')) in Hx by ring.
          rewrite Z.odd_mul in Hx. discriminate.
        - destruct k' as [|k'].
          + rewrite (Nat2Z.inj_succ k), Z.pow_succ_r in Exy by lia. change (2 ^ Z.of_nat 0) with 1 in Exy.
            replace (y * 1) with y in Exy by ring. rewrite <- Exy in Hy. replace (x * (2 * 2 ^ Z.of_nat k)) with (2 * (x * 2 ^ Z.of_nat k)) in Hy by ring.
            rewrite Z.odd_mul in Hy. discriminate.
          + rewrite !Nat2Z.inj_succ, !Z.pow_succ_r in Exy by lia. destruct (IH k' x y Hx Hy) as [-> ->]; [lia|]. easy. }
      destruct (Huniq s' s d' d D2 H2) as [-> ->]; [lia|easy]. }
    destruct Hd as [-> ->]. intros a Ha. apply mr_base_spec; auto. lia.
Qed.
Lemma sqrt_one n y : prime n -> 0 <= y < n -> (y * y) mod n = 1 -> y = 1 \/ y = n - 1.
Proof.
  intros Hp Hy E. pose proof (prime_ge_2 n Hp) as P2.
  assert (D : (n | (y - 1) * (y + 1))).
  { replace ((y - 1) * (y + 1)) with (y * y - 1) by ring. rewrite <- E. now apply mod_sub_divide; lia. }
  apply prime_mult in D as [D|D]; [| |exact Hp].
  - left. destruct (Z.eq_dec y 0) as [->|]; [rewrite Z.mod_0_l in E by lia; discriminate|]. destruct (Z.eq_dec y 1) as [|Hne]; [assumption|]. apply Z.divide_pos_le in D; lia.
  - right. apply Z.divide_pos_le in D; lia.
Qed.
Lemma fermat_mod n a : prime n -> 0 <= a -> ~ (n | a) -> a ^ (n - 1) mod n = 1.
Proof.
  intros Hp Ha Hd. pose proof (prime_ge_2 n Hp) as P2. pose proof (ModpFermat.fermat n a Hp Ha) as F.
  replace n with (Z.succ (n - 1)) in F at 2 by lia. rewrite Z.pow_succ_r in F by lia.
  replace (a * a ^ (n - 1) - a) with (a * (a ^ (n - 1) - 1)) in F by ring. apply prime_mult in F as [F|F]; [contradiction| |exact Hp].
  apply mod_eq_divide in F; [|lia]. rewrite F. apply Z.mod_small. lia.
Qed.
Lemma strong_prime n d s a : prime n -> 2 < n -> 0 < d -> n - 1 = d * 2 ^ Z.of_nat s -> 0 <= a -> strong n d s a.
Proof.
  intros Hp Hn Hd E Ha. unfold strong. destruct (Zdivide_dec n a) as [D|D]; [now left|right].
  pose proof (fermat_mod n a Hp Ha D) as F. rewrite E in F. clear E.
  induction s as [|s IH].
  - left. cbn in F. now rewrite Z.mul_1_r in F.
  - set (y := a ^ (d * 2 ^ Z.of_nat s) mod n). assert (0 < 2 ^ Z.of_nat s) by (apply Z.pow_pos_nonneg; lia).
    assert (Ey : (y * y) mod n = 1).
    { unfold y. rewrite <- Z.mul_mod by lia. rewrite <- Z.pow_add_r by nia. rewrite Nat2Z.inj_succ, Z.pow_succ_r in F by lia.
      replace (d * 2 ^ Z.of_nat s + d * 2 ^ Z.of_nat s) with (d * (2 * 2 ^ Z.of_nat s)) by ring. exact F. }
    apply sqrt_one in Ey as [Ey|Ey]; [| |exact Hp|apply Z.mod_pos_bound; lia].
    + destruct (IH Ey) as [I|(r & Hr & I)]; [now left|]. right. exists r. split; [lia|exact I].
    + right. exists s. split; [lia|exact Ey].
Qed.
Lemma probable_prime n : prime n -> is_probable_prime n = true.
Proof.
  intros Hp. pose proof (prime_ge_2 n Hp) as P2. apply probable_spec. destruct (Z.eq_dec n 2) as [->|Hn]; [now left|right].
  assert (Ho : Z.odd n = true).
  { rewrite <- Z.negb_even. apply negb_true_iff. destruct (Z.even n) eqn:E; [|reflexivity]. apply Z.even_spec in E as [k E].
    assert (D : (2 | n)) by (exists k; lia). apply prime_divisors in D; [|exact Hp]. lia. }
  split; [lia|]. split; [exact Ho|].
  destruct (odd_part (Z.to_nat (Z.log2 n + 1)) (n - 1) 0) as [d s] eqn:E. apply odd_part_spec in E as (H1 & H2 & _ & H4).
  2:{ pose proof (Z.log2_nonneg n). rewrite Z2Nat.id by lia. pose proof (Z.log2_spec n ltac:(lia)) as L. unfold Z.succ in L. lia. }
  rewrite Nat.sub_0_r in H4. exists d, s. repeat split; auto. intros a Ha. apply strong_prime; auto; [lia|]. cbn in Ha. lia.
Qed.
