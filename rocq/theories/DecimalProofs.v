(** Rounding, scales and normal forms of decimals. *)
From Coq Require Import ZArith List Lia QArith Qround Qabs Qpower Lqa.
From stdpp Require Import list.
From Verif Require Import MachInt BigIntModel BigIntProofs BigIntZ BigIntText RationalModel RationalQ DecimalModel.
Open Scope Z_scope.

(** What each mode asks of the integer [z] a number [q] is rounded to. *)
Definition rounds (m : rounding) (q : Q) (z : Z) : Prop :=
  let err := Qabs (q - inject_Z z) in
  (err < 1)%Q /\
  match m with
  | Down => (Qabs (inject_Z z) <= Qabs q)%Q
  | Up => (Qabs q <= Qabs (inject_Z z))%Q
  | Floor => (inject_Z z <= q)%Q
  | Ceiling => (q <= inject_Z z)%Q
  | HalfUp => (err <= 1 # 2)%Q /\ ((err == 1 # 2)%Q -> (Qabs q < Qabs (inject_Z z))%Q)
  | HalfDown => (err <= 1 # 2)%Q /\ ((err == 1 # 2)%Q -> (Qabs (inject_Z z) < Qabs q)%Q)
  | HalfEven => (err <= 1 # 2)%Q /\ ((err == 1 # 2)%Q -> Z.even z = true)
  end.
Lemma rounds_proper m p q z : (p == q)%Q -> rounds m p z -> rounds m q z.
Proof. intros E. unfold rounds. destruct m; rewrite E; auto. Qed.

Lemma Qabs_lt_iff x y : (Qabs x < y)%Q <-> (- y < x)%Q /\ (x < y)%Q.
Proof. apply Qabs_Qlt_condition. Qed.
Lemma inj_le a b : a <= b -> (inject_Z a <= inject_Z b)%Q.
Proof. intros H. now rewrite <- Zle_Qle. Qed.
Lemma inj_lt a b : a < b -> (inject_Z a + 1 <= inject_Z b)%Q.
Proof. intros H. change 1%Q with (inject_Z 1). rewrite <- inject_Z_plus, <- Zle_Qle. lia. Qed.
Ltac qabs := repeat first [rewrite Qabs_pos by lra | rewrite Qabs_neg by lra].
Ltac qabs_in H := repeat first [rewrite Qabs_pos in H by lra | rewrite Qabs_neg in H by lra].

(** The modes leave no choice. *)
Lemma rounds_unique_lt m q z z' : z < z' -> rounds m q z -> rounds m q z' -> False.
Proof.
  intros L [A Ra] [B Rb]. apply Qabs_lt_iff in A, B. pose proof (inj_lt z z' L) as I. assert (N : ~ z + 1 < z') by (intros G%inj_lt; rewrite inject_Z_plus in G; change (inject_Z 1) with 1%Q in G; lra).
  assert (z' = z + 1) as -> by lia. rewrite inject_Z_plus in *. change (inject_Z 1) with 1%Q in *. set (t := inject_Z z) in *.
  assert (S : (0 <= t)%Q \/ (t <= -1)%Q). { destruct (Z.le_gt_cases 0 z) as [H|H]; [left; exact (inj_le 0 z H)|right; apply (inj_le z (-1)); lia]. }
  assert (T1 : (Qabs (q - t) == q - t)%Q) by (apply Qabs_pos; lra). assert (T2 : (Qabs (q - (t + 1)) == t + 1 - q)%Q) by (rewrite Qabs_neg by lra; ring).
  destruct m.
  - destruct S; qabs_in Ra; qabs_in Rb; lra.
  - destruct S; qabs_in Ra; qabs_in Rb; lra.
  - lra.
  - lra.
  - destruct Ra as [R1 R2], Rb as [R3 R4]. rewrite T1 in R1, R2. rewrite T2 in R3, R4. assert (E : (q - t == 1 # 2)%Q) by lra. specialize (R2 E). assert (E2 : (t + 1 - q == 1 # 2)%Q) by lra. specialize (R4 E2). destruct S; qabs_in R2; qabs_in R4; lra.
  - destruct Ra as [R1 R2], Rb as [R3 R4]. rewrite T1 in R1, R2. rewrite T2 in R3, R4. assert (E : (q - t == 1 # 2)%Q) by lra. specialize (R2 E). assert (E2 : (t + 1 - q == 1 # 2)%Q) by lra. specialize (R4 E2). destruct S; qabs_in R2; qabs_in R4; lra.
  - destruct Ra as [R1 R2], Rb as [R3 R4]. rewrite T1 in R1, R2. rewrite T2 in R3, R4. assert (E : (q - t == 1 # 2)%Q) by lra. specialize (R2 E). assert (E2 : (t + 1 - q == 1 # 2)%Q) by lra. specialize (R4 E2).
    rewrite Z.add_1_r, Z.even_succ, <- Z.negb_even, R2 in R4. done.
Qed.
Lemma rounds_unique m q z z' : rounds m q z -> rounds m q z' -> z = z'.
Proof. intros H H'. destruct (Z.lt_trichotomy z z') as [L|[E|L]]; [|done|]; exfalso; eapply rounds_unique_lt; eauto. Qed.

(** Rounding a number with integer part [t] and nonzero fraction [x] of the same sign. *)
Lemma rounds_pos m (t : Z) (x : Q) : 0 <= t -> (0 < x)%Q -> (x < 1)%Q ->
  rounds m (inject_Z t + x) (if match m with Down => false | Up => true | Floor => false | Ceiling => true
    | HalfUp => match (x ?= 1 # 2)%Q with Lt => false | _ => true end | HalfDown => match (x ?= 1 # 2)%Q with Gt => true | _ => false end
    | HalfEven => match (x ?= 1 # 2)%Q with Gt => true | Eq => Z.odd t | Lt => false end end then t + 1 else t).
Proof.
  intros Ht X0 X1. assert (T : (0 <= inject_Z t)%Q) by (exact (inj_le 0 t Ht)).
  assert (P : (inject_Z (t + 1) == inject_Z t + 1)%Q) by (rewrite inject_Z_plus; reflexivity).
  destruct (x ?= 1 # 2)%Q eqn:C; [apply Qeq_alt in C|apply Qlt_alt in C|apply Qgt_alt in C].
  all: destruct m; try (destruct (Z.odd t) eqn:O); unfold rounds; cbv zeta; rewrite ?P; set (u := inject_Z t) in *; qabs; repeat split; try lra; intros; try (exfalso; lra).
  all: rewrite ?Z.add_1_r, ?Z.even_succ, <- ?Z.negb_odd, ?O; done.
Qed.
Lemma rounds_neg m (t : Z) (x : Q) : t <= 0 -> (x < 0)%Q -> (-1 < x)%Q ->
  rounds m (inject_Z t + x) (if match m with Down => false | Up => true | Floor => true | Ceiling => false
    | HalfUp => match (- x ?= 1 # 2)%Q with Lt => false | _ => true end | HalfDown => match (- x ?= 1 # 2)%Q with Gt => true | _ => false end
    | HalfEven => match (- x ?= 1 # 2)%Q with Gt => true | Eq => Z.odd t | Lt => false end end then t - 1 else t).
Proof.
  intros Ht X0 X1. assert (T : (inject_Z t <= 0)%Q) by (exact (inj_le t 0 Ht)).
  assert (P : (inject_Z (t - 1) == inject_Z t - 1)%Q) by (unfold Z.sub; rewrite inject_Z_plus; reflexivity).
  destruct (- x ?= 1 # 2)%Q eqn:C; [apply Qeq_alt in C|apply Qlt_alt in C|apply Qgt_alt in C].
  all: destruct m; try (destruct (Z.odd t) eqn:O); unfold rounds; cbv zeta; rewrite ?P; set (u := inject_Z t) in *; qabs; repeat split; try lra; intros; try (exfalso; lra).
  all: rewrite ?Z.sub_1_r, ?Z.even_pred, <- ?Z.negb_odd, ?O; done.
Qed.
Lemma frac_compare r d : 0 < d -> (Z.abs r * 2 ?= d) = (Qabs (r # Z.to_pos d) ?= 1 # 2)%Q.
Proof. intros H. unfold Qcompare. cbn. rewrite Z2Pos.id by done. f_equal. lia. Qed.
Lemma Qcompare_wd p q r : (p == q)%Q -> (p ?= r)%Q = (q ?= r)%Q.
Proof. intros E. now rewrite E. Qed.
Lemma round_rational_ofQ m q : exists z, round_rational (ofQ q) m = Some (of_Z z) /\ rounds m q z.
Proof.
  unfold round_rational. cbv zeta. parts q n d. rewrite div_rem_of_Z. destruct (Z.eqb_spec d 0); [lia|]. rewrite is_zero_of_Z.
  pose proof (Z.quot_rem' n d) as D. pose proof (Z.rem_bound_abs n d ltac:(lia)) as Rb. pose proof (Z.rem_sign_mul n d ltac:(lia)) as Rs. set (t := Z.quot n d) in *. set (r := Z.rem n d) in *.
  assert (Hq : (q == inject_Z t + (r # Z.to_pos d))%Q). { rewrite V. unfold Qeq. cbn [Qnum Qden Qplus inject_Z]. rewrite Pos.mul_1_l, Z2Pos.id by done. rewrite D at 1. ring. }
  destruct (Z.eqb_spec r 0) as [R0|R0].
  - exists t. split; [done|]. apply (rounds_proper m (inject_Z t)); [rewrite Hq, R0; unfold Qeq; cbn; lia|]. unfold rounds. cbv zeta. assert (Z0 : (Qabs (inject_Z t - inject_Z t) == 0)%Q) by (setoid_replace (inject_Z t - inject_Z t)%Q with 0%Q by ring; reflexivity).
    destruct m; rewrite Z0; (split; [lra|]); try lra; (split; [lra|intros; exfalso; lra]).
  - rewrite is_negative_of_Z, abs_of_Z, (from_i64_of_Z 2) by (unfold is_i64; lia). rewrite mul_of_Z, cmp_of_Z, is_odd_of_Z, one_of_Z, sub_of_Z, add_of_Z, frac_compare by done.
    destruct (Z.ltb_spec n 0) as [H|H].
    + assert (Hr : r < 0) by nia. assert (Ht : t <= 0) by nia. clear Rs. eexists. split; [|apply (rounds_proper m _ q _ (Qeq_sym _ _ Hq)); apply rounds_neg; [done| |]; unfold Qlt; cbn [Qnum Qden inject_Z]; rewrite ?Z2Pos.id by done; lia].
      f_equal. assert (A : (Qabs (r # Z.to_pos d) == - (r # Z.to_pos d))%Q) by (apply Qabs_neg; unfold Qle; cbn [Qnum Qden inject_Z]; lia). rewrite (Qcompare_wd _ _ (1 # 2) A).
      destruct m; cbn [negb]; try done; destruct (- (r # Z.to_pos d) ?= 1 # 2)%Q; try done; now destruct (Z.odd t).
    + assert (n <> 0) by (intros N0; apply R0; unfold r; rewrite N0; apply Z.rem_0_l; lia). assert (Hr : 0 < r) by nia. assert (Ht : 0 <= t) by nia. clear Rs. eexists. split; [|apply (rounds_proper m _ q _ (Qeq_sym _ _ Hq)); apply rounds_pos; [done| |]; unfold Qlt; cbn [Qnum Qden inject_Z]; rewrite ?Z2Pos.id by done; lia].
      f_equal. assert (A : (Qabs (r # Z.to_pos d) == (r # Z.to_pos d))%Q) by (apply Qabs_pos; unfold Qle; cbn [Qnum Qden inject_Z]; lia). rewrite (Qcompare_wd _ _ (1 # 2) A).
      destruct m; cbn [negb]; try done; destruct ((r # Z.to_pos d) ?= 1 # 2)%Q; try done; now destruct (Z.odd t).
Qed.

(** ** Values *)
Definition is_u32 (s : Z) : Prop := 0 <= s < 2 ^ 32.
Definition dcanon (x : decimal) : Prop := canon (d_coeff x) /\ is_u32 (d_scale x).
Definition tenp (s : Z) : Q := inject_Z (10 ^ s).
Definition dval (x : decimal) : Q := (inject_Z (bval (d_coeff x)) / tenp (d_scale x))%Q.
Lemma tenp_pos s : 0 <= s -> (0 < tenp s)%Q.
Proof. intros H. unfold tenp. change 0%Q with (inject_Z 0). rewrite <- Zlt_Qlt. apply Z.pow_pos_nonneg; lia. Qed.
Lemma tenp_neq s : 0 <= s -> ~ (tenp s == 0)%Q.
Proof. intros H E. pose proof (tenp_pos s H). lra. Qed.
Lemma tenp_add a b : 0 <= a -> 0 <= b -> (tenp (a + b) == tenp a * tenp b)%Q.
Proof. intros Ha Hb. unfold tenp. rewrite Z.pow_add_r by done. rewrite inject_Z_mult. reflexivity. Qed.
Lemma ten_pow_of_Z k : is_u32 k -> ten_pow k = of_Z (10 ^ k).
Proof. intros H. unfold ten_pow. rewrite from_u64_of_Z by (split; [lia|reflexivity]). now apply pow_of_Z. Qed.
Lemma ten_nonzero k : 0 <= k -> 10 ^ k <> 0.
Proof. intros H. apply Z.pow_nonzero; lia. Qed.
Lemma dec_form x : dcanon x -> exists c s, x = Dec (of_Z c) s /\ is_u32 s /\ bval (d_coeff x) = c.
Proof. intros [C S]. destruct x as [b s]. exists (bval b), s. cbn in *. split; [now rewrite of_Z_bval|done]. Qed.
Lemma to_rational_dec c s : is_u32 s -> dec_to_rational (Dec (of_Z c) s) = Some (ofQ (inject_Z c / tenp s)).
Proof. intros H. unfold dec_to_rational. cbn [d_coeff d_scale]. rewrite ten_pow_of_Z by done. rewrite expect_new by (apply ten_nonzero, H). done. Qed.
Lemma from_rational_dec q s m : is_u32 s -> exists z, dec_from_rational (ofQ q) s m = Some (Dec (of_Z z) s) /\ rounds m (q * tenp s) z.
Proof.
  intros H. unfold dec_from_rational. rewrite ten_pow_of_Z, from_bigint_ofQ, rmul_ofQ by done. destruct (round_rational_ofQ m (q * inject_Z (10 ^ s))) as (z & E & R). rewrite E. exists z. done.
Qed.

(** Normal forms. *)
Definition nform (c s : Z) : Prop := 0 <= s /\ (s = 0 \/ c mod 10 <> 0).
Lemma norm_loop_ok n c : c <> 0 -> exists c' s', norm_loop n (of_Z c) = Some (of_Z c', s') /\ nform c' s' /\ s' <= Z.of_nat n /\ c = c' * 10 ^ (Z.of_nat n - s') /\ c' <> 0.
Proof.
  revert c. induction n as [|n IH]; intros c N.
  - exists c, 0. split; [done|]. split; [split; [lia|tauto]|]. split; [lia|]. cbn. split; [lia|done].
  - cbn [norm_loop]. rewrite from_u64_of_Z by (split; [lia|reflexivity]). rewrite div_rem_of_Z. change (10 =? 0) with false. cbn match. rewrite is_zero_of_Z. destruct (Z.eqb_spec (Z.rem c 10) 0) as [R|R].
    + pose proof (Z.quot_rem' c 10) as D. rewrite R in D. destruct (IH (Z.quot c 10)) as (c' & s' & E & F & L & V & N'); [lia|]. exists c', s'. split; [done|]. split; [done|]. split; [lia|]. split; [|done].
      rewrite D, Z.add_0_r, V. rewrite Nat2Z.inj_succ. replace (Z.succ (Z.of_nat n) - s') with (Z.succ (Z.of_nat n - s')) by lia. rewrite Z.pow_succ_r by lia. ring.
    + exists c, (Z.of_nat (S n)). split; [done|]. split; [|rewrite Z.sub_diag; cbn; split; [lia|split; [lia|done]]]. split; [lia|]. right. intros M. apply R. apply Z.rem_divide; [lia|]. apply Z.mod_divide; [lia|done].
Qed.
Lemma nform_unique c s c' s' : nform c s -> nform c' s' -> c <> 0 -> c' <> 0 -> c * 10 ^ s' = c' * 10 ^ s -> c = c' /\ s = s'.
Proof.
  assert (W : forall c s c' s', nform c s -> nform c' s' -> c * 10 ^ s' = c' * 10 ^ s -> ~ s < s').
  { clear. intros c s c' s' [H _] [H' K] E L. destruct K as [->|K]; [lia|]. apply K. replace s' with (s + (s' - s)) in E by lia. rewrite Z.pow_add_r in E by lia.
    assert (P : 0 < 10 ^ s) by (apply Z.pow_pos_nonneg; lia). assert (c' = c * 10 ^ (s' - s)) as -> by nia. replace (s' - s) with (Z.succ (s' - s - 1)) by lia. rewrite Z.pow_succ_r by lia.
    replace (c * (10 * 10 ^ (s' - s - 1))) with ((c * 10 ^ (s' - s - 1)) * 10) by ring. apply Z.mod_mul. lia. }
  intros F F' N N' E. assert (s = s') as <-. { pose proof (W _ _ _ _ F F' E). pose proof (W _ _ _ _ F' F (eq_sym E)). lia. }
  split; [|done]. assert (0 < 10 ^ s) by (apply Z.pow_pos_nonneg; [lia|apply F]). nia.
Qed.
Lemma normalized_ok c s : is_u32 s -> exists c' s', dec_normalized (Dec (of_Z c) s) = Some (of_Z c', s') /\ (c = 0 -> c' = 0 /\ s' = 0) /\ (c <> 0 -> nform c' s' /\ s' <= s /\ c = c' * 10 ^ (s - s') /\ c' <> 0).
Proof.
  intros H. unfold dec_normalized. cbn [d_coeff d_scale]. rewrite is_zero_of_Z. destruct (Z.eqb_spec c 0) as [->|N].
  - exists 0, 0. rewrite zero_of_Z. split; [done|]. split; [done|]. done.
  - destruct (norm_loop_ok (Z.to_nat s) c N) as (c' & s' & E & F & L & V & N'). exists c', s'. rewrite Z2Nat.id in L, V by apply H. split; [done|]. split; [done|]. done.
Qed.
Lemma eqb_dec c s d t : is_u32 s -> is_u32 t -> exists b, dec_eqb (Dec (of_Z c) s) (Dec (of_Z d) t) = Some b /\ (b = true <-> c * 10 ^ t = d * 10 ^ s).
Proof.
  intros Hs Ht. unfold dec_eqb. destruct (normalized_ok c s Hs) as (c' & s' & -> & Z1 & V1). destruct (normalized_ok d t Ht) as (d' & t' & -> & Z2 & V2). eexists. split; [reflexivity|]. rewrite andb_true_iff, eqb_of_Z, !Z.eqb_eq.
  assert (P1 : 0 < 10 ^ s) by (apply Z.pow_pos_nonneg; [lia|apply Hs]). assert (P2 : 0 < 10 ^ t) by (apply Z.pow_pos_nonneg; [lia|apply Ht]).
  destruct (Z.eq_dec c 0) as [->|Nc], (Z.eq_dec d 0) as [->|Nd].
  - destruct Z1 as [-> ->], Z2 as [-> ->]; [done..|]. split; done.
  - destruct Z1 as [-> ->]; [done|]. destruct V2 as (_ & _ & _ & N); [done|]. split; [intros [<- _]; done|]. intros E. nia.
  - destruct Z2 as [-> ->]; [done|]. destruct V1 as (_ & _ & _ & N); [done|]. split; [intros [-> _]; done|]. intros E. nia.
  - destruct (V1 Nc) as (F1 & L1 & E1 & N1). destruct (V2 Nd) as (F2 & L2 & E2 & N2).
    assert (Q1 : 0 < 10 ^ (s - s')) by (apply Z.pow_pos_nonneg; lia). assert (Q2 : 0 < 10 ^ (t - t')) by (apply Z.pow_pos_nonneg; lia).
    assert (S1 : 10 ^ s = 10 ^ (s - s') * 10 ^ s') by (rewrite <- Z.pow_add_r by (destruct F1; lia); f_equal; lia).
    assert (S2 : 10 ^ t = 10 ^ (t - t') * 10 ^ t') by (rewrite <- Z.pow_add_r by (destruct F2; lia); f_equal; lia).
    assert (X : c * 10 ^ t = d * 10 ^ s <-> c' * 10 ^ t' = d' * 10 ^ s').
    { rewrite E1, E2, S1, S2. set (u := 10 ^ (s - s')) in *. set (v := 10 ^ (t - t')) in *. split; intros E.
      - apply (Z.mul_cancel_l _ _ (u * v)); [nia|]. transitivity (c' * u * (v * 10 ^ t')); [ring|]. rewrite E. ring.
      - transitivity (u * v * (c' * 10 ^ t')); [ring|]. rewrite E. ring. }
    rewrite X. split; [intros [-> ->]; done|]. intros E. now apply nform_unique.
Qed.
Lemma dval_eq c s d t : 0 <= s -> 0 <= t -> c * 10 ^ t = d * 10 ^ s <-> (inject_Z c / tenp s == inject_Z d / tenp t)%Q.
Proof.
  intros Hs Ht. pose proof (tenp_neq s Hs). pose proof (tenp_neq t Ht). assert (W : (inject_Z (c * 10 ^ t) == inject_Z (d * 10 ^ s))%Q <-> c * 10 ^ t = d * 10 ^ s) by (unfold Qeq; cbn; lia).
  rewrite <- W, !inject_Z_mult. fold (tenp s) (tenp t). split; intros E.
  - apply (Qmult_inj_r _ _ (tenp s * tenp t)). { intros Z0. apply Qmult_integral in Z0. tauto. } setoid_replace (inject_Z c / tenp s * (tenp s * tenp t))%Q with (inject_Z c * tenp t)%Q by (field; done). rewrite E. field. done.
  - setoid_replace (inject_Z c * tenp t)%Q with (inject_Z c / tenp s * (tenp s * tenp t))%Q by (field; done). rewrite E. field. done.
Qed.
