(** The Julian calendar (period 4 years, 1461 days) and business days. *)
From Coq Require Import ZArith List Bool Lia.
From stdpp Require Import gmap.
From Verif Require Import StableSort TemporalModel CalendarProofs.
Import ListNotations.
Local Open Scope Z_scope.

(** ** Julian calendar *)

Definition julian_month_length (y m : Z) : Z :=
  if m =? 2 then (if is_julian_leap y then 29 else 28)
  else if (m =? 4) || (m =? 6) || (m =? 9) || (m =? 11) then 30 else 31.
Definition julian_valid (d : Z * Z * Z) : Prop :=
  1 <= d.1.2 <= 12 /\ 1 <= d.2 <= julian_month_length d.1.1 d.1.2.
Definition julian_next (d : Z * Z * Z) : Z * Z * Z :=
  let '(y, m, dd) := d in
  if dd <? julian_month_length y m then (y, m, dd + 1)
  else if m <? 12 then (y, m + 1, 1) else (y + 1, 1, 1).
(** The first day the conversions handle: 1 March 4801 BC (year -4800). *)
Definition julian_first : Z := -2472670.

Definition jvalidb (d : Z * Z * Z) : bool :=
  (1 <=? d.1.2) && (d.1.2 <=? 12) && (1 <=? d.2) && (d.2 <=? julian_month_length d.1.1 d.1.2).
Lemma jvalidb_spec d : jvalidb d = true <-> julian_valid d.
Proof. unfold jvalidb, julian_valid. rewrite !andb_true_iff, !Z.leb_le. tauto. Qed.
Definition jshift (k : Z) (d : Z * Z * Z) : Z * Z * Z := (d.1.1 + 4 * k, d.1.2, d.2).
Lemma jleap_period y k : is_julian_leap (y + 4 * k) = is_julian_leap y.
Proof. unfold is_julian_leap. replace (y + 4 * k) with (y + k * 4) by lia. now rewrite Z.mod_add by lia. Qed.
Lemma jmonth_period y m k : julian_month_length (y + 4 * k) m = julian_month_length y m.
Proof. unfold julian_month_length. now rewrite jleap_period. Qed.
Lemma jnext_shift d k : julian_next (jshift k d) = jshift k (julian_next d).
Proof.
  destruct d as [[y m] dd]. unfold julian_next, jshift; simpl. rewrite jmonth_period.
  destruct (dd <? julian_month_length y m); [reflexivity|]. destruct (m <? 12); [reflexivity|]. simpl. f_equal. f_equal. lia.
Qed.

Lemma julian_shift z k : julian_first <= z -> 0 <= k -> julian_from_days (z + 1461 * k) = jshift k (julian_from_days z).
Proof.
  unfold julian_first. intros Hz Hk. unfold julian_from_days, julian_from_jdn, jshift, UNIX_EPOCH_JDN. cbv zeta. cbn [fst snd].
  set (c := z + 2440588 + 32082). assert (Hc : 0 <= c) by (unfold c; lia).
  replace (z + 1461 * k + 2440588 + 32082) with (c + 1461 * k) by (unfold c; lia).
  assert (Ed : Z.quot (4 * (c + 1461 * k) + 3) 1461 = Z.quot (4 * c + 3) 1461 + 4 * k).
  { rewrite !Z.quot_div_nonneg by lia. replace (4 * (c + 1461 * k) + 3) with (4 * c + 3 + 4 * k * 1461) by lia.
    now rewrite Z.div_add by lia. }
  rewrite Ed. set (d := Z.quot (4 * c + 3) 1461). assert (Hd : 0 <= d) by (apply Z.quot_pos; lia).
  assert (Ee : Z.quot (1461 * (d + 4 * k)) 4 = Z.quot (1461 * d) 4 + 1461 * k).
  { rewrite !Z.quot_div_nonneg by lia. replace (1461 * (d + 4 * k)) with (1461 * d + 1461 * k * 4) by lia.
    now rewrite Z.div_add by lia. }
  rewrite Ee. replace (c + 1461 * k - (Z.quot (1461 * d) 4 + 1461 * k)) with (c - Z.quot (1461 * d) 4) by lia.
  f_equal. f_equal. lia.
Qed.
Lemma days_julian_shift y m d k :
  1 <= m <= 12 -> 0 <= y + 4800 - Z.quot (14 - m) 12 -> 0 <= k ->
  days_from_julian (y + 4 * k) m d = days_from_julian y m d + 1461 * k.
Proof.
  intros Hm Hy Hk. unfold days_from_julian, jdn_from_julian. cbv zeta.
  set (a := Z.quot (14 - m) 12) in *. set (b := Z.quot (153 * (m + 12 * a - 3) + 2) 5).
  replace (y + 4 * k + 4800 - a) with (y + 4800 - a + 4 * k) by lia. set (w := y + 4800 - a) in *.
  assert (E : Z.quot (w + 4 * k) 4 = Z.quot w 4 + k).
  { rewrite !Z.quot_div_nonneg by lia. replace (w + 4 * k) with (w + k * 4) by lia. now rewrite Z.div_add by lia. }
  rewrite E. lia.
Qed.

Definition jday_ok (z : Z) : bool :=
  let d := julian_from_days z in
  jvalidb d && (days_from_julian d.1.1 d.1.2 d.2 =? z) && date_eqb (julian_from_days (z + 1)) (julian_next d) &&
  (0 <=? d.1.1 + 4800 - Z.quot (14 - d.1.2) 12).
Lemma jdays_ok : all_from 1461 julian_first jday_ok = true.
Proof. vm_compute. reflexivity. Qed.
Definition jdate_ok (y m d : Z) : bool :=
  if jvalidb (y, m, d) && (0 <=? y + 4800 - Z.quot (14 - m) 12) then
    date_eqb (julian_from_days (days_from_julian y m d)) (y, m, d) && (julian_first <=? days_from_julian y m d)
  else true.
Lemma jdates_ok : all_from 5 (-4800) (fun y => all_from 12 1 (fun m => all_from 31 1 (jdate_ok y m))) = true.
Proof. vm_compute. reflexivity. Qed.

Lemma julian_facts z : julian_first <= z ->
  let d := julian_from_days z in
  julian_valid d /\ days_from_julian d.1.1 d.1.2 d.2 = z /\ julian_from_days (z + 1) = julian_next d.
Proof.
  intros Hz d. destruct (period_split (z - julian_first) 1461) as (z0 & k & E & H0); [lia|].
  assert (Hk : 0 <= k) by lia. set (w := z0 + julian_first). assert (Ez : z = w + 1461 * k) by (unfold w; lia).
  assert (Hw : julian_first <= w) by (unfold w; lia).
  pose proof (all_from_spec _ _ _ jdays_ok w ltac:(unfold w; lia)) as H.
  unfold jday_ok in H. rewrite !andb_true_iff, jvalidb_spec, Z.eqb_eq, date_eqb_spec, Z.leb_le in H.
  destruct H as [[[V D] S] P]. unfold d. rewrite Ez. rewrite julian_shift by assumption. split; [|split].
  - unfold julian_valid, jshift in *. simpl. now rewrite jmonth_period.
  - unfold jshift. cbn [fst snd]. rewrite days_julian_shift; [now rewrite D|apply V|exact P|exact Hk].
  - replace (w + 1461 * k + 1) with (w + 1 + 1461 * k) by lia. rewrite julian_shift by lia. rewrite S. symmetry. apply jnext_shift.
Qed.

(** A date on or after 1 March of year -4800. *)
Definition julian_from_first (d : Z * Z * Z) : Prop := -4800 < d.1.1 \/ (d.1.1 = -4800 /\ 3 <= d.1.2).
Lemma jmonth_le y m : julian_month_length y m <= 31.
Proof. unfold julian_month_length. destruct (m =? 2); [destruct (is_julian_leap y); lia|]. destruct (_ || _); lia. Qed.

Lemma julian_date_facts y m d : julian_valid (y, m, d) -> julian_from_first (y, m, d) ->
  julian_from_days (days_from_julian y m d) = (y, m, d) /\ julian_first <= days_from_julian y m d.
Proof.
  intros V F. unfold julian_from_first in F; simpl in F.
  assert (Hm : 1 <= m <= 12) by apply V.
  assert (P : 0 <= y + 4800 - Z.quot (14 - m) 12).
  { assert (Z.quot (14 - m) 12 = if m <=? 2 then 1 else 0).
    { destruct (Z.leb_spec m 2); rewrite Z.quot_div_nonneg by lia.
      - symmetry. apply (Z.div_unique _ _ _ (14 - m - 12)); lia.
      - apply Z.div_small. lia. }
    destruct (Z.leb_spec m 2); lia. }
  (* pick the representative year in -4800..-4796 that keeps the date after the start *)
  assert (R : exists y0 k, y = y0 + 4 * k /\ 0 <= k /\ -4800 <= y0 < -4795 /\ 0 <= y0 + 4800 - Z.quot (14 - m) 12).
  { destruct (period_split (y + 4800 - Z.quot (14 - m) 12) 4) as (w & k & E & H); [lia|].
    exists (w - 4800 + Z.quot (14 - m) 12), k. split; [lia|]. split; [lia|].
    assert (Q : 0 <= Z.quot (14 - m) 12 <= 1).
    { rewrite Z.quot_div_nonneg by lia. split; [apply Z.div_pos; lia|]. apply Z.lt_succ_r, Z.div_lt_upper_bound; lia. }
    lia. }
  destruct R as (y0 & k & Ey & Hk & H0 & P0). rewrite Ey.
  assert (V0 : julian_valid (y0, m, d)).
  { unfold julian_valid in *; simpl in *. rewrite Ey, jmonth_period in V. exact V. }
  pose proof (jmonth_le y0 m) as Hl.
  pose proof (all_from_spec _ _ _ jdates_ok y0 ltac:(lia)) as H.
  pose proof (all_from_spec _ _ _ H m ltac:(lia)) as H'.
  pose proof (all_from_spec _ _ _ H' d ltac:(unfold julian_valid in V0; simpl in V0; lia)) as H2.
  unfold jdate_ok in H2.
  assert (Vb : jvalidb (y0, m, d) = true) by (apply jvalidb_spec; exact V0). rewrite Vb in H2. simpl in H2.
  apply Z.leb_le in P0 as P0b. rewrite P0b in H2. rewrite andb_true_iff, date_eqb_spec, Z.leb_le in H2. destruct H2 as [H2 H3].
  rewrite days_julian_shift by assumption. rewrite julian_shift by assumption. rewrite H2. split; [reflexivity|lia].
Qed.

(** ** Business days *)

(** Number of working days among the [n] days starting at [z]. *)
Fixpoint workdays (n : nat) (z : Z) : Z :=
  match n with O => 0 | S n' => (if is_weekend z then 0 else 1) + workdays n' (z + 1) end.

Lemma count_loop_spec n d c : count_loop n d c = c + workdays n d.
Proof. revert d c. induction n as [|n IH]; intros d c; simpl; [lia|]. rewrite IH. destruct (is_weekend d); lia. Qed.

Lemma weekend_period z : is_weekend (z + 7) = is_weekend z.
Proof. unfold is_weekend, weekday_from_days. replace (z + 7 + 4) with (z + 4 + 1 * 7) by lia. now rewrite Z.mod_add by lia. Qed.
Lemma weekend_cases z : let w := (z + 4) mod 7 in 0 <= w < 7 /\ is_weekend z = ((w =? 0) || (w =? 6)).
Proof. intros w. split; [apply Z.mod_pos_bound; lia|reflexivity]. Qed.

Lemma mod_plus_one x : (x + 1) mod 7 = if x mod 7 =? 6 then 0 else x mod 7 + 1.
Proof.
  pose proof (Z.mod_pos_bound x 7 ltac:(lia)). pose proof (Z.div_mod x 7 ltac:(lia)). destruct (Z.eqb_spec (x mod 7) 6).
  - symmetry. apply (Z.mod_unique _ _ (x / 7 + 1)); lia.
  - symmetry. apply (Z.mod_unique _ _ (x / 7)); lia.
Qed.
Lemma weekend_next z w : (z + 4) mod 7 = w -> (z + 1 + 4) mod 7 = if w =? 6 then 0 else w + 1.
Proof. intros <-. replace (z + 1 + 4) with (z + 4 + 1) by lia. apply mod_plus_one. Qed.

Lemma workdays_week z : workdays 7 z = 5.
Proof.
  cbn [workdays]. pose proof (Z.mod_pos_bound (z + 4) 7 ltac:(lia)) as B.
  assert (E : forall k, is_weekend (z + k) = (((z + 4) mod 7 + k) mod 7 =? 0) || (((z + 4) mod 7 + k) mod 7 =? 6)).
  { intros k. unfold is_weekend, weekday_from_days. rewrite Z.add_mod_idemp_l by lia.
    replace (z + k + 4) with (z + 4 + k) by lia. reflexivity. }
  replace z with (z + 0) at 1 by lia. rewrite <- !Z.add_assoc. cbn [Z.add Pos.add Pos.succ].
  rewrite !E. set (w := (z + 4) mod 7) in *.
  assert (C : w = 0 \/ w = 1 \/ w = 2 \/ w = 3 \/ w = 4 \/ w = 5 \/ w = 6) by lia.
  repeat (destruct C as [->|C]; [reflexivity|]). subst. rewrite C. reflexivity.
Qed.
Lemma workdays_app m n z : workdays (m + n) z = workdays m z + workdays n (z + Z.of_nat m).
Proof.
  revert z. induction m as [|m IH]; intros z; [cbn [Nat.add workdays]; replace (z + Z.of_nat 0) with z by lia; lia|].
  cbn [Nat.add workdays]. rewrite IH. replace (z + 1 + Z.of_nat m) with (z + Z.of_nat (S m)) by lia. lia.
Qed.
Lemma workdays_weeks k z : workdays (k * 7) z = 5 * Z.of_nat k.
Proof.
  revert z. induction k as [|k IH]; intros z; [reflexivity|]. cbn [Nat.mul]. rewrite workdays_app, workdays_week, IH. lia.
Qed.

Lemma business_between_up a b : a <= b -> business_days_between a b = workdays (Z.to_nat (b - a)) a.
Proof.
  intros H. unfold business_days_between. destruct (Z.eqb_spec a b) as [->|Hne]; [now rewrite Z.sub_diag|].
  assert (Hlt : a <? b = true) by (apply Z.ltb_lt; lia). rewrite Hlt. cbv zeta. rewrite count_loop_spec.
  rewrite Z.quot_div_nonneg by lia. set (k := (b - a) / 7).
  assert (Hk : 0 <= k /\ 7 * k <= b - a).
  { unfold k. split; [apply Z.div_pos; lia|apply Z.mul_div_le; lia]. }
  replace (Z.to_nat (b - a)) with (Z.to_nat k * 7 + Z.to_nat (b - (a + k * 7)))%nat by lia.
  rewrite workdays_app, workdays_weeks.
  replace (a + Z.of_nat (Z.to_nat k * 7)) with (a + k * 7) by lia. lia.
Qed.
Lemma business_between_anti a b : business_days_between a b = - business_days_between b a.
Proof.
  unfold business_days_between. destruct (Z.eqb_spec a b) as [->|Hne]; [now rewrite Z.eqb_refl|].
  destruct (Z.eqb_spec b a); [lia|]. destruct (Z.ltb_spec a b), (Z.ltb_spec b a); try lia; cbv zeta; lia.
Qed.

(** The forward loop: [workdays] of the days passed. *)
Lemma loop_up fuel r d : 0 <= r -> 3 * r <= Z.of_nat fuel + (if is_weekend (d + 1) then (if is_weekend (d + 2) then 0 else 1) else 2) * Z.sgn r ->
  exists n, business_loop fuel 1 r d = d + Z.of_nat n /\ workdays n (d + 1) = r /\
    (0 < r -> is_weekend (d + Z.of_nat n) = false) /\ (r = 0 -> n = O).
Proof.
  revert r d. induction fuel as [|fuel IH]; intros r d Hr Hf.
  - assert (r = 0).
    { destruct (Z.eq_dec r 0) as [|Hne]; [assumption|]. exfalso. rewrite Z.sgn_pos in Hf by lia.
      destruct (is_weekend (d + 1)), (is_weekend (d + 2)); lia. }
    subst r. exists O. simpl. split; [lia|]. split; [reflexivity|]. split; [lia|auto].
  - cbn [business_loop]. destruct (Z.ltb_spec 0 r) as [Hp|Hp].
    2:{ exists O. split; [lia|]. split; [simpl; lia|]. split; [lia|auto]. }
    destruct (is_weekend (d + 1)) eqn:W1.
    + destruct (IH r (d + 1)) as (n & E & C & L & _); [lia| |].
      { rewrite Z.sgn_pos in * by lia. replace (d + 1 + 1) with (d + 2) by lia. replace (d + 1 + 2) with (d + 3) by lia.
        destruct (is_weekend (d + 2)) eqn:W2; [|lia].
        assert (W3 : is_weekend (d + 3) = false).
        { unfold is_weekend, weekday_from_days in *.
          replace (d + 2 + 4) with (d + 1 + 4 + 1) in W2 by lia. replace (d + 3 + 4) with (d + 1 + 4 + 1 + 1) by lia.
          rewrite mod_plus_one in W2. rewrite !mod_plus_one. set (w := (d + 1 + 4) mod 7) in *.
          rewrite orb_true_iff, !Z.eqb_eq in W1. destruct W1 as [->| ->]; [discriminate|reflexivity]. }
        rewrite W3. lia. }
      exists (S n). split; [rewrite E; lia|]. split; [cbn [workdays]; rewrite W1, C; lia|].
      split; [|lia]. intros _. replace (d + Z.of_nat (S n)) with (d + 1 + Z.of_nat n) by lia. auto.
    + destruct (IH (r - 1) (d + 1)) as (n & E & C & L & Z0); [lia| |].
      { rewrite Z.sgn_pos in Hf by lia. destruct (Z.eq_dec r 1) as [->|Hne]; [simpl; destruct (is_weekend (d+1+1)), (is_weekend (d+1+2)); lia|].
        rewrite Z.sgn_pos by lia. destruct (is_weekend (d + 1 + 1)), (is_weekend (d + 1 + 2)); lia. }
      exists (S n). split; [rewrite E; lia|]. split; [cbn [workdays]; rewrite W1, C; lia|].
      split; [|lia]. intros _. replace (d + Z.of_nat (S n)) with (d + 1 + Z.of_nat n) by lia.
      destruct (Z.eq_dec (r - 1) 0) as [E0|N0]; [rewrite (Z0 E0); replace (d + 1 + Z.of_nat 0) with (d + 1) by lia; exact W1|apply L; lia].
Qed.

(** The backward loop mirrors it. *)
Lemma loop_down fuel r d : 0 <= r -> 3 * r <= Z.of_nat fuel + (if is_weekend (d - 1) then (if is_weekend (d - 2) then 0 else 1) else 2) * Z.sgn r ->
  exists n, business_loop fuel (-1) r d = d - Z.of_nat n /\ workdays n (d - Z.of_nat n) = r /\
    (0 < r -> is_weekend (d - Z.of_nat n) = false) /\ (r = 0 -> n = O).
Proof.
  revert r d. induction fuel as [|fuel IH]; intros r d Hr Hf.
  - assert (r = 0).
    { destruct (Z.eq_dec r 0) as [|Hne]; [assumption|]. exfalso. rewrite Z.sgn_pos in Hf by lia.
      destruct (is_weekend (d - 1)), (is_weekend (d - 2)); lia. }
    subst r. exists O. simpl. split; [lia|]. split; [reflexivity|]. split; [lia|auto].
  - cbn [business_loop]. destruct (Z.ltb_spec 0 r) as [Hp|Hp].
    2:{ exists O. split; [lia|]. split; [simpl; lia|]. split; [lia|auto]. }
    replace (d + -1) with (d - 1) by lia. 
    assert (Last : forall n, workdays (S n) (d - Z.of_nat (S n)) = workdays n (d - 1 - Z.of_nat n) + (if is_weekend (d - 1) then 0 else 1)).
    { intros n. replace (S n) with (n + 1)%nat at 1 by lia. rewrite workdays_app. cbn [workdays].
      replace (d - Z.of_nat (S n) + Z.of_nat n) with (d - 1) by lia. replace (d - Z.of_nat (S n)) with (d - 1 - Z.of_nat n) by lia. lia. }
    destruct (is_weekend (d - 1)) eqn:W1.
    + destruct (IH r (d - 1)) as (n & E & C & L & _); [lia| |].
      { rewrite Z.sgn_pos in * by lia. replace (d - 1 - 1) with (d - 2) by lia. replace (d - 1 - 2) with (d - 3) by lia.
        destruct (is_weekend (d - 2)) eqn:W2; [|lia].
        assert (W3 : is_weekend (d - 3) = false).
        { unfold is_weekend, weekday_from_days in *.
          replace (d - 1 + 4) with (d - 3 + 4 + 1 + 1) in W1 by lia. replace (d - 2 + 4) with (d - 3 + 4 + 1) in W2 by lia.
          rewrite !mod_plus_one in W1. rewrite mod_plus_one in W2. remember ((d - 3 + 4) mod 7) as w eqn:Ew; clear Ew.
          destruct (Z.eqb_spec w 6) as [E6|E6]; [vm_compute in W1; discriminate|].
          destruct (Z.eqb_spec w 0) as [E0|E0]; [rewrite E0 in W2; vm_compute in W2; discriminate|]. reflexivity. }
        rewrite W3. lia. }
      exists (S n). split; [rewrite E; lia|]. split; [rewrite Last, C; lia|].
      split; [|lia]. intros _. replace (d - Z.of_nat (S n)) with (d - 1 - Z.of_nat n) by lia. auto.
    + destruct (IH (r - 1) (d - 1)) as (n & E & C & L & Z0); [lia| |].
      { rewrite Z.sgn_pos in Hf by lia. destruct (Z.eq_dec r 1) as [->|Hne]; [simpl; destruct (is_weekend (d-1-1)), (is_weekend (d-1-2)); lia|].
        rewrite Z.sgn_pos by lia. destruct (is_weekend (d - 1 - 1)), (is_weekend (d - 1 - 2)); lia. }
      exists (S n). split; [rewrite E; lia|]. split; [rewrite Last, C; lia|].
      split; [|lia]. intros _. replace (d - Z.of_nat (S n)) with (d - 1 - Z.of_nat n) by lia.
      destruct (Z.eq_dec (r - 1) 0) as [E0|N0]; [rewrite (Z0 E0); replace (d - 1 - Z.of_nat 0) with (d - 1) by lia; exact W1|apply L; lia].
Qed.
