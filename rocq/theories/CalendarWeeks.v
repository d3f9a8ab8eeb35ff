(** ISO weeks: every day has a week date that leads back to it. *)
From Coq Require Import ZArith List Bool Lia.
From stdpp Require Import gmap.
From Verif Require Import StableSort TemporalModel CalendarProofs.
Import ListNotations.
Local Open Scope Z_scope.

(** ** Weekdays and ISO weeks *)


(** The civil year of a day brackets it. *)
Lemma year_bracket z : let y := (civil_from_days z).1.1 in days_from_civil y 1 1 <= z < days_from_civil (y + 1) 1 1.
Proof.
  intros y. destruct (day_facts z) as (V & D & _). unfold y in *. destruct (civil_from_days z) as [[y0 m] d] eqn:E. cbn [fst snd] in *.
  assert (V1 : forall x, valid_date (x, 1, 1)) by (intros x; split; cbn [fst snd]; [lia|pose proof (month_length_ge x 1); lia]).
  assert (Hm : 1 <= m <= 12) by apply V. assert (Hd : 1 <= d) by (destruct V as [_ V]; cbn [fst snd] in V; lia).
  split.
  - destruct (Z.le_gt_cases (days_from_civil y0 1 1) z) as [L|G]; [exact L|exfalso].
    rewrite <- D in G. apply (days_lt _ _ _ _ _ _ V (V1 y0)) in G. unfold date_lt in G; cbn [fst snd] in G. lia.
  - rewrite <- D. apply (days_lt _ _ _ _ _ _ V (V1 (y0 + 1))). unfold date_lt; cbn [fst snd]. lia.
Qed.
Lemma bracket_year y z : days_from_civil y 1 1 <= z < days_from_civil (y + 1) 1 1 -> (civil_from_days z).1.1 = y.
Proof.
  intros H. pose proof (year_bracket z) as B. cbv zeta in B. set (x := (civil_from_days z).1.1) in *.
  assert (V1 : forall x, valid_date (x, 1, 1)) by (intros w; split; cbn [fst snd]; [lia|pose proof (month_length_ge w 1); lia]).
  assert (Mono : forall a b, a < b -> days_from_civil a 1 1 < days_from_civil b 1 1).
  { intros a b Hab. apply (days_lt _ _ _ _ _ _ (V1 a) (V1 b)). unfold date_lt; cbn [fst snd]. lia. }
  destruct (Z.lt_trichotomy x y) as [L|[E|G]]; [|exact E|].
  - destruct (Z.eq_dec (x + 1) y) as [<-|Hne]; [lia|]. pose proof (Mono (x + 1) y ltac:(lia)). lia.
  - destruct (Z.eq_dec (y + 1) x) as [<-|Hne]; [lia|]. pose proof (Mono (y + 1) x ltac:(lia)). lia.
Qed.
Lemma year_days y : 365 <= days_from_civil (y + 1) 1 1 - days_from_civil y 1 1 <= 366.
Proof.
  destruct (period_split (y - 1) 400) as (yoe & era & E & Hy); [lia|].
  assert (A : days_from_civil y 1 1 = day_at era yoe (doy_of 1 1)).
  { pose proof (days_at era yoe 1 1 Hy) as D. change (1 <=? 2) with true in D. cbv iota in D. now replace (yoe + era * 400 + 1) with y in D by lia. }
  destruct (Z.eq_dec yoe 399) as [H9|H9].
  - assert (B : days_from_civil (y + 1) 1 1 = day_at (era + 1) 0 (doy_of 1 1)).
    { pose proof (days_at (era + 1) 0 1 1 ltac:(lia)) as D. change (1 <=? 2) with true in D. cbv iota in D. now replace (0 + (era + 1) * 400 + 1) with (y + 1) in D by lia. }
    rewrite A, B. unfold day_at. subst yoe. change (year_start 0) with 0. change (year_start 399) with 145731. lia.
  - assert (B : days_from_civil (y + 1) 1 1 = day_at era (yoe + 1) (doy_of 1 1)).
    { pose proof (days_at era (yoe + 1) 1 1 ltac:(lia)) as D. change (1 <=? 2) with true in D. cbv iota in D. now replace (yoe + 1 + era * 400 + 1) with (y + 1) in D by lia. }
    rewrite A, B. unfold day_at. destruct (year_facts yoe Hy) as (_ & _ & S & _). destruct (Z.eqb_spec yoe 399); [lia|].
    rewrite <- S. unfold year_len. destruct (is_gregorian_leap (yoe + 1)); lia.
Qed.
Lemma jan4 y : days_from_civil y 1 4 = days_from_civil y 1 1 + 3.
Proof. unfold days_from_civil. change (2 <? 1) with false. cbv iota. lia. Qed.

(** Monday of the week of [z]. *)
Definition monday (z : Z) : Z := z - (iso_weekday_from_days z - 1).
Lemma monday_spec z : exists k, monday z + 3 = 7 * k /\ monday z <= z < monday z + 7 /\ iso_weekday_from_days z = z - monday z + 1.
Proof.
  unfold monday, iso_weekday_from_days. exists ((z + 3) / 7). pose proof (Z.div_mod (z + 3) 7 ltac:(lia)).
  pose proof (Z.mod_pos_bound (z + 3) 7 ltac:(lia)). lia.
Qed.
Definition week1 (y : Z) : Z := monday (days_from_civil y 1 4).
Lemma week1_spec y : exists k, week1 y + 3 = 7 * k /\ week1 y <= days_from_civil y 1 4 < week1 y + 7.
Proof. destruct (monday_spec (days_from_civil y 1 4)) as (k & H & R & _). exists k. split; [exact H|exact R]. Qed.
Lemma iso_days_unfold y w d : days_from_iso_week y w d = week1 y + (w - 1) * 7 + (d - 1).
Proof. reflexivity. Qed.

Lemma iso_unfold z : iso_week_from_days z =
  let y := (civil_from_days (monday z + 3)).1.1 in (y, Z.quot (z - week1 y) 7 + 1, z - monday z + 1).
Proof.
  unfold iso_week_from_days, week1, monday. cbv zeta.
  replace (z - (iso_weekday_from_days z - 1) + 3) with (z + (4 - iso_weekday_from_days z)) by lia. f_equal. lia.
Qed.
Lemma iso_facts z : let '(y, w, d) := iso_week_from_days z in
  1 <= w <= 53 /\ 1 <= d <= 7 /\ days_from_iso_week y w d = z /\ y = (civil_from_days (monday z + 3)).1.1 /\ monday z = week1 y + 7 * (w - 1).
Proof.
  rewrite iso_unfold. cbv zeta. pose proof (year_bracket (monday z + 3)) as B. cbv zeta in B.
  set (y := (civil_from_days (monday z + 3)).1.1) in *. pose proof (jan4 y) as J. pose proof (year_days y) as L.
  destruct (monday_spec z) as (k & Hk & Rz & _). destruct (week1_spec y) as (j & Hj & Rj).
  assert (Hjk : j <= k) by lia.
  assert (Q : Z.quot (z - week1 y) 7 = k - j).
  { rewrite Z.quot_div_nonneg by lia. symmetry. apply (Z.div_unique _ _ _ (z - monday z)); lia. }
  rewrite Q. split; [lia|]. split; [lia|]. split; [|split; [reflexivity|lia]].
  rewrite iso_days_unfold. lia.
Qed.
Lemma iso_back y w d : 1 <= d <= 7 -> 1 <= w -> (civil_from_days (days_from_iso_week y w 4)).1.1 = y ->
  iso_week_from_days (days_from_iso_week y w d) = (y, w, d).
Proof.
  intros Hd Hw Hy. rewrite iso_unfold. cbv zeta.
  assert (E : forall d, days_from_iso_week y w d = week1 y + (w - 1) * 7 + (d - 1)) by (intros; apply iso_days_unfold).
  destruct (week1_spec y) as (j & Hj & _).
  destruct (monday_spec (days_from_iso_week y w d)) as (k & Hk & Rk & _).
  assert (M : monday (days_from_iso_week y w d) = week1 y + (w - 1) * 7) by (rewrite E in Rk, Hk |- *; lia).
  rewrite M. replace (week1 y + (w - 1) * 7 + 3) with (days_from_iso_week y w 4) by (rewrite E; lia). rewrite Hy.
  rewrite (E d). f_equal; [f_equal|lia].
  assert (Q : Z.quot (week1 y + (w - 1) * 7 + (d - 1) - week1 y) 7 = w - 1).
  { rewrite Z.quot_div_nonneg by lia. symmetry. apply (Z.div_unique _ _ _ (d - 1)); lia. }
  rewrite Q. lia.
Qed.
(** Weeks 1 to 52 exist in every year. *)
Lemma iso_short y w : 1 <= w <= 52 -> (civil_from_days (days_from_iso_week y w 4)).1.1 = y.
Proof.
  intros Hw. apply bracket_year. pose proof (year_days y). pose proof (jan4 y).
  assert (E : days_from_iso_week y w 4 = week1 y + (w - 1) * 7 + 3) by (rewrite iso_days_unfold; lia). rewrite E.
  destruct (week1_spec y) as (j & Hj & Rj). lia.
Qed.
