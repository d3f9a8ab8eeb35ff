(** C30-C33 and C47-C50: calendars, week dates, business days, clocks and zones. *)
From Coq Require Import ZArith List Bool Lia.
From stdpp Require Import gmap sorting.
From Verif Require Import StableSort TemporalModel CalendarProofs CalendarWeeks TemporalProofs TemporalClocks TemporalZones.
Import ListNotations.
Local Open Scope Z_scope.

(** ** C30 Calendar conversions *)

(** Every day number is a valid Gregorian date, and converting back gives the day number. *)
Theorem C30_gregorian_days z : exists y m d, civil_from_days z = (y, m, d) /\ valid_date (y, m, d) /\ days_from_civil y m d = z.
Proof.
  destruct (day_facts z) as (V & D & _). cbv zeta in *. destruct (civil_from_days z) as [[y m] d]. exists y, m, d. auto.
Qed.
(** Every valid date converts to a day number and back. *)
Theorem C30_gregorian_dates y m d : valid_date (y, m, d) -> civil_from_days (days_from_civil y m d) = (y, m, d).
Proof. apply date_facts. Qed.
(** Consecutive day numbers are consecutive dates, starting from 1 January 1970. *)
Theorem C30_gregorian_successor z : civil_from_days (z + 1) = next_date (civil_from_days z) /\ civil_from_days 0 = (1970, 1, 1).
Proof. split; [apply day_facts|reflexivity]. Qed.
(** Later days are later dates. *)
Theorem C30_gregorian_order y m d y' m' d' : valid_date (y, m, d) -> valid_date (y', m', d') ->
  days_from_civil y m d < days_from_civil y' m' d' <-> date_lt (y, m, d) (y', m', d').
Proof. apply days_lt. Qed.
(** The month lengths used are the calendar's: leap years are the multiples of 4 that are
    not multiples of 100, and the multiples of 400. *)
Theorem C30_month_lengths y m : 1 <= m <= 12 ->
  last_day_of_month y m =
    nth (Z.to_nat (m - 1)) [31; (if is_gregorian_leap y then 29 else 28); 31; 30; 31; 30; 31; 31; 30; 31; 30; 31] 0 /\
  (is_gregorian_leap y = true <-> ((4 | y) /\ ~ (100 | y)) \/ (400 | y)).
Proof.
  intros H. split; [|apply leap_spec].
  assert (E : m = 1 \/ m = 2 \/ m = 3 \/ m = 4 \/ m = 5 \/ m = 6 \/ m = 7 \/ m = 8 \/ m = 9 \/ m = 10 \/ m = 11 \/ m = 12) by lia.
  repeat (destruct E as [->|E]; [reflexivity|]); subst; reflexivity.
Qed.
Example C30_gregorian_example :
  valid_date (2000, 2, 29) /\ ~ valid_date (1900, 2, 29) /\ civil_from_days (days_from_civil (-1) 12 31) = (-1, 12, 31) /\
  civil_from_days 11016 = (2000, 2, 29) /\ civil_from_days (-719469) = (0, 2, 29).
Proof. unfold valid_date. vm_compute. repeat split; try discriminate. intros [_ [_ H]]. now apply H. Qed.

(** The Julian conversions do the same from 1 March of year -4800 on... *)
Theorem C30_julian_days_partial z : julian_first <= z ->
  exists y m d, julian_from_days z = (y, m, d) /\ julian_valid (y, m, d) /\ days_from_julian y m d = z /\
    julian_from_days (z + 1) = julian_next (y, m, d).
Proof.
  intros H. destruct (julian_facts z H) as (V & D & S). cbv zeta in *. destruct (julian_from_days z) as [[y m] d]. exists y, m, d. auto.
Qed.
Theorem C30_julian_dates_partial y m d : julian_valid (y, m, d) -> julian_from_first (y, m, d) ->
  julian_from_days (days_from_julian y m d) = (y, m, d).
Proof. intros V F. now apply julian_date_facts. Qed.
(** ...but not before: day 0 of a month appears, and a valid date does not come back. *)
Theorem C30_julian_refuted :
  (exists z, ~ julian_valid (julian_from_days z)) /\
  (exists y m d, julian_valid (y, m, d) /\ julian_from_days (days_from_julian y m d) <> (y, m, d)).
Proof.
  split.
  - exists (julian_first - 1). unfold julian_valid. vm_compute. intros [_ [H _]]. now apply H.
  - exists (-4800), 2, 29. split; [unfold julian_valid; vm_compute; repeat split; discriminate|vm_compute; discriminate].
Qed.
Example C30_julian_example :
  julian_first <= days_from_julian 1582 10 5 /\ julian_from_days (days_from_civil 1582 10 15) = (1582, 10, 5) /\
  julian_from_days julian_first = (-4800, 3, 1) /\ julian_valid (1900, 2, 29).
Proof. unfold julian_valid. vm_compute. repeat split; discriminate. Qed.

(** ** C31 Week dates and business days *)

Theorem C31_weekday_advances z :
  weekday_from_days (z + 1) = (if weekday_from_days z =? 6 then 0 else weekday_from_days z + 1) /\
  0 <= weekday_from_days z < 7 /\ weekday_from_days 0 = 4 /\
  iso_weekday_from_days z = (if weekday_from_days z =? 0 then 7 else weekday_from_days z).
Proof.
  unfold weekday_from_days, iso_weekday_from_days.
  replace (z + 1 + 4) with (z + 4 + 1) by lia. replace (z + 4) with (z + 3 + 1) by lia. rewrite !mod_plus_one.
  pose proof (Z.mod_pos_bound (z + 3) 7 ltac:(lia)). split; [reflexivity|].
  change ((0 + 4) mod 7) with 4.
  destruct (Z.eqb_spec ((z + 3) mod 7) 6) as [->|]; [simpl; lia|]. destruct (Z.eqb_spec ((z + 3) mod 7 + 1) 0); lia.
Qed.
(** The ISO week date leads back to the day; the week belongs to the year of its Thursday,
    and week 1 is the week that holds 4 January. *)
Theorem C31_iso_week z : exists y w d, iso_week_from_days z = (y, w, d) /\ days_from_iso_week y w d = z /\
  1 <= w <= 53 /\ d = iso_weekday_from_days z /\ (civil_from_days (z - d + 4)).1.1 = y /\
  iso_week_from_days (days_from_civil y 1 4) = (y, 1, iso_weekday_from_days (days_from_civil y 1 4)).
Proof.
  pose proof (iso_facts z) as F. pose proof (iso_unfold z) as U. destruct (monday_spec z) as (k & _ & R & Wz).
  destruct (iso_week_from_days z) as [[y w] d]. cbv zeta in U. injection U as -> _ Ed.
  destruct F as (W & D & B & Y & M). exists (civil_from_days (monday z + 3)).1.1, w, d.
  set (y := (civil_from_days (monday z + 3)).1.1) in *. split; [reflexivity|]. split; [exact B|]. split; [exact W|]. split; [lia|].
  split; [replace (z - d + 4) with (monday z + 3) by lia; reflexivity|].
  assert (E : days_from_iso_week y 1 (iso_weekday_from_days (days_from_civil y 1 4)) = days_from_civil y 1 4).
  { rewrite iso_days_unfold. unfold week1, monday. lia. }
  rewrite <- E at 1. apply iso_back; [|lia|apply iso_short; lia].
  destruct (monday_spec (days_from_civil y 1 4)) as (k' & _ & R' & W'). lia.
Qed.
(** Every week date with a Thursday in its year comes back; weeks 1 to 52 always have one. *)
Theorem C31_iso_week_dates y w d : 1 <= d <= 7 -> 1 <= w ->
  w <= 52 \/ (civil_from_days (days_from_iso_week y w 4)).1.1 = y ->
  iso_week_from_days (days_from_iso_week y w d) = (y, w, d).
Proof. intros Hd Hw H. apply iso_back; [exact Hd|exact Hw|]. destruct H as [H|H]; [apply iso_short; lia|exact H]. Qed.
Example C31_iso_example :
  iso_week_from_days (days_from_civil 2021 1 3) = (2020, 53, 7) /\ iso_week_from_days (days_from_civil 2021 1 4) = (2021, 1, 1) /\
  (civil_from_days (days_from_iso_week 2020 53 4)).1.1 = 2020 /\ (civil_from_days (days_from_iso_week 2021 53 4)).1.1 = 2022.
Proof. vm_compute. repeat split. Qed.

(** Counting: the number of Monday-to-Friday days in the half-open range, negated backwards. *)
Theorem C31_business_days_between a b :
  (a <= b -> business_days_between a b =
     Z.of_nat (length (List.filter (fun i => negb (is_weekend (a + Z.of_nat i))) (seq 0 (Z.to_nat (b - a)))))) /\
  business_days_between b a = - business_days_between a b.
Proof.
  split; [|apply business_between_anti]. intros H. rewrite (business_between_up _ _ H).
  assert (G : forall n s, workdays n (a + Z.of_nat s) = Z.of_nat (length (List.filter (fun i => negb (is_weekend (a + Z.of_nat i))) (seq s n)))).
  { induction n as [|n IH]; intros s; [reflexivity|]. cbn [workdays seq List.filter].
    replace (a + Z.of_nat s + 1) with (a + Z.of_nat (S s)) by lia. rewrite IH. destruct (is_weekend (a + Z.of_nat s)); simpl negb; cbv iota; [lia|]. cbn [length]. lia. }
  specialize (G (Z.to_nat (b - a)) O). now replace (a + Z.of_nat 0) with a in G by lia.
Qed.
(** Adding: the result is a working day, and exactly |n| working days lie on the way. *)
Theorem C31_add_business_days z n :
  (0 < n -> let r := add_business_days z n in z < r /\ is_weekend r = false /\ business_days_between (z + 1) (r + 1) = n) /\
  (n < 0 -> let r := add_business_days z n in r < z /\ is_weekend r = false /\ business_days_between r z = - n) /\
  add_business_days z 0 = z.
Proof.
  unfold add_business_days. split; [|split; [|reflexivity]]; intros Hn; cbv zeta.
  - destruct (Z.leb_spec 0 n); [|lia].
    destruct (loop_up (Z.to_nat (3 * Z.abs n)) (Z.abs n) z) as (k & E & C & W & _); [lia| |].
    { rewrite Z.sgn_pos by lia. destruct (is_weekend (z + 1)), (is_weekend (z + 2)); lia. }
    rewrite E. assert (K : (0 < k)%nat) by (destruct k; [simpl in C; lia|lia]).
    split; [lia|]. split; [apply W; lia|]. rewrite business_between_up by lia.
    replace (Z.to_nat (z + Z.of_nat k + 1 - (z + 1))) with k by lia. lia.
  - destruct (Z.leb_spec 0 n); [lia|].
    destruct (loop_down (Z.to_nat (3 * Z.abs n)) (Z.abs n) z) as (k & E & C & W & _); [lia| |].
    { rewrite Z.sgn_pos by lia. destruct (is_weekend (z - 1)), (is_weekend (z - 2)); lia. }
    rewrite E. assert (K : (0 < k)%nat) by (destruct k; [simpl in C; lia|lia]).
    split; [lia|]. split; [apply W; lia|]. rewrite business_between_up by lia.
    replace (Z.to_nat (z - (z - Z.of_nat k))) with k by lia. lia.
Qed.
Example C31_business_example :
  let friday := days_from_civil 2024 3 1 in
  add_business_days friday 1 = friday + 3 /\ add_business_days friday (-5) = friday - 7 /\ business_days_between friday (friday + 10) = 6 /\
  is_weekend (friday + 1) = true.
Proof. vm_compute. repeat split. Qed.

(** ** C32 Hybrid clocks *)

(** As long as the 32-bit counters have not run out: strictly later, never behind the wall clock. *)
Theorem C32_tick_partial s now : 0 <= h_log s < u32_max -> hlc_lt s (hlc_tick s now) /\ now <= h_phys (hlc_tick s now).
Proof. apply tick_later. Qed.
Theorem C32_recv_partial s r now : 0 <= h_log s < u32_max -> 0 <= h_log r < u32_max ->
  hlc_lt s (hlc_recv s r now) /\ hlc_lt r (hlc_recv s r now) /\ now <= h_phys (hlc_recv s r now).
Proof. apply recv_later. Qed.
(** At the largest counter value the stamp moves backwards; one received message is enough. *)
Theorem C32_counter_overflow_refuted :
  exists s r now, 0 <= h_log s <= u32_max /\ 0 <= h_log r <= u32_max /\ h_log s = 0 /\ hlc_lt (hlc_recv s r now) r /\
    hlc_lt (hlc_tick r now) r.
Proof.
  exists {| h_phys := 1; h_log := 0 |}, {| h_phys := 5; h_log := u32_max |}, 2. vm_compute.
  repeat split; try discriminate; right; split; reflexivity.
Qed.
Example C32_example :
  let s := {| h_phys := 100; h_log := 7 |} in
  hlc_tick s 40 = {| h_phys := 100; h_log := 8 |} /\ hlc_recv s {| h_phys := 100; h_log := 9 |} 99 = {| h_phys := 100; h_log := 10 |} /\
  hlc_recv s {| h_phys := 101; h_log := 3 |} 40 = {| h_phys := 101; h_log := 4 |} /\ hlc_tick s 101 = {| h_phys := 101; h_log := 0 |}.
Proof. vm_compute. repeat split. Qed.

(** Happens-before: along any chain of local events and message receipts the stamps strictly increase. *)
Inductive causes : hlc -> hlc -> Prop :=
| cause_tick s now : 0 <= h_log s < u32_max -> causes s (hlc_tick s now)
| cause_recv s r now : 0 <= h_log s < u32_max -> 0 <= h_log r < u32_max -> causes s (hlc_recv s r now)
| cause_message s r now : 0 <= h_log s < u32_max -> 0 <= h_log r < u32_max -> causes r (hlc_recv s r now)
| cause_chain a b c : causes a b -> causes b c -> causes a c.
Theorem C32_causality_partial a b : causes a b -> hlc_lt a b.
Proof.
  induction 1 as [s now H|s r now H K|s r now H K|a b c _ IH1 _ IH2].
  - now apply tick_later.
  - now apply recv_later.
  - now apply recv_later.
  - exact (hlc_lt_trans _ _ _ IH1 IH2).
Qed.
Example C32_causality_example :
  let a := {| h_phys := 50; h_log := 0 |} in causes a (hlc_tick (hlc_recv {| h_phys := 9; h_log := 4 |} a 10) 20).
Proof.
  intros a. eapply cause_chain; [apply (cause_message {| h_phys := 9; h_log := 4 |} a 10); unfold u32_max; simpl; lia|].
  apply cause_tick. vm_compute. split; [discriminate|reflexivity].
Qed.

(** ** C33 Zones *)

(** The instant is between the two readings of its local time, both readings show that local
    time, and if no other instant shows it, both are the instant. *)
Theorem C33_local_and_back ts base ns :
  let c := to_local ts base ns in
  to_local ts base (from_local ts base c Earlier) = c /\ to_local ts base (from_local ts base c Later) = c /\
  from_local ts base c Earlier <= ns <= from_local ts base c Later /\
  ((forall ns', to_local ts base ns' = c -> ns' = ns) -> forall f, from_local ts base c f = ns).
Proof.
  intros c. destruct (from_local_facts ts base c ns eq_refl) as (E & L & B). split; [exact E|]. split; [exact L|]. split; [exact B|].
  intros U [|]; apply U; assumption.
Qed.
(** A fixed-offset zone has no overlaps or gaps. *)
Theorem C33_fixed_offset base c f : valid_civil c ->
  from_local [] base c f = unix_nanos_from_civil c - base * NANOS_PER_SECOND /\ to_local [] base (from_local [] base c f) = c.
Proof.
  intros V. assert (E : from_local [] base c f = unix_nanos_from_civil c - base * NANOS_PER_SECOND).
  { unfold from_local, zone_offsets. cbn [fold_left List.filter offset_at offset_loop]. unfold offset_at. simpl. rewrite Z.eqb_refl. reflexivity. }
  split; [exact E|]. rewrite E. apply (to_local_nanos [] base _ _ V). unfold local_nanos, offset_at; simpl. lia.
Qed.
(** A local time that never occurs: the zone's largest offset gives the earlier reading and its
    smallest the later one, so with two offsets the readings are the two sides of the gap. *)
Theorem C33_gap_partial ts base c : valid_civil c -> (forall ns, to_local ts base ns <> c) ->
  exists hi lo, hi ∈ base :: map z_off ts /\ lo ∈ base :: map z_off ts /\ (forall o, o ∈ base :: map z_off ts -> lo <= o <= hi) /\
    from_local ts base c Earlier = unix_nanos_from_civil c - hi * NANOS_PER_SECOND /\
    from_local ts base c Later = unix_nanos_from_civil c - lo * NANOS_PER_SECOND.
Proof.
  intros V G. assert (M : forall o, o ∈ base :: map z_off ts <-> o ∈ zone_offsets ts base).
  { intros o. rewrite zone_offsets_spec, elem_of_cons, elem_of_list_In, in_map_iff. setoid_rewrite elem_of_list_In.
    split; (intros [H|(t & H & K)]; [auto|right; exists t; auto]). }
  destruct (gap_facts ts base c V G) as (hi & lo & H1 & H2 & H3 & H4 & H5). exists hi, lo.
  split; [now apply M|]. split; [now apply M|]. split; [|auto]. intros o Ho. apply H3. now apply M.
Qed.
(** With a third offset elsewhere in the table, a gap is resolved with that unrelated offset:
    the reading is neither side of the gap (here hours before the clocks change). *)
Theorem C33_gap_refuted : exists ts base (t : transition) before c,
  t ∈ ts /\ StronglySorted (fun a b => z_at a < z_at b) ts /\
  offset_at ts base (z_at t * NANOS_PER_SECOND - 1) = before /\ offset_at ts base (z_at t * NANOS_PER_SECOND) = z_off t /\
  (z_at t + before) * NANOS_PER_SECOND <= unix_nanos_from_civil c < (z_at t + z_off t) * NANOS_PER_SECOND /\
  from_local ts base c Earlier <> unix_nanos_from_civil c - before * NANOS_PER_SECOND /\
  from_local ts base c Earlier <> unix_nanos_from_civil c - z_off t * NANOS_PER_SECOND /\
  from_local ts base c Earlier < (z_at t - 30000) * NANOS_PER_SECOND.
Proof.
  set (a := {| z_at := 0; z_off := 36000 |}). set (b := {| z_at := 1000000; z_off := 0 |}). set (t := {| z_at := 2000000; z_off := 3600 |}).
  exists [a; b; t], 0, t, 0, (civil_from_unix_nanos (2001800 * NANOS_PER_SECOND)). split; [repeat (try (now left); right)|].
  split; [repeat constructor|]. vm_compute. repeat split; try discriminate.
Qed.
Example C33_example :
  let ts := [{| z_at := 1000000; z_off := 3600 |}; {| z_at := 2000000; z_off := 0 |}] in
  let c := to_local ts 0 (2000100 * NANOS_PER_SECOND) in
  from_local ts 0 c Earlier = 1996500 * NANOS_PER_SECOND /\ from_local ts 0 c Later = 2000100 * NANOS_PER_SECOND /\
  let g := civil_from_unix_nanos (1001800 * NANOS_PER_SECOND) in
  from_local ts 0 g Earlier = 998200 * NANOS_PER_SECOND /\ from_local ts 0 g Later = 1001800 * NANOS_PER_SECOND.
Proof. vm_compute. repeat split. Qed.

(** ** C47 Date-times and calendar spans *)

Opaque add_span civil_from_unix_nanos unix_nanos_from_civil days_from_civil civil_from_days.

Theorem C47_instants ns : valid_civil (civil_from_unix_nanos ns) /\ unix_nanos_from_civil (civil_from_unix_nanos ns) = ns.
Proof. split; [apply from_nanos_facts|apply nanos_back]. Qed.
Theorem C47_date_times c : valid_civil c -> civil_from_unix_nanos (unix_nanos_from_civil c) = c.
Proof. apply civil_back. Qed.
(** Adding months keeps the time of day, moves the month count by exactly that much and clamps
    the day to the new month; adding days then moves the day number by exactly that much. *)
Theorem C47_add_months c months : valid_civil c -> let r := add_span c months 0 in
  valid_civil r /\ time_of_day r = time_of_day c /\ c_year r * 12 + c_month r = c_year c * 12 + c_month c + months /\
  c_day r = Z.min (c_day c) (month_length (c_year r) (c_month r)).
Proof. intros V r. destruct (add_months_facts c months V) as (A & B & C & D). unfold month_index in C. fold r in A, B, C, D. split; [exact A|]. split; [exact B|]. split; [lia|exact D]. Qed.
Theorem C47_add_days c months days : valid_civil c -> let r := add_span c months days in
  valid_civil r /\ unix_nanos_from_civil r = unix_nanos_from_civil (add_span c months 0) + days * NANOS_PER_DAY.
Proof.
  intros V r. destruct (add_span_days c months days V) as (A & B & C). destruct (add_months_facts c months V) as (_ & T & _).
  cbv zeta in *. fold r in A, B, C. split; [exact A|]. rewrite !nanos_split, B, C, T. lia.
Qed.
(** Whole months between two instants: the largest number of months that can be added to the
    first without passing the second; swapping the instants negates it. *)
Theorem C47_months_between a b : a <= b ->
  (forall k, 0 <= k -> k <= months_between a b <-> unix_nanos_from_civil (add_span (civil_from_unix_nanos a) k 0) <= b) /\
  0 <= months_between a b /\ (a < b -> months_between b a = - months_between a b).
Proof.
  intros H. destruct (months_up_facts a b H) as (P & L & U). unfold months_between. destruct (Z.ltb_spec b a); [lia|].
  assert (Va : valid_civil (civil_from_unix_nanos a)) by apply from_nanos_facts.
  assert (M : forall m n, m < n -> plus_months a m < plus_months a n) by (intros m n Hmn; now apply add_months_mono).
  split; [|split; [exact P|]].
  - intros k _. split; intros K.
    + change (plus_months a k <= b). destruct (Z.eq_dec k (months_between_up a b)) as [->|]; [exact L|]. specialize (M k (months_between_up a b) ltac:(lia)). lia.
    + change (plus_months a k <= b) in K. destruct (Z.le_gt_cases k (months_between_up a b)) as [|G]; [assumption|exfalso].
      destruct (Z.eq_dec k (months_between_up a b + 1)) as [->|]; [lia|]. specialize (M (months_between_up a b + 1) k ltac:(lia)). lia.
  - intros Hlt. destruct (Z.ltb_spec a b); [reflexivity|lia].
Qed.
Transparent add_span civil_from_unix_nanos unix_nanos_from_civil days_from_civil civil_from_days.
(** The first product computed by [unix_nanos_from_civil] leaves the i64 range for instants in
    the first partial day of that range, although the instant itself fits. *)
Theorem C47_intermediate_fits_refuted : exists ns, - 2 ^ 63 <= ns < 2 ^ 63 /\
  let c := civil_from_unix_nanos ns in ~ (- 2 ^ 63 <= days_from_civil (c_year c) (c_month c) (c_day c) * NANOS_PER_DAY).
Proof. exists (- 2 ^ 63). split; [lia|]. vm_compute. intros H. now apply H. Qed.
Example C47_example :
  let jan31 := {| c_year := 2024; c_month := 1; c_day := 31; c_hour := 12; c_minute := 0; c_second := 0; c_nano := 5 |} in
  valid_civil jan31 /\ c_day (add_span jan31 1 0) = 29 /\ c_month (add_span jan31 1 1) = 3 /\
  months_between (unix_nanos_from_civil jan31) (unix_nanos_from_civil (add_span jan31 1 0)) = 1 /\
  months_between (unix_nanos_from_civil jan31) (unix_nanos_from_civil (add_span jan31 1 0) - 1) = 0.
Proof. unfold valid_civil, valid_date. vm_compute. repeat split; discriminate. Qed.

(** ** C48 Leap seconds *)

Theorem C48_tai_and_back u : tai_to_unix_seconds (unix_to_tai_seconds u) = u.
Proof. apply tai_back. Qed.
Theorem C48_tt_and_back ns : unix_nanos_from_tt_nanos (tt_nanos_from_unix_nanos ns) = ns.
Proof. apply tt_back. Qed.
(** Atomic time runs forward: later Unix seconds are later TAI seconds, one leap second at a time. *)
Theorem C48_tai_monotone u v : u < v -> unix_to_tai_seconds u < unix_to_tai_seconds v /\
  unix_to_tai_seconds (u + 1) - unix_to_tai_seconds u <= 2 /\ u + 10 <= unix_to_tai_seconds u <= u + 37.
Proof.
  assert (S : forall x, tai_minus_utc x <= tai_minus_utc (x + 1) <= tai_minus_utc x + 1) by (intros x; apply (tai_step x (x + 1)); lia).
  intros H. unfold unix_to_tai_seconds. split; [|split].
  - assert (M : forall n, tai_minus_utc u <= tai_minus_utc (u + Z.of_nat n)).
    { induction n as [|n IH]; [replace (u + Z.of_nat 0) with u by lia; lia|]. replace (u + Z.of_nat (Datatypes.S n)) with (u + Z.of_nat n + 1) by lia.
      specialize (S (u + Z.of_nat n)). lia. }
    specialize (M (Z.to_nat (v - u))). replace (u + Z.of_nat (Z.to_nat (v - u))) with v in M by lia. lia.
  - specialize (S u). lia.
  - pose proof (tai_step u u ltac:(lia)) as (_ & B & _).
    assert (Up : tai_minus_utc u <= 37).
    { rewrite tai_loop. assert (G : forall l off, off <= 37 -> forallb (fun p => p.2 <=? 37) l = true -> point_loop l u off <= 37).
      { induction l as [|[t w] l IH]; intros off Ho F; [exact Ho|]. cbn [forallb snd] in F. apply andb_true_iff in F as [F1 F2]. apply Z.leb_le in F1.
        cbn [point_loop]. destruct (t <=? u); [now apply IH|exact Ho]. }
      apply G; [lia|vm_compute; reflexivity]. }
    lia.
Qed.
Example C48_example :
  let t := days_from_civil 2017 1 1 * SECONDS_PER_DAY in
  unix_to_tai_seconds (t - 1) = t + 35 /\ unix_to_tai_seconds t = t + 37 /\ tai_to_unix_seconds (t + 37) = t.
Proof. vm_compute. repeat split. Qed.

(** ** C49 Merging clock knowledge *)

Theorem C49_merge_laws a b c :
  sc_merge a b = sc_merge b a /\ sc_merge (sc_merge a b) c = sc_merge a (sc_merge b c) /\ sc_merge a a = a.
Proof. split; [apply merge_comm|split; [apply merge_assoc|apply merge_idem]]. Qed.
(** Whatever is known stays true and is only narrowed: if every bound held by either clock about
    a node contains that node's true time, so does the merged bound, and it lies inside both. *)
Definition sound (truth : N -> Z) (s : sync_clock) : Prop :=
  forall n i, sc_know s !! n = Some i -> i_contains i (truth n) = true.
Theorem C49_merge_sound truth a b : sound truth a -> sound truth b -> sound truth (sc_merge a b).
Proof.
  intros A B n i. simpl. rewrite lookup_union_with. destruct (sc_know a !! n) as [x|] eqn:Ea, (sc_know b !! n) as [y|] eqn:Eb; simpl; intros [= <-]; eauto.
  rewrite intersect_contains, (A n x Ea), (B n y Eb). reflexivity.
Qed.
Theorem C49_merge_narrows a b n i : sc_know a !! n = Some i ->
  exists j, sc_know (sc_merge a b) !! n = Some j /\ i_lo i <= i_lo j /\ i_hi j <= i_hi i.
Proof.
  intros H. simpl. rewrite lookup_union_with, H. destruct (sc_know b !! n) as [y|]; simpl; eexists; (split; [reflexivity|]); simpl; lia.
Qed.
(** The merged stamp is the later of the two. *)
Theorem C49_merge_stamp a b : let m := sc_hlc (sc_merge a b) in
  (m = sc_hlc a \/ m = sc_hlc b) /\ hlc_le (sc_hlc a) m /\ hlc_le (sc_hlc b) m.
Proof.
  intros m. unfold m; simpl. split; [|apply hlc_max_ge]. destruct (hlc_max_spec (sc_hlc a) (sc_hlc b)) as [[-> _]|[-> _]]; auto.
Qed.
(** An observation is the merge with a clock that knows only that bound. *)
Theorem C49_observe s n i : sc_observe s n i = sc_merge s {| sc_hlc := sc_hlc s; sc_know := {[ n := i ]} |}.
Proof.
  apply sc_eq; simpl; [now rewrite hlc_max_idem|]. apply map_eq. intros k. unfold know_add. rewrite lookup_union_with.
  destruct (decide (k = n)) as [->|N].
  - rewrite lookup_insert, lookup_singleton. destruct (sc_know s !! n); reflexivity.
  - rewrite lookup_insert_ne, lookup_singleton_ne by congruence. destruct (sc_know s !! k); reflexivity.
Qed.
Example C49_example :
  let a := sc_observe (sc_tick sc_new 10) 1%N {| i_lo := 0; i_hi := 50 |} in
  let b := sc_observe (sc_tick sc_new 20) 1%N {| i_lo := 30; i_hi := 90 |} in
  sound (fun _ => 40) a /\ sound (fun _ => 40) b /\ sc_know (sc_merge a b) !! 1%N = Some {| i_lo := 30; i_hi := 50 |} /\
  sc_hlc (sc_merge a b) = {| h_phys := 20; h_log := 0 |}.
Proof.
  intros a b. split; [|split; [|split; reflexivity]]; intros n i H; unfold a, b in H; simpl in H; unfold know_add in H; simpl in H;
    apply lookup_insert_Some in H as [[_ <-]|[_ H]]; try reflexivity; now rewrite lookup_empty in H.
Qed.

(** ** C50 Named zones *)

(** The [week]-th [weekday] of a month: right weekday, inside the month, and the right one;
    week 5 means the last. *)
Theorem C50_nth_weekday y m w wd : 1 <= m <= 12 -> 1 <= w <= 5 -> 0 <= wd < 7 ->
  let d := nth_weekday_of_month y m w wd in
  1 <= d <= month_length y m /\ weekday_from_days (days_from_civil y m d) = wd /\
  ((w <= 4 /\ 7 * (w - 1) < d <= 7 * w) \/ (w = 5 /\ month_length y m < d + 7)).
Proof. apply nth_weekday_facts. Qed.

(** The clocks change on that day, when a clock that still shows the offset before the change
    reads the time of the rule: standard time in spring, summer time in autumn. *)
Definition changes_at (y : Z) (r : dst_rule) (before at_ : Z) : Prop :=
  exists d, 1 <= d <= month_length y (r_month r) /\ weekday_from_days (days_from_civil y (r_month r) d) = r_weekday r /\
    ((r_week r <= 4 /\ 7 * (r_week r - 1) < d <= 7 * r_week r) \/ (r_week r = 5 /\ month_length y (r_month r) < d + 7)) /\
    at_ + before = days_from_civil y (r_month r) d * 86400 + r_time r.
Theorem C50_change_instants y std dst s e : sane_zone std dst s e ->
  exists spring fall, dst_transitions_for_year std dst s e y = [spring; fall] /\
    changes_at y s std (z_at spring) /\ z_off spring = dst /\ changes_at y e dst (z_at fall) /\ z_off fall = std.
Proof.
  intros ((M1 & W1 & D1 & _) & (M2 & W2 & D2 & _) & _). eexists _, _. split; [reflexivity|].
  destruct (nth_weekday_facts y (r_month s) (r_week s) (r_weekday s) ltac:(lia) W1 D1) as (A1 & A2 & A3).
  destruct (nth_weekday_facts y (r_month e) (r_week e) (r_weekday e) ltac:(lia) W2 D2) as (B1 & B2 & B3).
  repeat split; (eexists; split; [eassumption|]; split; [eassumption|]; split; [eassumption|]); unfold dst_transition; cbn [z_at]; unfold SECONDS_PER_DAY; lia.
Qed.

(** A zone with daylight saving shows its summer offset exactly while the last clock change
    was a spring one, for every instant (rules in months 2 to 11, at least two months apart). *)
Theorem C50_daylight_saving std dst s e ns : sane_zone std dst s e ->
  let secs := ns / NANOS_PER_SECOND in
  (forward std dst s e secs -> zs_to_local (dst_zone std dst s e) ns = civil_from_unix_nanos (ns + dst * NANOS_PER_SECOND)) /\
  (back std dst s e secs -> zs_to_local (dst_zone std dst s e) ns = civil_from_unix_nanos (ns + std * NANOS_PER_SECOND)) /\
  (forward std dst s e secs \/ back std dst s e secs).
Proof.
  intros S secs. assert (E : zs_to_local (dst_zone std dst s e) ns = to_local (window std dst s e (utc_year ns)) std ns) by reflexivity.
  rewrite E. unfold to_local. split; [|split; [|apply (forward_or_back _ _ _ _ S)]]; intros F.
  - now rewrite (forward_offset _ _ _ _ S ns F).
  - now rewrite (back_offset _ _ _ _ S ns F).
Qed.
(** Every daylight-saving zone of the registry is of that kind. *)
Theorem C50_registry : Forall (fun z => match zs_dst z with Some (dst, s, e) => sane_zone (zs_std z) dst s e | None => True end)
  [utc; new_york; chicago; denver; los_angeles; phoenix; london; paris; kolkata; tokyo; shanghai; sydney].
Proof.
  repeat (apply Forall_cons; split; [cbn; first [exact I|unfold sane_zone, sane_rule, SECONDS_PER_DAY; cbn; lia]|]). constructor.
Qed.
Example C50_example :
  let july := unix_nanos_from_civil {| c_year := 2024; c_month := 7; c_day := 1; c_hour := 12; c_minute := 0; c_second := 0; c_nano := 0 |} in
  let january := unix_nanos_from_civil {| c_year := 2024; c_month := 1; c_day := 1; c_hour := 12; c_minute := 0; c_second := 0; c_nano := 0 |} in
  c_hour (zs_to_local new_york july) = 8 /\ c_hour (zs_to_local new_york january) = 7 /\
  c_hour (zs_to_local sydney july) = 22 /\ c_hour (zs_to_local sydney january) = 23 /\
  nth_weekday_of_month 2024 3 2 0 = 10 /\ nth_weekday_of_month 2024 3 5 0 = 31.
Proof. vm_compute. repeat split. Qed.
