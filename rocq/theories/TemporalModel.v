(** Model of crates/logicaffeine_base/src/temporal.rs (calendar, clocks, zones).
    Rust integers are [Z]; [/] and [%] of Rust are [Z.quot] and [Z.rem], [div_euclid]
    and [rem_euclid] by a positive number are [Z.div] and [Z.modulo]. Casts between
    u32 and i64 are left out (the cast values are small and non-negative); overflow of
    i64 is not modelled here except where a property says so. *)
From Coq Require Import ZArith List Bool Lia.
From stdpp Require Import gmap.
From Verif Require Import StableSort.
Import ListNotations.
Local Open Scope Z_scope.

(** ** Gregorian calendar *)

(** temporal.rs:859-861. *)
Definition is_gregorian_leap (year : Z) : bool :=
  ((Z.rem year 4 =? 0) && negb (Z.rem year 100 =? 0)) || (Z.rem year 400 =? 0).

(** temporal.rs:865-867. *)
Definition is_julian_leap (year : Z) : bool := year mod 4 =? 0.

(** temporal.rs:871-879. *)
Definition days_from_civil (year month day : Z) : Z :=
  let y := if month <=? 2 then year - 1 else year in
  let era := Z.quot (if 0 <=? y then y else y - 399) 400 in
  let yoe := y - era * 400 in
  let m := month in
  let doy := Z.quot (153 * (if 2 <? m then m - 3 else m + 9) + 2) 5 + day - 1 in
  let doe := yoe * 365 + Z.quot yoe 4 - Z.quot yoe 100 + doy in
  era * 146097 + doe - 719468.

(** temporal.rs:882-894. *)
Definition civil_from_days (z0 : Z) : Z * Z * Z :=
  let z := z0 + 719468 in
  let era := Z.quot (if 0 <=? z then z else z - 146096) 146097 in
  let doe := z - era * 146097 in
  let yoe := Z.quot (doe - Z.quot doe 1460 + Z.quot doe 36524 - Z.quot doe 146096) 365 in
  let y := yoe + era * 400 in
  let doy := doe - (365 * yoe + Z.quot yoe 4 - Z.quot yoe 100) in
  let mp := Z.quot (5 * doy + 2) 153 in
  let day := doy - Z.quot (153 * mp + 2) 5 + 1 in
  let month := if mp <? 10 then mp + 3 else mp - 9 in
  let year := if month <=? 2 then y + 1 else y in
  (year, month, day).

(** temporal.rs:897-904. *)
Definition last_day_of_month (year month : Z) : Z :=
  if existsb (Z.eqb month) [1; 3; 5; 7; 8; 10; 12] then 31
  else if existsb (Z.eqb month) [4; 6; 9; 11] then 30
  else if month =? 2 then (if is_gregorian_leap year then 29 else 28)
  else 0.

(** temporal.rs:907-909, 912-914. *)
Definition weekday_from_days (z : Z) : Z := (z + 4) mod 7.
Definition iso_weekday_from_days (z : Z) : Z := (z + 3) mod 7 + 1.

(** temporal.rs:917-919. *)
Definition day_of_year (year month day : Z) : Z :=
  days_from_civil year month day - days_from_civil year 1 1 + 1.

(** temporal.rs:924-936. *)
Definition iso_week_from_days (z : Z) : Z * Z * Z :=
  let iso_dow := iso_weekday_from_days z in
  let thursday := z + (4 - iso_dow) in
  let iso_year := (civil_from_days thursday).1.1 in
  let jan4 := days_from_civil iso_year 1 4 in
  let week1_monday := jan4 - (iso_weekday_from_days jan4 - 1) in
  let week := Z.quot (z - week1_monday) 7 + 1 in
  (iso_year, week, iso_dow).

(** temporal.rs:940-944. *)
Definition days_from_iso_week (iso_year week iso_weekday : Z) : Z :=
  let jan4 := days_from_civil iso_year 1 4 in
  let week1_monday := jan4 - (iso_weekday_from_days jan4 - 1) in
  week1_monday + (week - 1) * 7 + (iso_weekday - 1).

(** ** Julian calendar *)

(** temporal.rs:15. *)
Definition UNIX_EPOCH_JDN : Z := 2440588.
(** temporal.rs:947-952. *)
Definition jdn_from_julian (year month day : Z) : Z :=
  let a := Z.quot (14 - month) 12 in
  let y := year + 4800 - a in
  let m := month + 12 * a - 3 in
  day + Z.quot (153 * m + 2) 5 + 365 * y + Z.quot y 4 - 32083.
(** temporal.rs:955-964. *)
Definition julian_from_jdn (jdn : Z) : Z * Z * Z :=
  let c := jdn + 32082 in
  let d := Z.quot (4 * c + 3) 1461 in
  let e := c - Z.quot (1461 * d) 4 in
  let m := Z.quot (5 * e + 2) 153 in
  let day := e - Z.quot (153 * m + 2) 5 + 1 in
  let month := m + 3 - 12 * Z.quot m 10 in
  let year := d - 4800 + Z.quot m 10 in
  (year, month, day).
(** temporal.rs:967-969 and 972-974. *)
Definition days_from_julian (year month day : Z) : Z := jdn_from_julian year month day - UNIX_EPOCH_JDN.
Definition julian_from_days (z : Z) : Z * Z * Z := julian_from_jdn (z + UNIX_EPOCH_JDN).

(** ** Date-times *)

(** temporal.rs:218-222. *)
Definition NANOS_PER_SECOND : Z := 1000000000.
Definition SECONDS_PER_DAY : Z := 86400.
Definition NANOS_PER_DAY : Z := SECONDS_PER_DAY * NANOS_PER_SECOND.

(** temporal.rs:227-235. *)
Record civil := { c_year : Z; c_month : Z; c_day : Z; c_hour : Z; c_minute : Z; c_second : Z; c_nano : Z }.

(** temporal.rs:239-253. *)
Definition civil_from_unix_nanos (ns : Z) : civil :=
  let day := ns / NANOS_PER_DAY in
  let rem := ns mod NANOS_PER_DAY in
  let '(year, month, d) := civil_from_days day in
  let secs := Z.quot rem NANOS_PER_SECOND in
  {| c_year := year; c_month := month; c_day := d; c_hour := Z.quot secs 3600;
     c_minute := Z.quot (Z.rem secs 3600) 60; c_second := Z.rem secs 60; c_nano := Z.rem rem NANOS_PER_SECOND |}.

(** temporal.rs:256-260. *)
Definition unix_nanos_from_civil (dt : civil) : Z :=
  let days := days_from_civil (c_year dt) (c_month dt) (c_day dt) in
  let secs := c_hour dt * 3600 + c_minute dt * 60 + c_second dt in
  days * NANOS_PER_DAY + secs * NANOS_PER_SECOND + c_nano dt.

(** temporal.rs:518-526. *)
Definition add_span (dt : civil) (months days : Z) : civil :=
  let total := (c_year dt * 12 + (c_month dt - 1)) + months in
  let new_year := total / 12 in
  let new_month := total mod 12 + 1 in
  let clamped_day := Z.min (c_day dt) (last_day_of_month new_year new_month) in
  let z := days_from_civil new_year new_month clamped_day + days in
  let '(year, month, day) := civil_from_days z in
  {| c_year := year; c_month := month; c_day := day; c_hour := c_hour dt; c_minute := c_minute dt;
     c_second := c_second dt; c_nano := c_nano dt |}.

(** temporal.rs:536-544, for [a <= b]; 533-535 swaps and negates. *)
Definition months_between_up (a_nanos b_nanos : Z) : Z :=
  let a := civil_from_unix_nanos a_nanos in
  let b := civil_from_unix_nanos b_nanos in
  let months := (c_year b - c_year a) * 12 + (c_month b - c_month a) in
  if b_nanos <? unix_nanos_from_civil (add_span a months 0) then months - 1 else months.
Definition months_between (a b : Z) : Z :=
  if b <? a then - months_between_up b a else months_between_up a b.
(** temporal.rs:549-551. *)
Definition years_between (a b : Z) : Z := Z.quot (months_between a b) 12.

(** ** Business days *)

(** temporal.rs:554-556. *)
Definition is_weekend (z : Z) : bool := (weekday_from_days z =? 0) || (weekday_from_days z =? 6).

(** temporal.rs:569-574: the loop runs [hi - d] times. *)
Fixpoint count_loop (n : nat) (d count : Z) : Z :=
  match n with
  | O => count
  | S n' => count_loop n' (d + 1) (if is_weekend d then count else count + 1)
  end.
(** temporal.rs:560-576. *)
Definition business_days_between (a b : Z) : Z :=
  if a =? b then 0
  else
    let '(lo, hi, sign) := if a <? b then (a, b, 1) else (b, a, -1) in
    let span := hi - lo in
    let full_weeks := Z.quot span 7 in
    let d := lo + full_weeks * 7 in
    sign * count_loop (Z.to_nat (hi - d)) d (full_weeks * 5).

(** temporal.rs:586-591. At most two consecutive days are skipped, so [3 * remaining]
    rounds are enough ([fuel]; proved in TemporalProofs). *)
Fixpoint business_loop (fuel : nat) (step remaining d : Z) : Z :=
  match fuel with
  | O => d
  | S fuel' =>
    if 0 <? remaining then
      let d' := d + step in
      business_loop fuel' step (if is_weekend d' then remaining else remaining - 1) d'
    else d
  end.
(** temporal.rs:582-593. *)
Definition add_business_days (z n : Z) : Z :=
  let step := if 0 <=? n then 1 else -1 in
  business_loop (Z.to_nat (3 * Z.abs n)) step (Z.abs n) z.

(** ** Leap seconds *)

(** temporal.rs:21-28. *)
Definition LEAP_SECONDS : list (Z * Z * Z * Z) :=
  [(1972, 1, 1, 10); (1972, 7, 1, 11); (1973, 1, 1, 12); (1974, 1, 1, 13); (1975, 1, 1, 14);
   (1976, 1, 1, 15); (1977, 1, 1, 16); (1978, 1, 1, 17); (1979, 1, 1, 18); (1980, 1, 1, 19);
   (1981, 7, 1, 20); (1982, 7, 1, 21); (1983, 7, 1, 22); (1985, 7, 1, 23); (1988, 1, 1, 24);
   (1990, 1, 1, 25); (1991, 1, 1, 26); (1992, 7, 1, 27); (1993, 7, 1, 28); (1994, 7, 1, 29);
   (1996, 1, 1, 30); (1997, 7, 1, 31); (1999, 1, 1, 32); (2006, 1, 1, 33); (2009, 1, 1, 34);
   (2012, 7, 1, 35); (2015, 7, 1, 36); (2017, 1, 1, 37)].
(** temporal.rs:37-44. *)
Fixpoint leap_loop (table : list (Z * Z * Z * Z)) (unix_seconds offset : Z) : Z :=
  match table with
  | [] => offset
  | (y, m, d, value) :: table' =>
    if days_from_civil y m d * SECONDS_PER_DAY <=? unix_seconds then leap_loop table' unix_seconds value else offset
  end.
(** temporal.rs:35-46. *)
Definition tai_minus_utc (unix_seconds : Z) : Z := leap_loop LEAP_SECONDS unix_seconds 10.
(** temporal.rs:69-71. *)
Definition unix_to_tai_seconds (u : Z) : Z := u + tai_minus_utc u.
(** temporal.rs:75-81, the loop unrolled. *)
Definition tai_to_unix_seconds (tai : Z) : Z :=
  let u0 := tai - tai_minus_utc tai in
  let u1 := tai - tai_minus_utc u0 in
  tai - tai_minus_utc u1.
(** temporal.rs:31, 49-52, 56-58, 61-66. *)
Definition TT_MINUS_TAI_NANOS : Z := 32184000000.
Definition tai_nanos_from_unix_nanos (ns : Z) : Z := ns + tai_minus_utc (ns / NANOS_PER_SECOND) * NANOS_PER_SECOND.
Definition tt_nanos_from_unix_nanos (ns : Z) : Z := tai_nanos_from_unix_nanos ns + TT_MINUS_TAI_NANOS.
Definition unix_nanos_from_tt_nanos (tt : Z) : Z :=
  let tai_ns := tt - TT_MINUS_TAI_NANOS in
  let unix_secs := tai_to_unix_seconds (tai_ns / NANOS_PER_SECOND) in
  tai_ns - tai_minus_utc unix_secs * NANOS_PER_SECOND.

(** ** Hybrid clocks *)

(** temporal.rs:90-93; the derived order is lexicographic. *)
Record hlc := { h_phys : Z; h_log : Z }.
Definition hlc_lt (a b : hlc) : Prop := h_phys a < h_phys b \/ (h_phys a = h_phys b /\ h_log a < h_log b).
Definition hlc_leb (a b : hlc) : bool := (h_phys a <? h_phys b) || ((h_phys a =? h_phys b) && (h_log a <=? h_log b)).
(** temporal.rs:97. *)
Definition hlc_zero : hlc := {| h_phys := 0; h_log := 0 |}.
(** The counter is a u32: [+ 1] wraps in a release build (and panics in a debug build). *)
Definition inc32 (x : Z) : Z := (x + 1) mod 2 ^ 32.
(** temporal.rs:102-106. *)
Definition hlc_tick (s : hlc) (now : Z) : hlc :=
  let physical := Z.max (h_phys s) now in
  let logical := if physical =? h_phys s then inc32 (h_log s) else 0 in
  {| h_phys := physical; h_log := logical |}.
(** temporal.rs:111-123. *)
Definition hlc_recv (s remote : hlc) (now : Z) : hlc :=
  let physical := Z.max (Z.max (h_phys s) (h_phys remote)) now in
  let logical :=
    if (physical =? h_phys s) && (physical =? h_phys remote) then inc32 (Z.max (h_log s) (h_log remote))
    else if physical =? h_phys s then inc32 (h_log s)
    else if physical =? h_phys remote then inc32 (h_log remote)
    else 0 in
  {| h_phys := physical; h_log := logical |}.

(** temporal.rs:131-154. *)
Record interval := { i_lo : Z; i_hi : Z }.
Definition i_contains (i : interval) (t : Z) : bool := (i_lo i <=? t) && (t <=? i_hi i).
Definition i_width (i : interval) : Z := i_hi i - i_lo i.
Definition i_intersect (a b : interval) : interval := {| i_lo := Z.max (i_lo a) (i_lo b); i_hi := Z.min (i_hi a) (i_hi b) |}.

(** temporal.rs:170-208. *)
Record sync_clock := { sc_hlc : hlc; sc_know : gmap N interval }.
Definition sc_new : sync_clock := {| sc_hlc := hlc_zero; sc_know := ∅ |}.
Definition sc_tick (s : sync_clock) (now : Z) : sync_clock := {| sc_hlc := hlc_tick (sc_hlc s) now; sc_know := sc_know s |}.
Definition know_add (k : gmap N interval) (node : N) (iv : interval) : gmap N interval :=
  <[node := match k !! node with Some old => i_intersect old iv | None => iv end]> k.
Definition sc_observe (s : sync_clock) (node : N) (iv : interval) : sync_clock :=
  {| sc_hlc := sc_hlc s; sc_know := know_add (sc_know s) node iv |}.
(** temporal.rs:199-208; the loop over the other map touches each key once. *)
Definition hlc_max (a b : hlc) : hlc := if hlc_leb a b then b else a.
Definition sc_merge (s o : sync_clock) : sync_clock :=
  {| sc_hlc := hlc_max (sc_hlc s) (sc_hlc o);
     sc_know := union_with (fun a b => Some (i_intersect a b)) (sc_know s) (sc_know o) |}.

(** ** Zones *)

(** temporal.rs:266-269; a transition is (instant in seconds, offset in seconds). *)
Record transition := { z_at : Z; z_off : Z }.
Inductive fold_choice := Earlier | Later.

(** temporal.rs:286-292. *)
Fixpoint offset_loop (ts : list transition) (secs off : Z) : Z :=
  match ts with
  | [] => off
  | t :: ts' => if z_at t <=? secs then offset_loop ts' secs (z_off t) else off
  end.
(** temporal.rs:283-294. *)
Definition offset_at (ts : list transition) (base ns : Z) : Z := offset_loop ts (ns / NANOS_PER_SECOND) base.
(** temporal.rs:297-300. *)
Definition to_local (ts : list transition) (base ns : Z) : civil :=
  civil_from_unix_nanos (ns + offset_at ts base ns * NANOS_PER_SECOND).

(** temporal.rs:314-319. *)
Definition zone_offsets (ts : list transition) (base : Z) : list Z :=
  fold_left (fun acc t => if existsb (Z.eqb (z_off t)) acc then acc else acc ++ [z_off t]) ts [base].
(** [valid.dedup()] on a sorted vector. *)
Fixpoint dedup (l : list Z) : list Z :=
  match l with
  | [] => []
  | x :: l' => match dedup l' with
               | [] => [x]
               | y :: r => if x =? y then y :: r else x :: y :: r
               end
  end.
(** temporal.rs:306-348. *)
Definition from_local (ts : list transition) (base : Z) (c : civil) (f : fold_choice) : Z :=
  let local_ns := unix_nanos_from_civil c in
  let offsets := zone_offsets ts base in
  let valid := map (fun o => local_ns - o * NANOS_PER_SECOND)
    (List.filter (fun o => offset_at ts base (local_ns - o * NANOS_PER_SECOND) =? o) offsets) in
  let valid := dedup (sort_by Z.leb valid) in
  match valid with
  | [] =>
    let cands := sort_by Z.leb (map (fun o => local_ns - o * NANOS_PER_SECOND) offsets) in
    match f with Earlier => List.hd 0 cands | Later => List.last cands 0 end
  | [v] => v
  | v :: _ => match f with Earlier => v | Later => List.last valid 0 end
  end.

(** ** Daylight-saving rules *)

(** temporal.rs:355-360. *)
Record dst_rule := { r_month : Z; r_week : Z; r_weekday : Z; r_time : Z }.
(** temporal.rs:370-372; weeks 1..5 overshoot by at most one, so 6 rounds suffice. *)
Fixpoint back_to_month (fuel : nat) (day last : Z) : Z :=
  match fuel with
  | O => day
  | S fuel' => if last <? day then back_to_month fuel' (day - 7) last else day
  end.
(** temporal.rs:364-374. *)
Definition nth_weekday_of_month (year month week weekday : Z) : Z :=
  let first := days_from_civil year month 1 in
  let first_weekday := weekday_from_days first in
  let to_first := Z.rem (weekday + 7 - first_weekday) 7 in
  let day := 1 + to_first + (week - 1) * 7 in
  back_to_month 6 day (last_day_of_month year month).
(** temporal.rs:379-397. *)
Definition dst_transition (year : Z) (rule : dst_rule) (pre_offset new_offset : Z) : transition :=
  let day := nth_weekday_of_month year (r_month rule) (r_week rule) (r_weekday rule) in
  let local := days_from_civil year (r_month rule) day * SECONDS_PER_DAY + r_time rule in
  {| z_at := local - pre_offset; z_off := new_offset |}.
Definition dst_transitions_for_year (std dst : Z) (start fin : dst_rule) (year : Z) : list transition :=
  [dst_transition year start std dst; dst_transition year fin dst std].

(** ** Named zones *)

(** temporal.rs:402-407; the name is left out. *)
Record zone_spec := { zs_std : Z; zs_dst : option (Z * dst_rule * dst_rule) }.
(** [start_year..=end_year], 415-418. *)
Fixpoint year_transitions (n : nat) (std dst : Z) (start fin : dst_rule) (year : Z) : list transition :=
  match n with
  | O => []
  | S n' => dst_transitions_for_year std dst start fin year ++ year_transitions n' std dst start fin (year + 1)
  end.
(** temporal.rs:412-422; [sort_by_key] is a stable sort on the instant. *)
Definition zs_transitions (z : zone_spec) (start_year end_year : Z) : list transition :=
  match zs_dst z with
  | None => []
  | Some (dst, start, fin) =>
    sort_by (fun a b => z_at a <=? z_at b)
      (year_transitions (Z.to_nat (end_year - start_year + 1)) (zs_std z) dst start fin start_year)
  end.
(** temporal.rs:425-434. *)
Definition zs_to_local (z : zone_spec) (ns : Z) : civil :=
  match zs_dst z with
  | None => civil_from_unix_nanos (ns + zs_std z * NANOS_PER_SECOND)
  | Some _ =>
    let year := (civil_from_days (ns / NANOS_PER_DAY)).1.1 in
    to_local (zs_transitions z (year - 1) (year + 1)) (zs_std z) ns
  end.

(** temporal.rs:467-511: the rules and the zones; the names are the definitions' names. *)
Definition rule (m w d t : Z) : dst_rule := {| r_month := m; r_week := w; r_weekday := d; r_time := t |}.
Definition us_start : dst_rule := rule 3 2 0 (2 * 3600).
Definition us_end : dst_rule := rule 11 1 0 (2 * 3600).
Definition eu_start (std_h : Z) : dst_rule := rule 3 5 0 ((std_h + 1) * 3600).
Definition eu_end (std_h : Z) : dst_rule := rule 10 5 0 ((std_h + 2) * 3600).
Definition fixed_zone (off : Z) : zone_spec := {| zs_std := off; zs_dst := None |}.
Definition dst_zone (std dst : Z) (start fin : dst_rule) : zone_spec := {| zs_std := std; zs_dst := Some (dst, start, fin) |}.
Definition new_york : zone_spec := dst_zone (-5 * 3600) (-4 * 3600) us_start us_end.
Definition chicago : zone_spec := dst_zone (-6 * 3600) (-5 * 3600) us_start us_end.
Definition denver : zone_spec := dst_zone (-7 * 3600) (-6 * 3600) us_start us_end.
Definition los_angeles : zone_spec := dst_zone (-8 * 3600) (-7 * 3600) us_start us_end.
Definition london : zone_spec := dst_zone 0 3600 (eu_start 0) (eu_end 0).
Definition paris : zone_spec := dst_zone 3600 (2 * 3600) (eu_start 1) (eu_end 1).
Definition sydney : zone_spec := dst_zone (10 * 3600) (11 * 3600) (rule 10 1 0 (2 * 3600)) (rule 4 1 0 (3 * 3600)).
Definition utc : zone_spec := fixed_zone 0.
Definition phoenix : zone_spec := fixed_zone (-7 * 3600).
Definition kolkata : zone_spec := fixed_zone (5 * 3600 + 1800).
Definition tokyo : zone_spec := fixed_zone (9 * 3600).
Definition shanghai : zone_spec := fixed_zone (8 * 3600).
