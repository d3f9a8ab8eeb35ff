(** Date-times, calendar spans, leap seconds and hybrid clocks. *)
From Coq Require Import ZArith List Bool Lia.
From stdpp Require Import gmap.
From Verif Require Import StableSort TemporalModel CalendarProofs CalendarWeeks TemporalProofs.
Import ListNotations.
Local Open Scope Z_scope.

(** ** Date-times *)

Definition civil_date (c : civil) : Z * Z * Z := (c_year c, c_month c, c_day c).
Definition valid_civil (c : civil) : Prop :=
  valid_date (civil_date c) /\ 0 <= c_hour c < 24 /\ 0 <= c_minute c < 60 /\ 0 <= c_second c < 60 /\ 0 <= c_nano c < NANOS_PER_SECOND.
Definition time_of_day (c : civil) : Z :=
  (c_hour c * 3600 + c_minute c * 60 + c_second c) * NANOS_PER_SECOND + c_nano c.

Lemma nanos_split c : unix_nanos_from_civil c = days_from_civil (c_year c) (c_month c) (c_day c) * NANOS_PER_DAY + time_of_day c.
Proof. unfold unix_nanos_from_civil, time_of_day. lia. Qed.
Lemma time_bound c : valid_civil c -> 0 <= time_of_day c < NANOS_PER_DAY.
Proof. intros (_ & H & M & S & N). unfold time_of_day, NANOS_PER_DAY, SECONDS_PER_DAY, NANOS_PER_SECOND in *. lia. Qed.

Lemma time_fields r : 0 <= r < NANOS_PER_DAY ->
  let s := Z.quot r NANOS_PER_SECOND in
  0 <= Z.quot s 3600 < 24 /\ 0 <= Z.quot (Z.rem s 3600) 60 < 60 /\ 0 <= Z.rem s 60 < 60 /\ 0 <= Z.rem r NANOS_PER_SECOND < NANOS_PER_SECOND /\
  (Z.quot s 3600 * 3600 + Z.quot (Z.rem s 3600) 60 * 60 + Z.rem s 60) * NANOS_PER_SECOND + Z.rem r NANOS_PER_SECOND = r.
Proof.
  unfold NANOS_PER_DAY, SECONDS_PER_DAY, NANOS_PER_SECOND. intros H. cbv zeta.
  rewrite (Z.rem_mod_nonneg r) by lia. rewrite (Z.quot_div_nonneg r) by lia.
  pose proof (Z.div_mod r 1000000000 ltac:(lia)). pose proof (Z.mod_pos_bound r 1000000000 ltac:(lia)).
  set (t := r / 1000000000) in *. assert (Ht : 0 <= t < 86400) by lia.
  rewrite !(Z.rem_mod_nonneg t) by lia. rewrite (Z.quot_div_nonneg t) by lia.
  pose proof (Z.div_mod t 3600 ltac:(lia)). pose proof (Z.mod_pos_bound t 3600 ltac:(lia)).
  rewrite (Z.quot_div_nonneg (t mod 3600)) by lia.
  pose proof (Z.div_mod (t mod 3600) 60 ltac:(lia)). pose proof (Z.mod_pos_bound (t mod 3600) 60 ltac:(lia)).
  assert (E : t mod 60 = (t mod 3600) mod 60).
  { rewrite <- (Znumtheory.Zmod_div_mod 60 3600 t); [reflexivity|lia|lia|exists 60; lia]. }
  rewrite E. lia.
Qed.

Lemma from_nanos_facts ns : let c := civil_from_unix_nanos ns in
  valid_civil c /\ civil_date c = civil_from_days (ns / NANOS_PER_DAY) /\ time_of_day c = ns mod NANOS_PER_DAY.
Proof.
  intros c. unfold c, civil_from_unix_nanos. destruct (civil_from_days (ns / NANOS_PER_DAY)) as [[y m] d] eqn:E. cbv zeta.
  pose proof (Z.mod_pos_bound ns NANOS_PER_DAY ltac:(reflexivity)) as B. pose proof (time_fields _ B) as F. cbv zeta in F.
  destruct (day_facts (ns / NANOS_PER_DAY)) as (V & _ & _). cbv zeta in V. rewrite E in V.
  unfold valid_civil, civil_date, time_of_day; simpl. split; [|split; [reflexivity|apply F]].
  split; [exact V|]. tauto.
Qed.
Lemma nanos_back ns : unix_nanos_from_civil (civil_from_unix_nanos ns) = ns.
Proof.
  destruct (from_nanos_facts ns) as (V & D & T). cbv zeta in *. rewrite nanos_split, T.
  destruct (day_facts (ns / NANOS_PER_DAY)) as (_ & F & _). cbv zeta in F. rewrite <- D in F. cbn [civil_date fst snd] in F. rewrite F.
  pose proof (Z.div_mod ns NANOS_PER_DAY ltac:(discriminate)). lia.
Qed.
Lemma civil_eq c c' : valid_civil c -> valid_civil c' -> civil_date c = civil_date c' -> time_of_day c = time_of_day c' -> c = c'.
Proof.
  destruct c as [y m d h mi s n], c' as [y' m' d' h' mi' s' n']. unfold valid_civil, civil_date, time_of_day, NANOS_PER_SECOND; simpl.
  intros (_ & H) (_ & H') [= -> -> ->] E. assert (h = h' /\ mi = mi' /\ s = s' /\ n = n') as (-> & -> & -> & ->) by lia. reflexivity.
Qed.
Lemma civil_back c : valid_civil c -> civil_from_unix_nanos (unix_nanos_from_civil c) = c.
Proof.
  intros V. pose proof (time_bound c V) as B. destruct (from_nanos_facts (unix_nanos_from_civil c)) as (V' & D & T). cbv zeta in *.
  apply civil_eq; [exact V'|exact V| |].
  - rewrite D, nanos_split, Z.div_add_l, (Z.div_small (time_of_day c)), Z.add_0_r by (try exact B; discriminate).
    destruct c as [y m d h mi s n]. apply date_facts, V.
  - rewrite T, nanos_split, Z.add_comm, Z.mod_add by discriminate. apply Z.mod_small, B.
Qed.
Lemma nanos_inj c c' : valid_civil c -> valid_civil c' -> unix_nanos_from_civil c = unix_nanos_from_civil c' -> c = c'.
Proof. intros V V' E. rewrite <- (civil_back c V), E. now apply civil_back. Qed.

(** ** Calendar spans *)

Lemma month_shift c months : let t := c_year c * 12 + (c_month c - 1) + months in
  1 <= t mod 12 + 1 <= 12 /\ (t / 12) * 12 + (t mod 12 + 1 - 1) = c_year c * 12 + (c_month c - 1) + months.
Proof. intros t. pose proof (Z.div_mod t 12 ltac:(lia)). pose proof (Z.mod_pos_bound t 12 ltac:(lia)). unfold t in *. lia. Qed.

(** What [add_span] does, without its arithmetic. *)
Definition month_index (c : civil) : Z := c_year c * 12 + (c_month c - 1).
Lemma add_months_facts c months : valid_civil c -> let c' := add_span c months 0 in
  valid_civil c' /\ time_of_day c' = time_of_day c /\ month_index c' = month_index c + months /\
  c_day c' = Z.min (c_day c) (month_length (c_year c') (c_month c')).
Proof.
  intros V c'. destruct (month_shift c months) as [Hm Ht]. cbv zeta in *. unfold c', add_span, month_index. cbv zeta.
  set (t := c_year c * 12 + (c_month c - 1) + months) in *.
  assert (Hd : 1 <= c_day c) by (destruct V as ((_ & V) & _); cbn [civil_date fst snd] in V; lia).
  assert (VD : valid_date (t / 12, t mod 12 + 1, Z.min (c_day c) (last_day_of_month (t / 12) (t mod 12 + 1)))).
  { split; cbn [fst snd]; [exact Hm|]. rewrite last_day_spec by exact Hm. pose proof (month_length_ge (t / 12) (t mod 12 + 1)). lia. }
  rewrite Z.add_0_r, (date_facts _ _ _ VD). simpl. split; [|split; [reflexivity|split; [exact Ht|]]].
  - destruct V as (_ & V). split; [exact VD|]. exact V.
  - now rewrite last_day_spec by exact Hm.
Qed.
Lemma add_span_days c months days : valid_civil c ->
  let m := add_span c months 0 in let c' := add_span c months days in
  valid_civil c' /\ time_of_day c' = time_of_day c /\
  days_from_civil (c_year c') (c_month c') (c_day c') = days_from_civil (c_year m) (c_month m) (c_day m) + days.
Proof.
  intros V m c'. destruct (month_shift c months) as [Hm Ht]. cbv zeta in *. unfold m, c', add_span. cbv zeta.
  set (t := c_year c * 12 + (c_month c - 1) + months) in *. set (z := days_from_civil _ _ _). rewrite Z.add_0_r.
  destruct (day_facts z) as (_ & D0 & _). destruct (day_facts (z + days)) as (V1 & D1 & _). cbv zeta in *.
  destruct (civil_from_days z) as [[y0 m0] d0]. destruct (civil_from_days (z + days)) as [[y1 m1] d1]. simpl in *.
  split; [|split; [reflexivity|lia]]. destruct V as (_ & V). split; [exact V1|exact V].
Qed.

Opaque add_span civil_from_unix_nanos unix_nanos_from_civil days_from_civil civil_from_days.

Lemma nanos_lt_days c c' : valid_civil c -> valid_civil c' ->
  days_from_civil (c_year c) (c_month c) (c_day c) < days_from_civil (c_year c') (c_month c') (c_day c') ->
  unix_nanos_from_civil c < unix_nanos_from_civil c'.
Proof.
  intros V V' H. rewrite !nanos_split. pose proof (time_bound _ V). pose proof (time_bound _ V').
  unfold NANOS_PER_DAY, SECONDS_PER_DAY, NANOS_PER_SECOND in *. lia.
Qed.
Lemma month_index_lt c c' : valid_civil c -> valid_civil c' -> month_index c < month_index c' ->
  unix_nanos_from_civil c < unix_nanos_from_civil c'.
Proof.
  intros V V' H. apply nanos_lt_days; [exact V|exact V'|]. apply days_lt; [apply V|apply V'|].
  unfold month_index in H. destruct V as [[Hm _] _], V' as [[Hm' _] _]. unfold civil_date in *; cbn [fst snd] in *.
  unfold date_lt; cbn [fst snd]. lia.
Qed.

Lemma months_core ca cb : valid_civil ca -> valid_civil cb ->
  (forall n, n < month_index cb - month_index ca -> unix_nanos_from_civil (add_span ca n 0) < unix_nanos_from_civil cb) /\
  (forall n, month_index cb - month_index ca < n -> unix_nanos_from_civil cb < unix_nanos_from_civil (add_span ca n 0)).
Proof.
  intros Va Vb. split; intros n Hn; destruct (add_months_facts ca n Va) as (V & _ & I & _).
  - apply month_index_lt; [exact V|exact Vb|rewrite I; lia].
  - apply month_index_lt; [exact Vb|exact V|rewrite I; lia].
Qed.
Lemma add_no_months c : valid_civil c -> add_span c 0 0 = c.
Proof.
  intros Va. destruct (add_months_facts c 0 Va) as (V & T & I & D).
  apply civil_eq; [exact V|exact Va| |exact T]. unfold month_index in I. destruct V as [[Hm _] _], Va as [[Hm' Hd'] _].
  unfold civil_date in *; cbn [fst snd] in *. assert (Ey : c_year (add_span c 0 0) = c_year c) by lia.
  assert (Emm : c_month (add_span c 0 0) = c_month c) by lia. rewrite D, Ey, Emm. rewrite Z.min_l by lia. reflexivity.
Qed.
Definition plus_months (a n : Z) : Z := unix_nanos_from_civil (add_span (civil_from_unix_nanos a) n 0).
Transparent add_span civil_from_unix_nanos unix_nanos_from_civil.
Lemma months_between_up_alt a b : months_between_up a b =
  let M := month_index (civil_from_unix_nanos b) - month_index (civil_from_unix_nanos a) in
  if b <? plus_months a M then M - 1 else M.
Proof.
  unfold months_between_up, plus_months, month_index. cbv zeta.
  set (ca := civil_from_unix_nanos a). set (cb := civil_from_unix_nanos b).
  replace ((c_year cb - c_year ca) * 12 + (c_month cb - c_month ca)) with (c_year cb * 12 + (c_month cb - 1) - (c_year ca * 12 + (c_month ca - 1))) by lia.
  reflexivity.
Qed.
Opaque add_span civil_from_unix_nanos unix_nanos_from_civil.
Lemma months_up_facts a b : a <= b ->
  0 <= months_between_up a b /\ plus_months a (months_between_up a b) <= b /\ b < plus_months a (months_between_up a b + 1).
Proof.
  intros Hab. rewrite months_between_up_alt. cbv zeta.
  pose proof (proj1 (from_nanos_facts a)) as Va. pose proof (proj1 (from_nanos_facts b)) as Vb.
  destruct (months_core _ _ Va Vb) as [Lo Hi]. rewrite nanos_back in Lo, Hi.
  assert (P0 : plus_months a 0 = a) by (unfold plus_months; rewrite (add_no_months _ Va); apply nanos_back).
  assert (Lo' : forall n, n < month_index (civil_from_unix_nanos b) - month_index (civil_from_unix_nanos a) -> plus_months a n < b) by exact Lo.
  assert (Hi' : forall n, month_index (civil_from_unix_nanos b) - month_index (civil_from_unix_nanos a) < n -> b < plus_months a n) by exact Hi.
  clear Lo Hi Va Vb. revert Lo' Hi'. generalize (month_index (civil_from_unix_nanos b) - month_index (civil_from_unix_nanos a)). intros M Lo Hi.
  assert (HM : 0 <= M).
  { destruct (Z.lt_ge_cases M 0) as [L|G]; [|exact G]. pose proof (Hi 0 L). lia. }
  destruct (Z.ltb_spec b (plus_months a M)) as [L|G].
  - split; [|split].
    + destruct (Z.eq_dec M 0) as [E0|]; [|lia]. rewrite E0, P0 in L. lia.
    + specialize (Lo (M - 1) ltac:(lia)). lia.
    + now replace (M - 1 + 1) with M by lia.
  - split; [exact HM|]. split; [exact G|]. apply Hi. lia.
Qed.
Lemma add_months_mono c m n : valid_civil c -> m < n -> unix_nanos_from_civil (add_span c m 0) < unix_nanos_from_civil (add_span c n 0).
Proof.
  intros V H. destruct (add_months_facts c m V) as (Vm & _ & Im & _). destruct (add_months_facts c n V) as (Vn & _ & In' & _).
  cbv zeta in *. apply month_index_lt; [exact Vm|exact Vn|lia].
Qed.

Transparent add_span civil_from_unix_nanos unix_nanos_from_civil days_from_civil civil_from_days.

(** ** Leap seconds *)

(** The table as (second, offset) pairs. *)
Definition leap_points : list (Z * Z) := map (fun '(y, m, d, v) => (days_from_civil y m d * SECONDS_PER_DAY, v)) LEAP_SECONDS.
Fixpoint point_loop (l : list (Z * Z)) (u off : Z) : Z :=
  match l with [] => off | (t, v) :: l' => if t <=? u then point_loop l' u v else off end.
Lemma leap_loop_points l u off :
  leap_loop l u off = point_loop (map (fun '(y, m, d, v) => (days_from_civil y m d * SECONDS_PER_DAY, v)) l) u off.
Proof.
  revert off. induction l as [|[[[y m] d] v] l IH]; intros off; [reflexivity|]. cbn [map leap_loop point_loop].
  destruct (_ <=? u); [apply IH|reflexivity].
Qed.
(** Offsets grow by at most one second, and changes are at least 100 seconds apart. *)
Fixpoint spaced (l : list (Z * Z)) (off : Z) : bool :=
  match l with
  | [] => true
  | (t, v) :: l' => (off <=? v) && (v <=? off + 1) && (v <=? 40) &&
                    match l' with [] => true | (t', _) :: _ => t + 100 <=? t' end && spaced l' v
  end.
Lemma spaced_points : spaced leap_points 10 = true.
Proof. vm_compute. reflexivity. Qed.
Lemma spaced_step l off : spaced l off = true -> off <= 40 -> forall x y, x <= y <= x + 50 ->
  point_loop l x off <= point_loop l y off <= point_loop l x off + 1 /\ off <= point_loop l x off <= 40 /\
  (point_loop l y off = point_loop l x off + 1 -> point_loop l (x - 1) off = point_loop l x off).
Proof.
  revert off. induction l as [|[t v] l IH]; intros off S Ho x y H; [simpl; lia|].
  cbn [spaced] in S. rewrite !andb_true_iff, !Z.leb_le in S. destruct S as [[[[S1 S2] S3] S4] S5].
  specialize (IH v S5 S3 x y H). cbn [point_loop].
  assert (Fl : forall z, t <= z < t + 100 -> point_loop l z v = v).
  { intros z Hz. destruct l as [|[t' v'] l]; [reflexivity|]. cbn [point_loop]. apply Z.leb_le in S4. destruct (Z.leb_spec t' z); [lia|reflexivity]. }
  destruct (Z.leb_spec t x) as [Hx|Hx], (Z.leb_spec t y) as [Hy|Hy]; try lia.
  - destruct IH as (I1 & I2 & I3). split; [exact I1|]. split; [lia|]. intros E. destruct (Z.leb_spec t (x - 1)) as [H1|H1]; [auto|].
    exfalso. rewrite (Fl x), (Fl y) in E by lia. lia.
  - rewrite (Fl y) by lia. split; [lia|]. split; [lia|]. intros _. destruct (Z.leb_spec t (x - 1)); [lia|reflexivity].
Qed.
Lemma tai_loop u : tai_minus_utc u = point_loop leap_points u 10.
Proof. apply leap_loop_points. Qed.
Lemma tai_step x y : x <= y <= x + 50 ->
  tai_minus_utc x <= tai_minus_utc y <= tai_minus_utc x + 1 /\ 10 <= tai_minus_utc x <= 40 /\
  (tai_minus_utc y = tai_minus_utc x + 1 -> tai_minus_utc (x - 1) = tai_minus_utc x).
Proof. intros H. rewrite !tai_loop. exact (spaced_step _ _ spaced_points ltac:(lia) x y H). Qed.
Lemma tai_back u : tai_to_unix_seconds (unix_to_tai_seconds u) = u.
Proof.
  unfold tai_to_unix_seconds, unix_to_tai_seconds. cbv zeta. set (f := tai_minus_utc u).
  assert (Hf : 10 <= f <= 40) by apply (tai_step u u ltac:(lia)).
  destruct (tai_step u (u + f) ltac:(lia)) as (I & _ & J). fold f in I, J.
  destruct (Z.eq_dec (tai_minus_utc (u + f)) f) as [E|N].
  - rewrite E. replace (u + f - f) with u by lia. fold f. replace (u + f - f) with u by lia. fold f. lia.
  - assert (E : tai_minus_utc (u + f) = f + 1) by lia. specialize (J E). rewrite E.
    replace (u + f - (f + 1)) with (u - 1) by lia. rewrite J. replace (u + f - f) with u by lia. fold f. lia.
Qed.
Lemma tt_back ns : unix_nanos_from_tt_nanos (tt_nanos_from_unix_nanos ns) = ns.
Proof.
  unfold unix_nanos_from_tt_nanos, tt_nanos_from_unix_nanos, tai_nanos_from_unix_nanos. cbv zeta.
  set (s := ns / NANOS_PER_SECOND).
  replace (ns + tai_minus_utc s * NANOS_PER_SECOND + TT_MINUS_TAI_NANOS - TT_MINUS_TAI_NANOS) with (ns + tai_minus_utc s * NANOS_PER_SECOND) by lia.
  rewrite Z.div_add by discriminate. fold s. change (s + tai_minus_utc s) with (unix_to_tai_seconds s). rewrite tai_back. lia.
Qed.

(** ** Hybrid clocks *)

Definition u32_max : Z := 2 ^ 32 - 1.
Lemma inc32_lt x : 0 <= x < u32_max -> inc32 x = x + 1.
Proof. intros H. unfold inc32, u32_max in *. apply Z.mod_small. lia. Qed.

Lemma tick_later s now : 0 <= h_log s < u32_max -> hlc_lt s (hlc_tick s now) /\ now <= h_phys (hlc_tick s now).
Proof.
  intros H. unfold hlc_tick, hlc_lt; simpl. rewrite (inc32_lt _ H). destruct (Z.eqb_spec (Z.max (h_phys s) now) (h_phys s)); lia.
Qed.
Lemma recv_later s r now : 0 <= h_log s < u32_max -> 0 <= h_log r < u32_max ->
  hlc_lt s (hlc_recv s r now) /\ hlc_lt r (hlc_recv s r now) /\ now <= h_phys (hlc_recv s r now).
Proof.
  intros Hs Hr. unfold hlc_recv, hlc_lt; simpl. rewrite !inc32_lt by lia.
  destruct (Z.eqb_spec (Z.max (Z.max (h_phys s) (h_phys r)) now) (h_phys s)),
    (Z.eqb_spec (Z.max (Z.max (h_phys s) (h_phys r)) now) (h_phys r)); simpl; lia.
Qed.
Lemma hlc_lt_trans a b c : hlc_lt a b -> hlc_lt b c -> hlc_lt a c.
Proof. unfold hlc_lt. lia. Qed.
Lemma hlc_eq a b : h_phys a = h_phys b -> h_log a = h_log b -> a = b.
Proof. destruct a, b; simpl; intros -> ->; reflexivity. Qed.
Lemma hlc_leb_spec a b : hlc_leb a b = true <-> hlc_lt a b \/ a = b.
Proof.
  unfold hlc_leb, hlc_lt. rewrite orb_true_iff, andb_true_iff, Z.ltb_lt, Z.eqb_eq, Z.leb_le. split.
  - intros [H|[E H]]; [lia|]. destruct (Z.eq_dec (h_log a) (h_log b)); [right; now apply hlc_eq|lia].
  - intros [H| ->]; lia.
Qed.
Lemma hlc_total a b : hlc_lt a b \/ a = b \/ hlc_lt b a.
Proof.
  unfold hlc_lt. destruct (Z.lt_trichotomy (h_phys a) (h_phys b)) as [|[E|]]; [lia| |lia].
  destruct (Z.lt_trichotomy (h_log a) (h_log b)) as [|[F|]]; [lia| |lia]. right; left. now apply hlc_eq.
Qed.
Lemma hlc_lt_irrefl a : ~ hlc_lt a a.
Proof. unfold hlc_lt. lia. Qed.
Lemma hlc_max_spec a b : (hlc_max a b = b /\ (hlc_lt a b \/ a = b)) \/ (hlc_max a b = a /\ hlc_lt b a).
Proof.
  unfold hlc_max. destruct (hlc_leb a b) eqn:E; [left; split; [reflexivity|now apply hlc_leb_spec]|right; split; [reflexivity|]].
  destruct (hlc_total a b) as [H|[H|H]]; [| |exact H]; exfalso; assert (hlc_leb a b = true) by (apply hlc_leb_spec; auto); congruence.
Qed.
Lemma hlc_max_comm a b : hlc_max a b = hlc_max b a.
Proof.
  destruct (hlc_max_spec a b) as [[-> H]|[-> H]], (hlc_max_spec b a) as [[-> K]|[-> K]]; try reflexivity.
  - destruct H as [H| ->], K as [K|K]; try congruence. destruct (hlc_lt_irrefl a). exact (hlc_lt_trans _ _ _ H K).
  - destruct (hlc_lt_irrefl a). exact (hlc_lt_trans _ _ _ K H).
Qed.
Definition hlc_le (a b : hlc) : Prop := hlc_lt a b \/ a = b.
Lemma hlc_le_trans a b c : hlc_le a b -> hlc_le b c -> hlc_le a c.
Proof. intros [H| ->] [K| ->]; [left; exact (hlc_lt_trans _ _ _ H K)|now left|now left|now right]. Qed.
Lemma hlc_le_anti a b : hlc_le a b -> hlc_le b a -> a = b.
Proof. intros [H| ->] [K|K]; auto. destruct (hlc_lt_irrefl a). exact (hlc_lt_trans _ _ _ H K). Qed.
Lemma hlc_max_ge a b : hlc_le a (hlc_max a b) /\ hlc_le b (hlc_max a b).
Proof. unfold hlc_le. destruct (hlc_max_spec a b) as [[-> H]|[-> H]]; tauto. Qed.
Lemma hlc_max_least a b c : hlc_le a c -> hlc_le b c -> hlc_le (hlc_max a b) c.
Proof. intros H K. destruct (hlc_max_spec a b) as [[-> _]|[-> _]]; assumption. Qed.
Lemma hlc_max_assoc a b c : hlc_max (hlc_max a b) c = hlc_max a (hlc_max b c).
Proof.
  destruct (hlc_max_ge a b), (hlc_max_ge b c), (hlc_max_ge (hlc_max a b) c), (hlc_max_ge a (hlc_max b c)).
  apply hlc_le_anti; repeat apply hlc_max_least; eauto using hlc_le_trans.
Qed.
Lemma hlc_max_idem a : hlc_max a a = a.
Proof. destruct (hlc_max_spec a a) as [[-> _]|[-> _]]; reflexivity. Qed.
Lemma intersect_comm a b : i_intersect a b = i_intersect b a.
Proof. unfold i_intersect. f_equal; lia. Qed.
Lemma intersect_assoc a b c : i_intersect (i_intersect a b) c = i_intersect a (i_intersect b c).
Proof. unfold i_intersect; simpl. f_equal; lia. Qed.
Lemma intersect_idem a : i_intersect a a = a.
Proof. destruct a. unfold i_intersect; simpl. f_equal; lia. Qed.
Lemma intersect_contains a b t : i_contains (i_intersect a b) t = i_contains a t && i_contains b t.
Proof.
  unfold i_contains, i_intersect; simpl. apply eq_true_iff_eq. rewrite !andb_true_iff, !Z.leb_le. lia.
Qed.

Lemma sc_eq a b : sc_hlc a = sc_hlc b -> sc_know a = sc_know b -> a = b.
Proof. destruct a, b; simpl; intros -> ->; reflexivity. Qed.
Lemma merge_comm a b : sc_merge a b = sc_merge b a.
Proof.
  apply sc_eq; simpl; [apply hlc_max_comm|]. apply map_eq. intros n. rewrite !lookup_union_with.
  destruct (sc_know a !! n), (sc_know b !! n); simpl; try reflexivity. now rewrite intersect_comm.
Qed.
Lemma merge_assoc a b c : sc_merge (sc_merge a b) c = sc_merge a (sc_merge b c).
Proof.
  apply sc_eq; simpl; [apply hlc_max_assoc|]. apply map_eq. intros n. rewrite !lookup_union_with.
  destruct (sc_know a !! n), (sc_know b !! n), (sc_know c !! n); simpl; try reflexivity. now rewrite intersect_assoc.
Qed.
Lemma merge_idem a : sc_merge a a = a.
Proof.
  apply sc_eq; simpl; [apply hlc_max_idem|]. apply map_eq. intros n. rewrite lookup_union_with.
  destruct (sc_know a !! n); simpl; [|reflexivity]. now rewrite intersect_idem.
Qed.
