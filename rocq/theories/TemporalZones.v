(** Time zones: local time and back, and daylight-saving rules. *)
From Coq Require Import ZArith List Bool Lia.
From stdpp Require Import gmap.
From Verif Require Import StableSort TemporalModel CalendarProofs CalendarWeeks TemporalProofs TemporalClocks.
Import ListNotations.
Local Open Scope Z_scope.

Implicit Types (ts : list transition).

(** ** Candidate offsets *)

Lemma offset_loop_in ts secs off : offset_loop ts secs off = off \/ exists t, t ∈ ts /\ z_off t = offset_loop ts secs off.
Proof.
  revert off. induction ts as [|t ts IH]; intros off; [now left|]. cbn [offset_loop]. destruct (z_at t <=? secs); [|now left].
  right. destruct (IH (z_off t)) as [->|(u & Hu & Eu)]; [exists t; split; [left|reflexivity]|exists u; split; [now right|exact Eu]].
Qed.
Lemma existsb_mem x l : existsb (Z.eqb x) l = true <-> x ∈ l.
Proof.
  rewrite existsb_exists. split; [intros (y & Hy & E); apply Z.eqb_eq in E as ->; now apply elem_of_list_In|].
  intros H. exists x. split; [now apply elem_of_list_In|apply Z.eqb_refl].
Qed.
Lemma zone_offsets_spec ts base x : x ∈ zone_offsets ts base <-> x = base \/ exists t, t ∈ ts /\ z_off t = x.
Proof.
  unfold zone_offsets.
  assert (G : forall acc, x ∈ fold_left (fun acc t => if existsb (Z.eqb (z_off t)) acc then acc else acc ++ [z_off t]) ts acc
    <-> x ∈ acc \/ exists t, t ∈ ts /\ z_off t = x).
  { induction ts as [|t ts IH]; intros acc; simpl.
    - split; [auto|]. intros [H|(t & H & _)]; [exact H|]. now apply elem_of_nil in H.
    - rewrite IH. assert (X : x ∈ (if existsb (Z.eqb (z_off t)) acc then acc else acc ++ [z_off t]) <-> x ∈ acc \/ z_off t = x).
      { destruct (existsb (Z.eqb (z_off t)) acc) eqn:E.
        - apply existsb_mem in E. split; [auto|]. intros [H|<-]; assumption.
        - rewrite elem_of_app, elem_of_list_singleton. split; intros [H|H]; auto. }
      rewrite X. split.
      + intros [[H|H]|(u & Hu & E)]; [auto| |].
        * right. exists t. split; [left|exact H].
        * right. exists u. split; [now right|exact E].
      + intros [H|(u & Hu & E)]; [auto|]. apply elem_of_cons in Hu as [->|Hu]; [auto|]. right. now exists u. }
  rewrite G, elem_of_list_singleton. tauto.
Qed.
Lemma offset_candidate ts base ns : offset_at ts base ns ∈ zone_offsets ts base.
Proof. apply zone_offsets_spec. unfold offset_at. destruct (offset_loop_in ts (ns / NANOS_PER_SECOND) base) as [->|H]; auto. Qed.

(** ** Sorting and deduplication of instants *)

Lemma zle_ordered l : ordered Z.leb (sort_by Z.leb l).
Proof.
  apply sort_by_ordered.
  - intros a b. rewrite !Z.leb_le. lia.
  - intros a b c. rewrite !Z.leb_le. lia.
Qed.
Lemma elem_of_dedup x l : x ∈ dedup l <-> x ∈ l.
Proof.
  induction l as [|y l IH]; [reflexivity|]. cbn [dedup]. destruct (dedup l) as [|z r] eqn:E.
  - rewrite elem_of_list_singleton, elem_of_cons, <- IH. split; [auto|]. intros [H|H]; [exact H|]. now apply elem_of_nil in H.
  - destruct (Z.eqb_spec y z) as [->|N].
    + rewrite (elem_of_cons l), <- IH. split; [auto|]. intros [->|H]; [left|exact H].
    + rewrite elem_of_cons, (elem_of_cons l), <- IH. reflexivity.
Qed.
Lemma dedup_ordered l : ordered Z.leb l -> ordered Z.leb (dedup l).
Proof.
  induction 1 as [|y l S IH F]; [constructor|]. cbn [dedup]. rewrite Forall_forall in F.
  assert (F' : Forall (fun b => (y <=? b) = true) (dedup l)) by (apply Forall_forall; intros b Hb; apply F, elem_of_dedup, Hb).
  destruct (dedup l) as [|z r]; [repeat constructor|]. destruct (y =? z); [exact IH|]. constructor; assumption.
Qed.
Lemma last_elem (l : list Z) : l <> [] -> List.last l 0 ∈ l.
Proof.
  induction l as [|x l IH]; [congruence|]. intros _. destruct l as [|y l]; [left|]. right. apply IH. discriminate.
Qed.
Lemma ordered_last l x : ordered Z.leb l -> x ∈ l -> x <= List.last l 0.
Proof.
  induction 1 as [|y l S IH F]; intros Hx; [now apply elem_of_nil in Hx|]. rewrite Forall_forall in F.
  destruct l as [|z l]; [apply elem_of_list_singleton in Hx; simpl; lia|].
  change (List.last (y :: z :: l) 0) with (List.last (z :: l) 0). apply elem_of_cons in Hx as [->|Hx]; [|auto].
  assert (H := F _ (last_elem (z :: l) ltac:(discriminate))). apply Z.leb_le in H. exact H.
Qed.
Lemma ordered_head l x : ordered Z.leb l -> x ∈ l -> List.hd 0 l <= x.
Proof.
  intros S Hx. destruct S as [|y l S F]; [now apply elem_of_nil in Hx|]. rewrite Forall_forall in F. simpl.
  apply elem_of_cons in Hx as [->|Hx]; [lia|]. specialize (F _ Hx). apply Z.leb_le in F. exact F.
Qed.
Lemma head_elem (l : list Z) : l <> [] -> List.hd 0 l ∈ l.
Proof. destruct l; [congruence|]. intros _. left. Qed.

(** ** Instants with a given local time *)

Definition local_nanos ts (base ns : Z) : Z := ns + offset_at ts base ns * NANOS_PER_SECOND.
Definition valid_instants ts (base : Z) (local_ns : Z) : list Z :=
  dedup (sort_by Z.leb (map (fun o => local_ns - o * NANOS_PER_SECOND)
    (List.filter (fun o => offset_at ts base (local_ns - o * NANOS_PER_SECOND) =? o) (zone_offsets ts base)))).
Lemma valid_instants_spec ts base L ns : ns ∈ valid_instants ts base L <-> local_nanos ts base ns = L.
Proof.
  unfold valid_instants, local_nanos. rewrite elem_of_dedup, elem_of_sort_by, elem_of_list_In, in_map_iff. split.
  - intros (o & E & H). apply filter_In in H as [_ H]. apply Z.eqb_eq in H. rewrite <- E, H. lia.
  - intros E. exists (offset_at ts base ns). assert (E' : L - offset_at ts base ns * NANOS_PER_SECOND = ns) by lia.
    split; [exact E'|]. apply filter_In. split; [apply elem_of_list_In, offset_candidate|]. apply Z.eqb_eq. now rewrite E'.
Qed.
Lemma valid_instants_ordered ts base L : ordered Z.leb (valid_instants ts base L).
Proof. apply dedup_ordered, zle_ordered. Qed.
Lemma from_local_valid ts base c f : valid_instants ts base (unix_nanos_from_civil c) <> [] ->
  from_local ts base c f = match f with
    | Earlier => List.hd 0 (valid_instants ts base (unix_nanos_from_civil c))
    | Later => List.last (valid_instants ts base (unix_nanos_from_civil c)) 0 end.
Proof.
  unfold from_local, valid_instants. cbv zeta. set (v := dedup _). intros H. destruct v as [|x [|y r]]; [congruence| |]; destruct f; reflexivity.
Qed.
Lemma from_local_gap ts base c f : valid_instants ts base (unix_nanos_from_civil c) = [] ->
  from_local ts base c f =
  let cands := sort_by Z.leb (map (fun o => unix_nanos_from_civil c - o * NANOS_PER_SECOND) (zone_offsets ts base)) in
  match f with Earlier => List.hd 0 cands | Later => List.last cands 0 end.
Proof. unfold from_local, valid_instants. cbv zeta. intros ->. reflexivity. Qed.

Lemma to_local_nanos ts base ns c : valid_civil c -> to_local ts base ns = c <-> local_nanos ts base ns = unix_nanos_from_civil c.
Proof.
  intros V. unfold to_local. fold (local_nanos ts base ns). split.
  - intros <-. now rewrite nanos_back.
  - intros ->. now apply civil_back.
Qed.

(** When some instant shows local time [c], [from_local] returns the first or the last such. *)
Lemma from_local_facts ts base c ns : to_local ts base ns = c ->
  to_local ts base (from_local ts base c Earlier) = c /\ to_local ts base (from_local ts base c Later) = c /\
  from_local ts base c Earlier <= ns <= from_local ts base c Later.
Proof.
  intros H. assert (V : valid_civil c) by (rewrite <- H; apply (from_nanos_facts (ns + offset_at ts base ns * NANOS_PER_SECOND))).
  pose proof H as L. apply (to_local_nanos _ _ _ _ V) in L. apply valid_instants_spec in L.
  assert (N : valid_instants ts base (unix_nanos_from_civil c) <> []) by (intros E; rewrite E in L; now apply elem_of_nil in L).
  rewrite !from_local_valid by exact N. split; [|split].
  - apply (to_local_nanos _ _ _ _ V), valid_instants_spec, head_elem, N.
  - apply (to_local_nanos _ _ _ _ V), valid_instants_spec, last_elem, N.
  - split; [apply ordered_head|apply ordered_last]; try exact L; apply valid_instants_ordered.
Qed.

(** In a gap the largest and the smallest offset of the zone decide. *)
Lemma gap_facts ts base c : valid_civil c -> (forall ns, to_local ts base ns <> c) ->
  exists hi lo, hi ∈ zone_offsets ts base /\ lo ∈ zone_offsets ts base /\
    (forall o, o ∈ zone_offsets ts base -> lo <= o <= hi) /\
    from_local ts base c Earlier = unix_nanos_from_civil c - hi * NANOS_PER_SECOND /\
    from_local ts base c Later = unix_nanos_from_civil c - lo * NANOS_PER_SECOND.
Proof.
  intros V G. assert (E : valid_instants ts base (unix_nanos_from_civil c) = []).
  { destruct (valid_instants ts base (unix_nanos_from_civil c)) as [|x l] eqn:E; [reflexivity|exfalso].
    apply (G x). apply (to_local_nanos _ _ _ _ V), valid_instants_spec. rewrite E. left. }
  rewrite !from_local_gap by exact E. cbv zeta. set (L := unix_nanos_from_civil c).
  set (cands := sort_by Z.leb (map (fun o => L - o * NANOS_PER_SECOND) (zone_offsets ts base))).
  assert (M : forall x, x ∈ cands <-> exists o, o ∈ zone_offsets ts base /\ x = L - o * NANOS_PER_SECOND).
  { intros x. unfold cands. rewrite elem_of_sort_by, elem_of_list_In, in_map_iff. split.
    - intros (o & <- & H). exists o. split; [now apply elem_of_list_In|reflexivity].
    - intros (o & H & ->). exists o. split; [reflexivity|now apply elem_of_list_In]. }
  assert (N : cands <> []).
  { intros Z0. assert (X : L - base * NANOS_PER_SECOND ∈ cands) by (apply M; exists base; split; [apply zone_offsets_spec; now left|reflexivity]).
    rewrite Z0 in X. now apply elem_of_nil in X. }
  pose proof (head_elem _ N) as Hh. pose proof (last_elem _ N) as Hl. apply M in Hh as (hi & Hhi & Ehi). apply M in Hl as (lo & Hlo & Elo).
  exists hi, lo. split; [exact Hhi|]. split; [exact Hlo|]. split; [|split; [exact Ehi|exact Elo]].
  intros o Ho. assert (X : L - o * NANOS_PER_SECOND ∈ cands) by (apply M; now exists o).
  assert (O : ordered Z.leb cands) by apply zle_ordered.
  pose proof (ordered_head _ _ O X). pose proof (ordered_last _ _ O X). unfold NANOS_PER_SECOND in *. lia.
Qed.

(** ** Daylight-saving rules *)

Lemma back_spec fuel day last : 7 <= last -> day <= last + 7 * Z.of_nat fuel ->
  exists k, 0 <= k /\ back_to_month fuel day last = day - 7 * k /\ day - 7 * k <= last /\ (0 < k -> last < day - 7 * (k - 1)).
Proof.
  intros Hl. revert day. induction fuel as [|fuel IH]; intros day H.
  - exists 0. simpl. lia.
  - cbn [back_to_month]. destruct (Z.ltb_spec last day) as [L|G].
    + destruct (IH (day - 7) ltac:(lia)) as (k & K0 & E & B & F). exists (k + 1). split; [lia|]. split; [rewrite E; lia|]. split; [lia|].
      intros _. destruct (Z.eq_dec k 0) as [->|]; [lia|]. specialize (F ltac:(lia)). lia.
    + exists 0. lia.
Qed.
Lemma days_in_month y m d : days_from_civil y m d = days_from_civil y m 1 + (d - 1).
Proof. unfold days_from_civil. lia. Qed.
Lemma weekday_shift z k : weekday_from_days (z + 7 * k) = weekday_from_days z.
Proof. unfold weekday_from_days. replace (z + 7 * k + 4) with (z + 4 + k * 7) by lia. now rewrite Z.mod_add by lia. Qed.

Lemma nth_weekday_facts y m w wd : 1 <= m <= 12 -> 1 <= w <= 5 -> 0 <= wd < 7 ->
  let d := nth_weekday_of_month y m w wd in
  1 <= d <= month_length y m /\ weekday_from_days (days_from_civil y m d) = wd /\
  ((w <= 4 /\ 7 * (w - 1) < d <= 7 * w) \/ (w = 5 /\ month_length y m < d + 7)).
Proof.
  intros Hm Hw Hwd d. unfold d, nth_weekday_of_month. cbv zeta. rewrite last_day_spec by exact Hm.
  set (first := days_from_civil y m 1). set (fw := weekday_from_days first). set (len := month_length y m).
  assert (Hfw : 0 <= fw < 7) by (apply Z.mod_pos_bound; lia).
  assert (Hlen : 28 <= len <= 31) by (split; [apply month_length_ge|apply month_length_le]).
  rewrite Z.rem_mod_nonneg by lia. set (tf := (wd + 7 - fw) mod 7). assert (Htf : 0 <= tf < 7) by (apply Z.mod_pos_bound; lia).
  destruct (back_spec 6 (1 + tf + (w - 1) * 7) len ltac:(lia) ltac:(lia)) as (k & K0 & E & B & F). rewrite E.
  assert (K1 : k <= 1).
  { destruct (Z.le_gt_cases k 1) as [|G]; [assumption|]. specialize (F ltac:(lia)). lia. }
  split; [lia|]. split.
  - rewrite days_in_month. fold first. replace (first + (1 + tf + (w - 1) * 7 - 7 * k - 1)) with (first + tf + 7 * (w - 1 - k)) by lia.
    rewrite weekday_shift. unfold weekday_from_days in *. unfold tf, fw.
    replace (first + (wd + 7 - (first + 4) mod 7) mod 7 + 4) with (first + 4 + (wd + 7 - (first + 4) mod 7) mod 7) by lia.
    rewrite Z.add_mod_idemp_r by lia. replace (first + 4 + (wd + 7 - (first + 4) mod 7)) with (wd + ((first + 4 - (first + 4) mod 7) + 7)) by lia.
    pose proof (Z.div_mod (first + 4) 7 ltac:(lia)) as DM.
    replace (first + 4 - (first + 4) mod 7 + 7) with (((first + 4) / 7 + 1) * 7) by lia. rewrite Z.mod_add by lia. now apply Z.mod_small.
  - destruct (Z.eq_dec w 5) as [->|N].
    + right. split; [reflexivity|]. destruct (Z.eq_dec k 0) as [->|]; [lia|]. specialize (F ltac:(lia)). lia.
    + left. split; [lia|]. assert (k = 0) as ->; [|lia]. destruct (Z.eq_dec k 0) as [|]; [assumption|]. specialize (F ltac:(lia)). lia.
Qed.

(** First days of months. *)
Lemma month_step y m : 1 <= m < 12 -> days_from_civil y (m + 1) 1 = days_from_civil y m 1 + month_length y m.
Proof.
  intros Hm. pose proof (month_length_ge y m).
  assert (V : valid_date (y, m, month_length y m)) by (split; cbn [fst snd]; lia).
  pose proof (days_next _ V) as D. cbv zeta in D. unfold next_date in D. rewrite Z.ltb_irrefl in D.
  destruct (Z.ltb_spec m 12); [|lia]. cbn [fst snd] in D. rewrite D, (days_in_month y m (month_length y m)). lia.
Qed.
Lemma year_step y : days_from_civil (y + 1) 1 1 = days_from_civil y 12 1 + 31.
Proof.
  assert (V : valid_date (y, 12, 31)) by (split; cbn [fst snd]; [lia|change (month_length y 12) with 31; lia]).
  pose proof (days_next _ V) as D. cbv zeta in D. unfold next_date in D. change (month_length y 12) with 31 in D. simpl in D.
  rewrite D, (days_in_month y 12 31). lia.
Qed.
Lemma month_firsts y m n : 1 <= m -> m + Z.of_nat n <= 12 -> days_from_civil y m 1 + 28 * Z.of_nat n <= days_from_civil y (m + Z.of_nat n) 1.
Proof.
  intros Hm. induction n as [|n IH]; intros H; [replace (m + Z.of_nat 0) with m by lia; lia|].
  replace (m + Z.of_nat (S n)) with (m + Z.of_nat n + 1) by lia. rewrite month_step by lia.
  pose proof (month_length_ge y (m + Z.of_nat n)). specialize (IH ltac:(lia)). lia.
Qed.
Lemma month_firsts_le y m m' : 1 <= m -> m <= m' <= 12 -> days_from_civil y m 1 + 28 * (m' - m) <= days_from_civil y m' 1.
Proof. intros H H'. pose proof (month_firsts y m (Z.to_nat (m' - m)) H ltac:(lia)) as F. replace (m + Z.of_nat (Z.to_nat (m' - m))) with m' in F by lia. lia. Qed.

(** Rules that change the clocks well inside the year. *)
Definition sane_rule (pre : Z) (r : dst_rule) : Prop :=
  2 <= r_month r <= 11 /\ 1 <= r_week r <= 5 /\ 0 <= r_weekday r < 7 /\ - SECONDS_PER_DAY <= r_time r - pre <= SECONDS_PER_DAY.
Definition sane_zone (std dst : Z) (s e : dst_rule) : Prop :=
  sane_rule std s /\ sane_rule dst e /\ (r_month s + 2 <= r_month e \/ r_month e + 2 <= r_month s).

Lemma transition_bounds y r pre new : sane_rule pre r ->
  let first := days_from_civil y (r_month r) 1 * SECONDS_PER_DAY in
  first - SECONDS_PER_DAY <= z_at (dst_transition y r pre new) <= first + month_length y (r_month r) * SECONDS_PER_DAY.
Proof.
  intros (Hm & Hw & Hd & Ht) first. unfold dst_transition; cbn [z_at]. cbv zeta.
  destruct (nth_weekday_facts y (r_month r) (r_week r) (r_weekday r) ltac:(lia) Hw Hd) as (B & _ & _). cbv zeta in B.
  rewrite days_in_month. unfold first. unfold SECONDS_PER_DAY in *. lia.
Qed.
Lemma transition_in_year y r pre new : sane_rule pre r ->
  days_from_civil y 1 1 * SECONDS_PER_DAY <= z_at (dst_transition y r pre new) < days_from_civil (y + 1) 1 1 * SECONDS_PER_DAY.
Proof.
  intros S. pose proof (transition_bounds y r pre new S) as B. cbv zeta in B. destruct S as (Hm & _).
  pose proof (month_firsts_le y 1 (r_month r) ltac:(lia) ltac:(lia)).
  pose proof (month_step y (r_month r) ltac:(lia)). pose proof (month_firsts_le y (r_month r + 1) 12 ltac:(lia) ltac:(lia)).
  pose proof (year_step y). unfold SECONDS_PER_DAY in *. lia.
Qed.
Lemma transitions_distinct y std dst s e : sane_zone std dst s e ->
  z_at (dst_transition y s std dst) <> z_at (dst_transition y e dst std).
Proof.
  intros (Ss & Se & H). pose proof (transition_bounds y s std dst Ss) as Bs. pose proof (transition_bounds y e dst std Se) as Be.
  cbv zeta in *. destruct Ss as (Hs & _), Se as (He & _). destruct H as [H|H].
  - pose proof (month_step y (r_month s) ltac:(lia)). pose proof (month_firsts_le y (r_month s + 1) (r_month e) ltac:(lia) ltac:(lia)).
    unfold SECONDS_PER_DAY in *. lia.
  - pose proof (month_step y (r_month e) ltac:(lia)). pose proof (month_firsts_le y (r_month e + 1) (r_month s) ltac:(lia) ltac:(lia)).
    unfold SECONDS_PER_DAY in *. lia.
Qed.

(** The offset in effect is that of the latest transition at or before the instant. *)
Lemma offset_latest ts secs base t : ordered (fun a b => z_at a <=? z_at b) ts -> t ∈ ts -> z_at t <= secs ->
  (forall u, u ∈ ts -> z_at u <= secs -> z_at u < z_at t \/ u = t) -> offset_loop ts secs base = z_off t.
Proof.
  intros S. revert base. induction S as [|x ts S IH F]; intros base Ht Hs L; [now apply elem_of_nil in Ht|].
  rewrite Forall_forall in F. cbn [offset_loop]. apply elem_of_cons in Ht as [->|Ht].
  - destruct (Z.leb_spec (z_at x) secs); [|lia].
    (* every later entry at or before [secs] equals [x] *)
    assert (G : forall off l, (forall u, u ∈ l -> z_at u <= secs -> u = x) -> off = z_off x -> offset_loop l secs off = z_off x).
    { intros off l. revert off. induction l as [|u l IHl]; intros off Hl Ho; [exact Ho|]. cbn [offset_loop].
      destruct (Z.leb_spec (z_at u) secs); [|exact Ho]. apply IHl; [intros v Hv; apply Hl; now right|]. rewrite (Hl u); [reflexivity|left|assumption]. }
    apply G; [|reflexivity]. intros u Hu Hus. specialize (F u Hu). apply Z.leb_le in F.
    destruct (L u ltac:(now right) Hus) as [C|C]; [lia|exact C].
  - destruct (Z.leb_spec (z_at x) secs) as [X|X].
    + apply IH; [exact Ht|exact Hs|]. intros u Hu. apply L. now right.
    + exfalso. specialize (F t Ht). apply Z.leb_le in F. lia.
Qed.
Lemma year_transitions_elem n std dst s e y t : t ∈ year_transitions n std dst s e y <->
  exists y', y <= y' < y + Z.of_nat n /\ (t = dst_transition y' s std dst \/ t = dst_transition y' e dst std).
Proof.
  revert y. induction n as [|n IH]; intros y; cbn [year_transitions].
  - split; [intros H; now apply elem_of_nil in H|]. intros (y' & H & _). lia.
  - unfold dst_transitions_for_year. cbn [app]. rewrite !elem_of_cons, IH. split.
    + intros [->|[->|(y' & H & K)]]; [exists y; split; [lia|auto]|exists y; split; [lia|auto]|exists y'; split; [lia|exact K]].
    + intros (y' & H & K). destruct (Z.eq_dec y' y) as [->|N]; [tauto|]. right; right. exists y'. split; [lia|exact K].
Qed.

(** The instant's UTC year. *)
Definition utc_year (ns : Z) : Z := (civil_from_days (ns / NANOS_PER_DAY)).1.1.
Lemma utc_year_bracket ns : days_from_civil (utc_year ns) 1 1 * SECONDS_PER_DAY <= ns / NANOS_PER_SECOND < days_from_civil (utc_year ns + 1) 1 1 * SECONDS_PER_DAY.
Proof.
  pose proof (year_bracket (ns / NANOS_PER_DAY)) as B. cbv zeta in B. fold (utc_year ns) in B.
  assert (E : ns / NANOS_PER_DAY = ns / NANOS_PER_SECOND / SECONDS_PER_DAY).
  { unfold NANOS_PER_DAY. rewrite Z.mul_comm. now rewrite Z.div_div by (unfold NANOS_PER_SECOND, SECONDS_PER_DAY; lia). }
  rewrite E in B. set (s := ns / NANOS_PER_SECOND) in *.
  pose proof (Z.div_mod s SECONDS_PER_DAY ltac:(discriminate)). pose proof (Z.mod_pos_bound s SECONDS_PER_DAY ltac:(reflexivity)).
  unfold SECONDS_PER_DAY in *. lia.
Qed.
Lemma jan1_mono a b : a <= b -> days_from_civil a 1 1 <= days_from_civil b 1 1.
Proof.
  intros H. destruct (Z.eq_dec a b) as [->|N]; [lia|].
  assert (V1 : forall x, valid_date (x, 1, 1)) by (intros w; split; cbn [fst snd]; [lia|pose proof (month_length_ge w 1); lia]).
  apply Z.lt_le_incl. apply (days_lt _ _ _ _ _ _ (V1 a) (V1 b)). unfold date_lt; cbn [fst snd]. lia.
Qed.

Section Rules.
  Variables (std dst : Z) (s e : dst_rule).
  Hypothesis sane : sane_zone std dst s e.
  Let S' (y : Z) : Z := z_at (dst_transition y s std dst).
  Let E' (y : Z) : Z := z_at (dst_transition y e dst std).

  Lemma spring_in_year y : days_from_civil y 1 1 * SECONDS_PER_DAY <= S' y < days_from_civil (y + 1) 1 1 * SECONDS_PER_DAY.
  Proof. apply transition_in_year, sane. Qed.
  Lemma fall_in_year y : days_from_civil y 1 1 * SECONDS_PER_DAY <= E' y < days_from_civil (y + 1) 1 1 * SECONDS_PER_DAY.
  Proof. apply transition_in_year, sane. Qed.

  Definition window (y : Z) : list transition := zs_transitions (dst_zone std dst s e) (y - 1) (y + 1).
  Lemma window_elem y t : t ∈ window y <-> exists y', y - 1 <= y' <= y + 1 /\ (t = dst_transition y' s std dst \/ t = dst_transition y' e dst std).
  Proof.
    unfold window, zs_transitions, dst_zone. cbn [zs_dst zs_std]. rewrite elem_of_sort_by, year_transitions_elem.
    split; intros (y' & H & K); exists y'; (split; [lia|exact K]).
  Qed.
  Lemma window_ordered y : ordered (fun a b => z_at a <=? z_at b) (window y).
  Proof. apply sort_by_ordered; intros *; rewrite !Z.leb_le; lia. Qed.

  (** Clocks are forward at [secs] when the last change at or before it was a spring change. *)
  Definition forward (secs : Z) : Prop := exists y, S' y <= secs /\ forall y', E' y' <= secs -> E' y' < S' y.
  Definition back (secs : Z) : Prop := exists y, E' y <= secs /\ forall y', S' y' <= secs -> S' y' < E' y.

  Lemma mono_before y y' : y < y' -> S' y < S' y' /\ E' y < E' y' /\ S' y < E' y' /\ E' y < S' y'.
  Proof.
    intros H. pose proof (spring_in_year y). pose proof (spring_in_year y'). pose proof (fall_in_year y). pose proof (fall_in_year y').
    pose proof (jan1_mono (y + 1) y' ltac:(lia)). unfold SECONDS_PER_DAY in *. lia.
  Qed.
  Lemma distinct y y' : S' y <> E' y'.
  Proof.
    destruct (Z.lt_trichotomy y y') as [H|[<-|H]].
    - destruct (mono_before _ _ H) as (_ & _ & ? & _). lia.
    - apply transitions_distinct, sane.
    - destruct (mono_before _ _ H) as (_ & _ & _ & ?). lia.
  Qed.
  Lemma forward_offset ns : forward (ns / NANOS_PER_SECOND) -> offset_at (window (utc_year ns)) std ns = dst.
  Proof.
    intros (y & Hy & L). unfold offset_at. set (secs := ns / NANOS_PER_SECOND) in *. set (Y := utc_year ns).
    pose proof (utc_year_bracket ns) as B. fold secs in B. fold Y in B.
    assert (Yle : y <= Y).
    { destruct (Z.le_gt_cases y Y) as [|G]; [assumption|]. pose proof (spring_in_year y). pose proof (jan1_mono (Y + 1) y ltac:(lia)). unfold SECONDS_PER_DAY in *. lia. }
    assert (Yge : Y - 1 <= y).
    { destruct (Z.le_gt_cases (Y - 1) y) as [|G]; [assumption|exfalso]. pose proof (fall_in_year (Y - 1)) as F. replace (Y - 1 + 1) with Y in F by lia.
      assert (E' (Y - 1) <= secs) by (unfold SECONDS_PER_DAY in *; lia). specialize (L _ H). destruct (mono_before y (Y - 1) ltac:(lia)) as (_ & _ & ? & _). lia. }
    (* the latest spring change *)
    assert (Last : exists y0, y <= y0 <= Y /\ S' y0 <= secs /\ forall y', S' y' <= secs -> y' <= y0).
    { destruct (Z.le_gt_cases (S' Y) secs) as [A|A].
      - exists Y. split; [lia|]. split; [exact A|]. intros y' H. destruct (Z.le_gt_cases y' Y) as [|G]; [assumption|exfalso].
        pose proof (spring_in_year y'). pose proof (jan1_mono (Y + 1) y' ltac:(lia)). unfold SECONDS_PER_DAY in *. lia.
      - exists (Y - 1). split; [split; [|lia]|]. { destruct (Z.eq_dec y Y) as [->|]; [lia|lia]. }
        split.
        + pose proof (spring_in_year (Y - 1)) as F. replace (Y - 1 + 1) with Y in F by lia. unfold SECONDS_PER_DAY in *. lia.
        + intros y' H. destruct (Z.le_gt_cases y' (Y - 1)) as [|G]; [assumption|exfalso].
          destruct (Z.eq_dec y' Y) as [->|]; [lia|]. destruct (mono_before Y y' ltac:(lia)) as (? & _). lia. }
    destruct Last as (y0 & Hy0 & A & Max).
    assert (L0 : forall y', E' y' <= secs -> E' y' < S' y0).
    { intros y' H. specialize (L _ H). destruct (Z.eq_dec y y0) as [<-|]; [exact L|]. destruct (mono_before y y0 ltac:(lia)) as (? & _). lia. }
    change dst with (z_off (dst_transition y0 s std dst)).
    apply offset_latest; [apply window_ordered|apply window_elem; exists y0; split; [lia|now left]|exact A|].
    intros u Hu Us. apply window_elem in Hu as (y' & Hy' & [->| ->]).
    - fold (S' y') in Us. specialize (Max _ Us). destruct (Z.eq_dec y' y0) as [->|]; [now right|]. left. apply (mono_before y' y0). lia.
    - left. apply L0. exact Us.
  Qed.
  Lemma back_offset ns : back (ns / NANOS_PER_SECOND) -> offset_at (window (utc_year ns)) std ns = std.
  Proof.
    intros (y & Hy & L). unfold offset_at. set (secs := ns / NANOS_PER_SECOND) in *. set (Y := utc_year ns).
    pose proof (utc_year_bracket ns) as B. fold secs in B. fold Y in B.
    assert (Last : exists y0, y <= y0 /\ Y - 1 <= y0 <= Y /\ E' y0 <= secs /\ forall y', E' y' <= secs -> y' <= y0).
    { assert (Up : forall y', E' y' <= secs -> y' <= Y).
      { intros y' H. destruct (Z.le_gt_cases y' Y) as [|G]; [assumption|exfalso].
        pose proof (fall_in_year y'). pose proof (jan1_mono (Y + 1) y' ltac:(lia)). unfold SECONDS_PER_DAY in *. lia. }
      destruct (Z.le_gt_cases (E' Y) secs) as [A|A].
      - exists Y. split; [now apply Up|]. split; [lia|]. split; [exact A|exact Up].
      - assert (Up' : forall y', E' y' <= secs -> y' <= Y - 1) by (intros y' H; pose proof (Up _ H); destruct (Z.eq_dec y' Y) as [->|]; lia).
        exists (Y - 1). split; [now apply Up'|]. split; [lia|]. split; [|exact Up'].
        pose proof (fall_in_year (Y - 1)) as F. replace (Y - 1 + 1) with Y in F by lia. unfold SECONDS_PER_DAY in *. lia. }
    destruct Last as (y0 & Hge & Hy0 & A & Max).
    assert (L0 : forall y', S' y' <= secs -> S' y' < E' y0).
    { intros y' H. specialize (L _ H). destruct (Z.eq_dec y y0) as [<-|]; [exact L|]. destruct (mono_before y y0 ltac:(lia)) as (_ & ? & _). lia. }
    change std with (z_off (dst_transition y0 e dst std)).
    apply offset_latest; [apply window_ordered|apply window_elem; exists y0; split; [lia|now right]|exact A|].
    intros u Hu Us. apply window_elem in Hu as (y' & Hy' & [->| ->]).
    - left. apply L0. exact Us.
    - fold (E' y') in Us. specialize (Max _ Us). destruct (Z.eq_dec y' y0) as [->|]; [now right|]. left. apply (mono_before y' y0). lia.
  Qed.
  (** Exactly one of the two holds at every instant. *)
  Lemma forward_or_back ns : forward (ns / NANOS_PER_SECOND) \/ back (ns / NANOS_PER_SECOND).
  Proof.
    set (secs := ns / NANOS_PER_SECOND). pose proof (utc_year_bracket ns) as B. fold secs in B. set (Y := utc_year ns) in *.
    assert (Su : forall y', S' y' <= secs -> y' <= Y).
    { intros y' H. destruct (Z.le_gt_cases y' Y) as [|G]; [assumption|exfalso].
      pose proof (spring_in_year y'). pose proof (jan1_mono (Y + 1) y' ltac:(lia)). unfold SECONDS_PER_DAY in *. lia. }
    assert (Eu : forall y', E' y' <= secs -> y' <= Y).
    { intros y' H. destruct (Z.le_gt_cases y' Y) as [|G]; [assumption|exfalso].
      pose proof (fall_in_year y'). pose proof (jan1_mono (Y + 1) y' ltac:(lia)). unfold SECONDS_PER_DAY in *. lia. }
    assert (P : S' (Y - 1) <= secs /\ E' (Y - 1) <= secs).
    { pose proof (spring_in_year (Y - 1)) as F1. pose proof (fall_in_year (Y - 1)) as F2. replace (Y - 1 + 1) with Y in F1, F2 by lia. unfold SECONDS_PER_DAY in *. lia. }
    assert (Sm : forall a b, a <= b -> S' a <= S' b) by (intros a b H; destruct (Z.eq_dec a b) as [->|]; [lia|]; pose proof (mono_before a b ltac:(lia)); lia).
    assert (Em : forall a b, a <= b -> E' a <= E' b) by (intros a b H; destruct (Z.eq_dec a b) as [->|]; [lia|]; pose proof (mono_before a b ltac:(lia)); lia).
    assert (SL : exists ys, S' ys <= secs /\ forall y', S' y' <= secs -> S' y' <= S' ys).
    { destruct (Z.le_gt_cases (S' Y) secs) as [A|A]; [exists Y; split; [exact A|intros y' H; apply Sm; auto]|].
      exists (Y - 1). split; [apply P|]. intros y' H. apply Sm. pose proof (Su _ H). destruct (Z.eq_dec y' Y) as [->|]; lia. }
    assert (EL : exists ye, E' ye <= secs /\ forall y', E' y' <= secs -> E' y' <= E' ye).
    { destruct (Z.le_gt_cases (E' Y) secs) as [A|A]; [exists Y; split; [exact A|intros y' H; apply Em; auto]|].
      exists (Y - 1). split; [apply P|]. intros y' H. apply Em. pose proof (Eu _ H). destruct (Z.eq_dec y' Y) as [->|]; lia. }
    destruct SL as (ys & A1 & A2), EL as (ye & B1 & B2). pose proof (distinct ys ye).
    destruct (Z.lt_ge_cases (S' ys) (E' ye)) as [L|G].
    - right. exists ye. split; [exact B1|]. intros y' H'. specialize (A2 _ H'). lia.
    - left. exists ys. split; [exact A1|]. intros y' H'. specialize (B2 _ H'). lia.
  Qed.
End Rules.
