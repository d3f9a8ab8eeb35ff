(** Proofs about calendar arithmetic. The Gregorian calendar repeats every 400 years
    (146097 days) and the Julian one every 4 years (1461 days); one period is checked
    by computation, the rest follows by translation. *)
From Coq Require Import ZArith List Bool Lia.
From stdpp Require Import gmap.
From Verif Require Import StableSort TemporalModel.
Import ListNotations.
Local Open Scope Z_scope.

Fixpoint all_from (n : nat) (z : Z) (f : Z -> bool) : bool :=
  match n with O => true | S n' => f z && all_from n' (z + 1) f end.
Lemma all_from_spec n z f : all_from n z f = true -> forall k, z <= k < z + Z.of_nat n -> f k = true.
Proof.
  revert z. induction n as [|n IH]; intros z H k Hk; [lia|]. simpl in H. apply andb_true_iff in H as [H1 H2].
  destruct (Z.eq_dec k z) as [->|Hne]; [exact H1|]. apply (IH (z + 1)); [exact H2|lia].
Qed.

Lemma floor_era y n : 0 < n -> Z.quot (if 0 <=? y then y else y - (n - 1)) n = y / n.
Proof.
  intros Hn. destruct (Z.leb_spec 0 y) as [H|H].
  - apply Z.quot_div_nonneg; lia.
  - assert (E : y - (n - 1) = - (n - 1 - y)) by lia. rewrite E, Z.quot_opp_l by lia.
    rewrite Z.quot_div_nonneg by lia.
    apply (Z.div_unique y n _ (n - 1 - (n - 1 - y) mod n)).
    + pose proof (Z.mod_pos_bound (n - 1 - y) n Hn). lia.
    + pose proof (Z.div_mod (n - 1 - y) n). lia.
Qed.

(** ** What the Gregorian calendar is *)

Definition greg_leap (y : Z) : Prop := ((4 | y) /\ ~ (100 | y)) \/ (400 | y).
Definition month_length (y m : Z) : Z :=
  if m =? 2 then (if is_gregorian_leap y then 29 else 28)
  else if (m =? 4) || (m =? 6) || (m =? 9) || (m =? 11) then 30 else 31.
Definition valid_date (d : Z * Z * Z) : Prop :=
  1 <= d.1.2 <= 12 /\ 1 <= d.2 <= month_length d.1.1 d.1.2.
Definition next_date (d : Z * Z * Z) : Z * Z * Z :=
  let '(y, m, dd) := d in
  if dd <? month_length y m then (y, m, dd + 1)
  else if m <? 12 then (y, m + 1, 1) else (y + 1, 1, 1).

Lemma rem_zero y n : 0 < n -> (Z.rem y n =? 0) = true <-> (n | y).
Proof. intros Hn. rewrite Z.eqb_eq, Z.rem_divide by lia. tauto. Qed.
Lemma leap_spec y : is_gregorian_leap y = true <-> greg_leap y.
Proof.
  unfold is_gregorian_leap, greg_leap. rewrite orb_true_iff, andb_true_iff, negb_true_iff, !rem_zero by lia.
  pose proof (rem_zero y 100 ltac:(lia)) as H. destruct (Z.rem y 100 =? 0); intuition congruence.
Qed.
Lemma leap_period y k : is_gregorian_leap (y + 400 * k) = is_gregorian_leap y.
Proof.
  apply Bool.eq_true_iff_eq. rewrite !leap_spec. unfold greg_leap.
  assert (D : forall n, (n | 400) -> (n | y + 400 * k) <-> (n | y)).
  { intros n Hn. split; intros H.
    - replace y with (y + 400 * k - 400 * k) by lia. apply Z.divide_sub_r; [exact H|now apply Z.divide_mul_l].
    - apply Z.divide_add_r; [exact H|now apply Z.divide_mul_l]. }
  rewrite !D; [tauto|exists 1|exists 4|exists 100]; lia.
Qed.
Lemma month_period y m k : month_length (y + 400 * k) m = month_length y m.
Proof. unfold month_length. now rewrite leap_period. Qed.
Lemma last_day_spec y m : 1 <= m <= 12 -> last_day_of_month y m = month_length y m.
Proof.
  intros H. unfold last_day_of_month, month_length. destruct (is_gregorian_leap y);
  assert (E : m = 1 \/ m = 2 \/ m = 3 \/ m = 4 \/ m = 5 \/ m = 6 \/ m = 7 \/ m = 8 \/ m = 9 \/ m = 10 \/ m = 11 \/ m = 12) by lia;
  repeat (destruct E as [->|E]; [reflexivity|]); subst; reflexivity.
Qed.

Lemma period_split z n : 0 < n -> exists z0 k, z = z0 + n * k /\ 0 <= z0 < n.
Proof.
  intros Hn. exists (z mod n), (z / n). pose proof (Z.div_mod z n). pose proof (Z.mod_pos_bound z n Hn). lia.
Qed.

Definition date_eqb (a b : Z * Z * Z) : bool := (a.1.1 =? b.1.1) && (a.1.2 =? b.1.2) && (a.2 =? b.2).
Lemma date_eqb_spec a b : date_eqb a b = true <-> a = b.
Proof.
  destruct a as [[? ?] ?], b as [[? ?] ?]. unfold date_eqb; simpl. rewrite !andb_true_iff, !Z.eqb_eq. split.
  - intros [[-> ->] ->]. reflexivity.
  - intros [= -> -> ->]. auto.
Qed.
Lemma month_length_le y m : month_length y m <= 31.
Proof. unfold month_length. destruct (m =? 2); [destruct (is_gregorian_leap y); lia|]. destruct (_ || _); lia. Qed.
Lemma month_length_ge y m : 28 <= month_length y m.
Proof. unfold month_length. destruct (m =? 2); [destruct (is_gregorian_leap y); lia|]. destruct (_ || _); lia. Qed.


(** Years are counted from 1 March inside an era: [year_start] is the first day of year
    [yoe] of the era, [year_len] its length. *)
Definition year_start (yoe : Z) : Z := 365 * yoe + Z.quot yoe 4 - Z.quot yoe 100.
Definition year_len (yoe : Z) : Z := if is_gregorian_leap (yoe + 1) then 366 else 365.
Definition year_of (doe : Z) : Z := Z.quot (doe - Z.quot doe 1460 + Z.quot doe 36524 - Z.quot doe 146096) 365.
Definition year_ok (yoe : Z) : bool :=
  (year_of (year_start yoe) =? yoe) && (year_of (year_start yoe + year_len yoe - 1) =? yoe) &&
  (year_start yoe + year_len yoe =? (if yoe =? 399 then 146097 else year_start (yoe + 1))) && (0 <=? year_start yoe).
Lemma years_ok : all_from 400 0 year_ok = true.
Proof. vm_compute. reflexivity. Qed.
Lemma year_facts yoe : 0 <= yoe < 400 ->
  year_of (year_start yoe) = yoe /\ year_of (year_start yoe + year_len yoe - 1) = yoe /\
  year_start yoe + year_len yoe = (if yoe =? 399 then 146097 else year_start (yoe + 1)) /\ 0 <= year_start yoe.
Proof.
  intros H. pose proof (all_from_spec _ _ _ years_ok yoe ltac:(lia)) as E. unfold year_ok in E.
  rewrite !andb_true_iff, !Z.eqb_eq, Z.leb_le in E. tauto.
Qed.
Lemma year_of_mono a b : 0 <= a <= b -> year_of a <= year_of b.
Proof.
  intros H. assert (Step : forall x, 0 <= x -> year_of x <= year_of (x + 1)).
  { intros x Hx. unfold year_of. apply Z.quot_le_mono; [lia|]. rewrite !Z.quot_div_nonneg by lia.
    assert ((x + 1) / 1460 <= x / 1460 + 1) by (replace (x / 1460 + 1) with ((x + 1 * 1460) / 1460) by (now rewrite Z.div_add by lia); apply Z.div_le_mono; lia).
    assert (x / 36524 <= (x + 1) / 36524) by (apply Z.div_le_mono; lia).
    assert (D : (x + 1) / 146096 = x / 146096 \/ ((x + 1) / 146096 = x / 146096 + 1 /\ (x + 1) / 36524 = x / 36524 + 1)).
    { pose proof (Z.div_mod x 146096 ltac:(lia)) as E. pose proof (Z.mod_pos_bound x 146096 ltac:(lia)) as B.
      destruct (Z.eq_dec (x mod 146096) 146095) as [M|M].
      - right. split; [symmetry; apply (Z.div_unique _ _ _ 0); lia|].
        assert (x / 36524 = 4 * (x / 146096) + 3) by (symmetry; apply (Z.div_unique _ _ _ 36523); lia).
        assert ((x + 1) / 36524 = 4 * (x / 146096) + 4) by (symmetry; apply (Z.div_unique _ _ _ 0); lia). lia.
      - left. symmetry. apply (Z.div_unique _ _ _ (x mod 146096 + 1)); lia. }
    lia. }
  assert (M : forall n, year_of a <= year_of (a + Z.of_nat n)).
  { induction n as [|n IH]; [replace (a + Z.of_nat 0) with a by lia; lia|].
    etransitivity; [exact IH|]. replace (a + Z.of_nat (S n)) with (a + Z.of_nat n + 1) by lia. apply Step. lia. }
  specialize (M (Z.to_nat (b - a))). now replace (a + Z.of_nat (Z.to_nat (b - a))) with b in M by lia.
Qed.
Lemma year_of_in yoe doy : 0 <= yoe < 400 -> 0 <= doy < year_len yoe -> year_of (year_start yoe + doy) = yoe.
Proof.
  intros Hy Hd. destruct (year_facts yoe Hy) as (E1 & E2 & _ & P).
  pose proof (year_of_mono (year_start yoe) (year_start yoe + doy) ltac:(lia)).
  pose proof (year_of_mono (year_start yoe + doy) (year_start yoe + year_len yoe - 1) ltac:(lia)). lia.
Qed.
Lemma year_start_bound yoe doy : 0 <= yoe < 400 -> 0 <= doy < year_len yoe -> 0 <= year_start yoe + doy < 146097.
Proof.
  intros Hy Hd. destruct (year_facts yoe Hy) as (_ & _ & E & P). split; [lia|].
  assert (Up : forall n, (n <= 399)%nat -> year_start (399 - Z.of_nat n) + year_len (399 - Z.of_nat n) <= 146097).
  { induction n as [|n IH]; intros Hn.
    - destruct (year_facts 399 ltac:(lia)) as (_ & _ & E' & _). rewrite Z.eqb_refl in E'. replace (399 - Z.of_nat 0) with 399 by lia. lia.
    - specialize (IH ltac:(lia)). destruct (year_facts (399 - Z.of_nat (S n)) ltac:(lia)) as (_ & _ & E' & _).
      destruct (Z.eqb_spec (399 - Z.of_nat (S n)) 399); [lia|].
      replace (399 - Z.of_nat (S n) + 1) with (399 - Z.of_nat n) in E' by lia.
      assert (0 < year_len (399 - Z.of_nat n)) by (unfold year_len; destruct (is_gregorian_leap _); lia). lia. }
  specialize (Up (Z.to_nat (399 - yoe)) ltac:(lia)). replace (399 - Z.of_nat (Z.to_nat (399 - yoe))) with yoe in Up by lia. lia.
Qed.
Lemma year_cover doe : 0 <= doe < 146097 -> exists yoe doy, 0 <= yoe < 400 /\ 0 <= doy < year_len yoe /\ doe = year_start yoe + doy.
Proof.
  intros H. assert (C : forall n, (n < 400)%nat -> doe < year_start (Z.of_nat n) + year_len (Z.of_nat n) ->
    exists yoe doy, 0 <= yoe < 400 /\ 0 <= doy < year_len yoe /\ doe = year_start yoe + doy).
  { induction n as [|n IH]; intros Hn L.
    - exists 0, doe. split; [lia|]. change (year_start (Z.of_nat 0)) with 0 in L. change (year_start 0) with 0.
      change (Z.of_nat 0) with 0 in L. lia.
    - destruct (Z.lt_ge_cases doe (year_start (Z.of_nat (S n)))) as [L'|G].
      + apply IH; [lia|]. destruct (year_facts (Z.of_nat n) ltac:(lia)) as (_ & _ & E & _).
        destruct (Z.eqb_spec (Z.of_nat n) 399); [lia|]. replace (Z.of_nat n + 1) with (Z.of_nat (S n)) in E by lia. lia.
      + exists (Z.of_nat (S n)), (doe - year_start (Z.of_nat (S n))). split; [lia|]. split; lia. }
  apply (C 399%nat); [lia|]. destruct (year_facts 399 ltac:(lia)) as (_ & _ & E & _). rewrite Z.eqb_refl in E.
  change (Z.of_nat 399) with 399. lia.
Qed.

(** Month and day from the day of the year, both ways. *)
Definition mp_of (doy : Z) : Z := Z.quot (5 * doy + 2) 153.
Definition md_of (doy : Z) : Z * Z :=
  (if mp_of doy <? 10 then mp_of doy + 3 else mp_of doy - 9, doy - Z.quot (153 * mp_of doy + 2) 5 + 1).
Definition doy_of (m d : Z) : Z := Z.quot (153 * (if 2 <? m then m - 3 else m + 9) + 2) 5 + d - 1.
Definition date_of (era yoe doy : Z) : Z * Z * Z :=
  let '(m, d) := md_of doy in ((if m <=? 2 then yoe + era * 400 + 1 else yoe + era * 400), m, d).
Definition mlen (leap : bool) (m : Z) : Z :=
  if m =? 2 then (if leap then 29 else 28)
  else if (m =? 4) || (m =? 6) || (m =? 9) || (m =? 11) then 30 else 31.
Definition doy_ok (leap : bool) (doy : Z) : bool :=
  if doy <? (if leap then 366 else 365) then
    let '(m, d) := md_of doy in
    (1 <=? m) && (m <=? 12) && (1 <=? d) && (d <=? mlen leap m) && (doy_of m d =? doy) &&
    (if doy + 1 <? (if leap then 366 else 365) then
       let '(m', d') := md_of (doy + 1) in
       if d <? mlen leap m then (m' =? m) && (d' =? d + 1) else (d' =? 1) && (if m <? 12 then (m' =? m + 1) && negb (m =? 2) else m' =? 1)
     else (m =? 2) && (d =? mlen leap 2))
  else true.
Lemma doys_ok : all_from 366 0 (doy_ok true) && all_from 366 0 (doy_ok false) = true.
Proof. vm_compute. reflexivity. Qed.
Definition md_ok (leap : bool) (m d : Z) : bool :=
  if d <=? mlen leap m then
    (0 <=? doy_of m d) && (doy_of m d <? (if leap then 366 else 365)) && ((md_of (doy_of m d)).1 =? m) && ((md_of (doy_of m d)).2 =? d)
  else true.
Lemma mds_ok : all_from 12 1 (fun m => all_from 31 1 (md_ok true m)) && all_from 12 1 (fun m => all_from 31 1 (md_ok false m)) = true.
Proof. vm_compute. reflexivity. Qed.

Lemma doy_facts leap doy : 0 <= doy < (if leap : bool then 366 else 365) -> doy_ok leap doy = true.
Proof.
  intros H. pose proof doys_ok as E. apply andb_true_iff in E as [E1 E2].
  destruct leap; [apply (all_from_spec _ _ _ E1)|apply (all_from_spec _ _ _ E2)]; lia.
Qed.
Lemma md_facts leap m d : 1 <= m <= 12 -> 1 <= d <= 31 -> md_ok leap m d = true.
Proof.
  intros Hm Hd. pose proof mds_ok as E. apply andb_true_iff in E as [E1 E2].
  destruct leap; [pose proof (all_from_spec _ _ _ E1 m ltac:(lia)) as F|pose proof (all_from_spec _ _ _ E2 m ltac:(lia)) as F];
    apply (all_from_spec _ _ _ F); lia.
Qed.

Definition day_at (era yoe doy : Z) : Z := era * 146097 + (year_start yoe + doy) - 719468.
Lemma day_split z : exists era yoe doy, 0 <= yoe < 400 /\ 0 <= doy < year_len yoe /\ z = day_at era yoe doy.
Proof.
  destruct (period_split (z + 719468) 146097) as (doe & era & E & H); [lia|].
  destruct (year_cover doe H) as (yoe & doy & Hy & Hd & ->). exists era, yoe, doy. unfold day_at. split; [exact Hy|]. split; [exact Hd|]. lia.
Qed.
Lemma civil_at era yoe doy : 0 <= yoe < 400 -> 0 <= doy < year_len yoe -> civil_from_days (day_at era yoe doy) = date_of era yoe doy.
Proof.
  intros Hy Hd. pose proof (year_start_bound yoe doy Hy Hd) as B. unfold civil_from_days, day_at.
  replace (era * 146097 + (year_start yoe + doy) - 719468 + 719468) with (era * 146097 + (year_start yoe + doy)) by lia.
  pose proof (floor_era (era * 146097 + (year_start yoe + doy)) 146097 ltac:(lia)) as E. change (146097 - 1) with 146096 in E. rewrite E.
  rewrite Z.div_add_l by lia. rewrite (Z.div_small (year_start yoe + doy)) by lia.
  replace (era * 146097 + (year_start yoe + doy) - (era + 0) * 146097) with (year_start yoe + doy) by lia.
  cbv zeta. fold (year_of (year_start yoe + doy)). rewrite year_of_in by assumption. fold (year_start yoe).
  replace (year_start yoe + doy - year_start yoe) with doy by lia.
  replace (yoe + (era + 0) * 400) with (yoe + era * 400) by lia. reflexivity.
Qed.
Lemma month_length_mlen y m : month_length y m = mlen (is_gregorian_leap y) m.
Proof. reflexivity. Qed.
Lemma leap_of_era era yoe : is_gregorian_leap (yoe + era * 400 + 1) = is_gregorian_leap (yoe + 1).
Proof. replace (yoe + era * 400 + 1) with (yoe + 1 + 400 * era) by lia. apply leap_period. Qed.
Lemma mlen_other a b m : m <> 2 -> mlen a m = mlen b m.
Proof. intros H. unfold mlen. now destruct (Z.eqb_spec m 2). Qed.
Lemma date_len era yoe doy : let d := date_of era yoe doy in month_length d.1.1 d.1.2 = mlen (is_gregorian_leap (yoe + 1)) d.1.2.
Proof.
  unfold date_of. destruct (md_of doy) as [m dd]. cbn [fst snd]. rewrite month_length_mlen.
  destruct (Z.leb_spec m 2); [now rewrite leap_of_era|]. apply mlen_other. lia.
Qed.

Lemma days_at era yoe m d : 0 <= yoe < 400 ->
  days_from_civil (if m <=? 2 then yoe + era * 400 + 1 else yoe + era * 400) m d = day_at era yoe (doy_of m d).
Proof.
  intros Hy. unfold days_from_civil, day_at.
  assert (E : (if m <=? 2 then (if m <=? 2 then yoe + era * 400 + 1 else yoe + era * 400) - 1 else (if m <=? 2 then yoe + era * 400 + 1 else yoe + era * 400)) = era * 400 + yoe)
    by (destruct (m <=? 2); lia).
  rewrite E. pose proof (floor_era (era * 400 + yoe) 400 ltac:(lia)) as F. change (400 - 1) with 399 in F. rewrite F.
  rewrite Z.div_add_l by lia. rewrite (Z.div_small yoe) by lia.
  replace (era * 400 + yoe - (era + 0) * 400) with yoe by lia. unfold year_start, doy_of. lia.
Qed.

Lemma day_facts z :
  let d := civil_from_days z in
  valid_date d /\ days_from_civil d.1.1 d.1.2 d.2 = z /\ civil_from_days (z + 1) = next_date d.
Proof.
  destruct (day_split z) as (era & yoe & doy & Hy & Hd & ->). intros d.
  pose proof (doy_facts _ _ Hd) as OK. unfold doy_ok in OK. fold (year_len yoe) in OK.
  assert (Hlt : doy <? year_len yoe = true) by (apply Z.ltb_lt; lia). rewrite Hlt in OK.
  assert (Ed : d = date_of era yoe doy) by (apply civil_at; assumption).
  pose proof (date_len era yoe doy) as ML. rewrite <- Ed in ML. cbv zeta in ML. unfold date_of in Ed.
  destruct (md_of doy) as [m dd] eqn:Emd.
  assert (Em : d.1.2 = m) by (rewrite Ed; reflexivity). assert (Edd : d.2 = dd) by (rewrite Ed; reflexivity). rewrite Em in ML.
  rewrite !andb_true_iff, !Z.leb_le, Z.eqb_eq in OK. destruct OK as [[[[[M1 M2] D1] D2] R] N].
  split; [|split].
  - unfold valid_date. rewrite Em, Edd, ML. lia.
  - rewrite Em, Edd. rewrite Ed. cbn [fst snd]. rewrite days_at by assumption. now rewrite R.
  - assert (En : next_date d = let '(y, m, dd) := d in
      if dd <? mlen (is_gregorian_leap (yoe + 1)) m then (y, m, dd + 1) else if m <? 12 then (y, m + 1, 1) else (y + 1, 1, 1)).
    { unfold next_date. destruct d as [[y1 m1] d1]. cbn [fst snd] in *. subst m1. now rewrite ML. }
    rewrite En, Ed. clear En. destruct (Z.ltb_spec (doy + 1) (year_len yoe)) as [L|G].
    + replace (day_at era yoe doy + 1) with (day_at era yoe (doy + 1)) by (unfold day_at; lia).
      rewrite civil_at by lia. unfold date_of. destruct (md_of (doy + 1)) as [m' d'].
      destruct (dd <? mlen (is_gregorian_leap (yoe + 1)) m).
      * rewrite andb_true_iff, !Z.eqb_eq in N. destruct N as [-> ->]. reflexivity.
      * apply andb_true_iff in N as [N1 N2]. apply Z.eqb_eq in N1 as ->. destruct (Z.ltb_spec m 12).
        -- rewrite andb_true_iff, Z.eqb_eq, negb_true_iff, Z.eqb_neq in N2. destruct N2 as [-> N2].
           destruct (Z.leb_spec (m + 1) 2), (Z.leb_spec m 2); try lia; reflexivity.
        -- apply Z.eqb_eq in N2 as ->. destruct (Z.leb_spec m 2); [lia|]. reflexivity.
    + rewrite andb_true_iff, !Z.eqb_eq in N. destruct N as [-> ->]. rewrite Z.ltb_irrefl. cbn [Z.leb Z.ltb Z.compare Pos.compare Pos.compare_cont Z.add Pos.add Pos.succ].
      destruct (year_facts yoe Hy) as (_ & _ & S & _). destruct (Z.eqb_spec yoe 399) as [->|Hne].
      * replace (day_at era 399 doy + 1) with (day_at (era + 1) 0 0) by (unfold day_at; change (year_start 0) with 0; lia).
        rewrite civil_at by (unfold year_len; simpl; lia). unfold date_of. change (md_of 0) with (3, 1). cbn [Z.leb Z.compare Pos.compare Pos.compare_cont].
        f_equal. f_equal. lia.
      * replace (day_at era yoe doy + 1) with (day_at era (yoe + 1) 0) by (unfold day_at; lia).
        assert (Pos : forall x, 0 <= 0 < year_len x) by (intros x; unfold year_len; destruct (is_gregorian_leap (x + 1)); lia).
        rewrite (civil_at era (yoe + 1) 0 ltac:(lia) (Pos _)).
        unfold date_of. change (md_of 0) with (3, 1). cbn [Z.leb Z.compare Pos.compare Pos.compare_cont]. f_equal. f_equal. lia.
Qed.

Lemma date_facts y m d : valid_date (y, m, d) -> civil_from_days (days_from_civil y m d) = (y, m, d).
Proof.
  intros [Hm Hd]. cbn [fst snd] in *.
  destruct (period_split (if m <=? 2 then y - 1 else y) 400) as (yoe & era & E & Hy); [lia|].
  assert (Ey : y = if m <=? 2 then yoe + era * 400 + 1 else yoe + era * 400) by (destruct (m <=? 2); lia).
  pose proof (md_facts (is_gregorian_leap (yoe + 1)) m d ltac:(lia) ltac:(pose proof (month_length_le y m); lia)) as OK.
  unfold md_ok in OK. assert (L : d <=? mlen (is_gregorian_leap (yoe + 1)) m = true).
  { apply Z.leb_le. rewrite month_length_mlen in Hd. rewrite Ey in Hd. destruct (Z.leb_spec m 2) as [M|M].
    - rewrite leap_of_era in Hd. lia.
    - rewrite (mlen_other _ (is_gregorian_leap (yoe + era * 400))) by lia. lia. }
  rewrite L in OK. fold (year_len yoe) in OK. rewrite !andb_true_iff, Z.leb_le, Z.ltb_lt, !Z.eqb_eq in OK.
  destruct OK as [[[P1 P2] Q1] Q2]. rewrite Ey at 1. rewrite days_at by assumption. rewrite civil_at by lia.
  unfold date_of. destruct (md_of (doy_of m d)) as [m' d']. cbn [fst snd] in Q1, Q2. subst m' d'. now rewrite <- Ey.
Qed.

Lemma days_next d : valid_date d -> let e := next_date d in days_from_civil e.1.1 e.1.2 e.2 = days_from_civil d.1.1 d.1.2 d.2 + 1.
Proof.
  intros V e. destruct d as [[y m] dd]. cbn [fst snd].
  destruct (day_facts (days_from_civil y m dd)) as (_ & _ & S). rewrite date_facts in S by exact V.
  destruct (day_facts (days_from_civil y m dd + 1)) as (_ & D & _). rewrite S in D. exact D.
Qed.

(** Order of dates. *)
Definition date_lt (a b : Z * Z * Z) : Prop :=
  a.1.1 < b.1.1 \/ (a.1.1 = b.1.1 /\ (a.1.2 < b.1.2 \/ (a.1.2 = b.1.2 /\ a.2 < b.2))).
Lemma next_lt d : valid_date d -> date_lt d (next_date d).
Proof.
  destruct d as [[y m] dd]. intros _. unfold date_lt, next_date.
  destruct (dd <? month_length y m); simpl; [lia|]. destruct (Z.ltb_spec m 12); simpl; lia.
Qed.
Lemma civil_mono z n : date_lt (civil_from_days z) (civil_from_days (z + 1 + Z.of_nat n)).
Proof.
  induction n as [|n IH].
  - replace (z + 1 + Z.of_nat 0) with (z + 1) by lia. destruct (day_facts z) as (V & _ & ->). now apply next_lt.
  - replace (z + 1 + Z.of_nat (S n)) with (z + 1 + Z.of_nat n + 1) by lia.
    destruct (day_facts (z + 1 + Z.of_nat n)) as (V & _ & ->). pose proof (next_lt _ V). unfold date_lt in *. lia.
Qed.
Lemma civil_lt z w : z < w -> date_lt (civil_from_days z) (civil_from_days w).
Proof. intros H. pose proof (civil_mono z (Z.to_nat (w - z - 1))) as M. now replace (z + 1 + Z.of_nat (Z.to_nat (w - z - 1))) with w in M by lia. Qed.
Lemma days_lt y m d y' m' d' :
  valid_date (y, m, d) -> valid_date (y', m', d') ->
  days_from_civil y m d < days_from_civil y' m' d' <-> date_lt (y, m, d) (y', m', d').
Proof.
  intros V V'. split.
  - intros H. apply civil_lt in H. now rewrite !date_facts in H by assumption.
  - intros H. destruct (Z.lt_trichotomy (days_from_civil y m d) (days_from_civil y' m' d')) as [L|[E|G]]; [exact L| |].
    + exfalso. assert (X : (y, m, d) = (y', m', d')) by (rewrite <- (date_facts y m d V), E; now apply date_facts).
      injection X as -> -> ->. unfold date_lt in H; simpl in H. lia.
    + exfalso. apply civil_lt in G. rewrite !date_facts in G by assumption. unfold date_lt in *; simpl in *. lia.
Qed.

