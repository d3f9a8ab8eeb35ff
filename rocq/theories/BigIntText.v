(** Bytes and decimal text of big integers. *)
From Coq Require Import ZArith List Lia.
From stdpp Require Import list.
From Verif Require Import MachInt BitLemmas WireModel WireProofs BigIntModel BigIntProofs BigIntZ.
Open Scope Z_scope.

(** ** Bytes *)
Definition bytes_ok (bs : list Z) : Prop := Forall (fun b => 0 <= b < 256) bs.
Lemma from_le_app a b : from_le (a ++ b) = from_le a + 256 ^ Z.of_nat (length a) * from_le b.
Proof. induction a as [|x a IH]; cbn [app from_le length]; [change (256 ^ Z.of_nat 0) with 1; lia|]. rewrite IH, Nat2Z.inj_succ, Z.pow_succ_r by lia. ring. Qed.
Lemma le_bytes_ok n x : bytes_ok (le_bytes n x).
Proof. revert x. induction n as [|n IH]; intros x; cbn; constructor; [apply Z.mod_pos_bound; lia|apply IH]. Qed.
Lemma limbs_bytes l : lok l -> from_le (concat (map (le_bytes 8) l)) = val l /\ bytes_ok (concat (map (le_bytes 8) l)) /\ length (concat (map (le_bytes 8) l)) = (8 * length l)%nat.
Proof.
  induction 1 as [|x l Hx H IH]; [split; [done|split; [constructor|done]]|]. destruct IH as (V & K & L). cbn [map concat length val].
  rewrite from_le_app, app_length, le_bytes_length, V, L. rewrite from_le_bytes by exact Hx. split; [reflexivity|]. split; [apply Forall_app; split; [apply le_bytes_ok|done]|lia].
Qed.
Lemma limbs_of_bytes_ok n bs : (length bs <= n)%nat -> bytes_ok bs -> lok (limbs_of_bytes n bs) /\ val (limbs_of_bytes n bs) = from_le bs.
Proof.
  revert bs. induction n as [|n IH]; intros bs L H.
  - destruct bs; [|cbn in L; lia]. cbn. split; [constructor|done].
  - destruct bs as [|b bs]; [cbn; split; [constructor|done]|]. set (l := b :: bs) in *. change (limbs_of_bytes (S n) l) with (from_le (take 8 l) :: limbs_of_bytes n (drop 8 l)).
    destruct (IH (drop 8 l)) as [K V]; [rewrite drop_length; cbn [length l] in *; lia|now apply Forall_drop|].
    pose proof (from_le_range (take 8 l)) as R. assert (T : bytes_ok (take 8 l)) by now apply Forall_take. specialize (R T).
    split.
    + constructor; [|done]. unfold is_u64. split; [lia|]. apply (Z.lt_le_trans _ _ _ (proj2 R)). change B with (256 ^ 8). apply Z.pow_le_mono_r; [lia|]. rewrite take_length. lia.
    + cbn [val]. rewrite V. rewrite <- (take_drop 8 l) at 3. rewrite from_le_app. destruct (Nat.le_gt_cases 8 (length l)).
      * rewrite take_length, Nat.min_l by done. reflexivity.
      * rewrite (drop_ge l 8) by lia. cbn [from_le]. lia.
Qed.
Lemma to_le_bytes_of_Z z : exists bs, bi_to_le_bytes (of_Z z) = (z <? 0, bs) /\ from_le bs = Z.abs z /\ bytes_ok bs.
Proof.
  unfold bi_to_le_bytes. rewrite neg_of_Z. destruct (limbs_of_Z z) as (K & N & V). destruct (limbs_bytes _ K) as (Vb & Kb & _). eexists. split; [reflexivity|]. rewrite Vb. done.
Qed.
Lemma from_le_bytes_of_Z neg bs : bytes_ok bs -> bi_from_le_bytes neg bs = of_Z (if neg then - from_le bs else from_le bs).
Proof. intros H. unfold bi_from_le_bytes. destruct (limbs_of_bytes_ok (length bs) bs) as [K V]; [done|done|]. rewrite fsm_of_Z by done. now rewrite V. Qed.

(** ** Decimal text *)
Definition dec_value (ds : list Z) : Z := fold_left (fun acc d => acc * 10 + (d - 48)) ds 0.
Definition is_digit (d : Z) : Prop := 48 <= d <= 57.
Lemma dec_value_snoc l d : dec_value (l ++ [d]) = dec_value l * 10 + (d - 48).
Proof. unfold dec_value. now rewrite fold_left_app. Qed.
Lemma dec_value_app a b : dec_value (a ++ b) = dec_value a * 10 ^ Z.of_nat (length b) + dec_value b.
Proof.
  induction b as [|d b IH] using rev_ind; [rewrite app_nil_r; cbn; lia|]. rewrite app_assoc, !dec_value_snoc, IH, app_length. cbn [length]. rewrite Nat2Z.inj_add, Z.pow_add_r by lia. change (10 ^ Z.of_nat 1) with 10. ring.
Qed.
Lemma dec_value_zeros k l : dec_value (repeat 48 k ++ l) = dec_value l.
Proof. rewrite dec_value_app. assert (dec_value (repeat 48 k) = 0) as ->; [|lia]. induction k as [|k IH]; [done|]. cbn [repeat]. rewrite repeat_cons, dec_value_snoc, IH. lia. Qed.
Lemma dec_value_bound l : Forall is_digit l -> 0 <= dec_value l < 10 ^ Z.of_nat (length l).
Proof.
  induction l as [|d l IH] using rev_ind; [cbn; lia|]. intros H. apply Forall_app in H as [H Hd]. inversion Hd as [|? ? Hd' _]; subst. specialize (IH H). unfold is_digit in Hd'.
  rewrite dec_value_snoc, app_length. cbn [length]. rewrite Nat2Z.inj_add, Z.pow_add_r by lia. change (10 ^ Z.of_nat 1) with 10. lia.
Qed.
(** A nonempty digit string without superfluous zero. *)
Definition plain_digits (ds : list Z) : Prop := Forall is_digit ds /\ ds <> [] /\ (hd_error ds = Some 48 -> ds = [48]).
Lemma dec_value_lower d l : Forall is_digit (d :: l) -> d <> 48 -> 10 ^ Z.of_nat (length l) <= dec_value (d :: l).
Proof.
  intros H N. inversion H as [|? ? Hd Hl]; subst. unfold is_digit in Hd. change (d :: l) with ([d] ++ l). rewrite dec_value_app. pose proof (dec_value_bound l Hl). cbn [dec_value fold_left]. nia.
Qed.
Lemma dec_value_inj a b : Forall is_digit a -> Forall is_digit b -> length a = length b -> dec_value a = dec_value b -> a = b.
Proof.
  revert b. induction a as [|d a IH] using rev_ind; intros b Ha Hb L E.
  { destruct b; [done|discriminate]. }
  destruct b as [|e b _] using rev_ind; [rewrite app_length in L; cbn in L; lia|]. rewrite !app_length in L. cbn in L.
  apply Forall_app in Ha as [Ha Hd], Hb as [Hb He]. inversion Hd as [|? ? Hd' _]; subst. inversion He as [|? ? He' _]; subst. rewrite !dec_value_snoc in E. unfold is_digit in *.
  rewrite (IH b) by (try done; lia). do 2 f_equal. assert (dec_value a = dec_value b) by lia. lia.
Qed.
Lemma plain_inj a b : plain_digits a -> plain_digits b -> dec_value a = dec_value b -> a = b.
Proof.
  assert (L : forall a b, plain_digits a -> plain_digits b -> dec_value a = dec_value b -> (length a <= length b)%nat).
  { clear. intros a b (Ha & Na & Za) (Hb & Nb & Zb) E. destruct a as [|d a]; [cbn; lia|]. destruct (Z.eq_dec d 48) as [->|N].
    - specialize (Za eq_refl). injection Za as ->. destruct b; [done|cbn; lia].
    - pose proof (dec_value_lower d a Ha N). pose proof (dec_value_bound b Hb). cbn [length]. destruct (Nat.le_gt_cases (S (length a)) (length b)); [done|].
      assert (10 ^ Z.of_nat (length b) <= 10 ^ Z.of_nat (length a)) by (apply Z.pow_le_mono_r; lia). lia. }
  intros Pa Pb E. apply dec_value_inj; [apply Pa|apply Pb| |done]. apply Nat.le_antisymm; apply L; done.
Qed.

(** Parsing. *)
Lemma is_ascii_digit_iff d : is_ascii_digit d = true <-> is_digit d.
Proof. unfold is_ascii_digit, is_digit. rewrite andb_true_iff, !Z.leb_le. done. Qed.
Lemma parse_digits_some acc ds : Forall is_digit ds -> parse_digits (of_Z acc) ds = Some (of_Z (fold_left (fun a d => a * 10 + (d - 48)) ds acc)).
Proof.
  intros H. revert acc. induction H as [|d ds Hd H IH]; intros acc; [done|]. cbn [parse_digits fold_left]. rewrite (proj2 (is_ascii_digit_iff d) Hd). unfold is_digit in Hd.
  rewrite !from_u64_of_Z by (unfold is_u64; change B with (2 ^ 64); lia). rewrite mul_of_Z, add_of_Z. apply IH.
Qed.
Lemma parse_digits_none acc ds : ~ Forall is_digit ds -> parse_digits acc ds = None.
Proof.
  revert acc. induction ds as [|d ds IH]; intros acc H; [exfalso; apply H; constructor|]. cbn [parse_digits]. destruct (is_ascii_digit d) eqn:E; [|done].
  apply IH. intros F. apply H. constructor; [now apply is_ascii_digit_iff|done].
Qed.
Lemma digits_dec ds : {Forall is_digit ds} + {~ Forall is_digit ds}.
Proof. apply List.Forall_dec. intros d. destruct (is_ascii_digit d) eqn:E; [left; now apply is_ascii_digit_iff|right; intros H; apply is_ascii_digit_iff in H; congruence]. Qed.
Definition split_sign (s : list Z) : bool * list Z := match s with c :: s' => if c =? 45 then (true, s') else if c =? 43 then (false, s') else (false, s) | [] => (false, s) end.
Lemma parse_decimal_of s : bi_parse_decimal s =
  let '(neg, ds) := split_sign s in
  if digits_dec ds then match ds with [] => None | _ => Some (of_Z (if neg then - dec_value ds else dec_value ds)) end else None.
Proof.
  unfold bi_parse_decimal. fold (split_sign s). destruct (split_sign s) as [neg ds]. destruct ds as [|d ds]; [destruct (digits_dec []); done|].
  destruct (digits_dec (d :: ds)) as [H|H].
  - rewrite zero_of_Z, parse_digits_some by done. unfold dec_value. destruct neg; [now rewrite negated_of_Z|done].
  - now rewrite parse_digits_none.
Qed.

(** Formatting machine words. *)
Lemma digits_rev_ok n x : 0 <= x < 10 ^ Z.of_nat n -> (0 < n)%nat ->
  Forall is_digit (digits_rev n x) /\ dec_value (rev (digits_rev n x)) = x /\ digits_rev n x <> [] /\ (0 < x -> last (digits_rev n x) <> Some 48) /\ (x = 0 -> digits_rev n x = [48]).
Proof.
  revert x. induction n as [|n IH]; intros x H Hn; [lia|]. cbn [digits_rev]. pose proof (Z.div_mod x 10 ltac:(lia)) as D. pose proof (Z.mod_pos_bound x 10 ltac:(lia)) as M.
  rewrite Nat2Z.inj_succ, Z.pow_succ_r in H by lia. destruct (Z.eqb_spec (x / 10) 0) as [E|E].
  - split; [constructor; [unfold is_digit; lia|constructor]|]. split; [cbn; lia|]. split; [done|]. split; [cbn [last]; intros ? [= ?]; lia|]. intros ->. done.
  - destruct n as [|n]; [cbn in H; exfalso; apply E; apply Z.div_small; lia|].
    assert (P : 0 <= x / 10) by (apply Z.div_pos; lia).
    destruct (IH (x / 10)) as (F & V & Ne & L & _); [split; [done|apply Z.div_lt_upper_bound; lia]|lia|]. set (r := digits_rev (S n) (x / 10)) in *.
    split; [constructor; [unfold is_digit; lia|done]|]. split; [cbn [rev]; rewrite dec_value_snoc, V; lia|]. split; [done|]. split; [|intros ->; cbn in E; lia].
    intros _. rewrite last_cons. destruct (last r) as [d|] eqn:E2; [apply L; lia|]. apply last_None in E2. done.
Qed.
Lemma digits_rev_length n x k : 0 <= x < 10 ^ Z.of_nat k -> (0 < k)%nat -> (length (digits_rev n x) <= k)%nat.
Proof.
  revert x k. induction n as [|n IH]; intros x k H Hk; cbn [digits_rev length]; [lia|]. destruct (Z.eqb_spec (x / 10) 0) as [E|E]; [cbn; lia|].
  destruct k as [|k]; [lia|]. rewrite Nat2Z.inj_succ, Z.pow_succ_r in H by lia. destruct k as [|k]; [cbn in H; exfalso; apply E; apply Z.div_small; lia|].
  specialize (IH (x / 10) (S k)). assert (length (digits_rev n (x / 10)) <= S k)%nat; [|lia]. apply IH; [split; [apply Z.div_pos; lia|apply Z.div_lt_upper_bound; lia]|lia].
Qed.
Lemma show_u64_ok x : is_u64 x -> plain_digits (show_u64 x) /\ dec_value (show_u64 x) = x.
Proof.
  intros [H0 H1]. unfold show_u64. destruct (digits_rev_ok 20 x) as (F & V & Ne & L & Z0); [split; [done|]; apply (Z.lt_trans _ _ _ H1); reflexivity|lia|].
  split; [|done]. set (l := digits_rev 20 x) in *. split; [now apply List.Forall_rev|]. split; [intros E; apply Ne; apply (f_equal (@rev Z)) in E; rewrite rev_involutive in E; done|].
  intros E. destruct (Z.eq_dec x 0) as [->|N]; [now rewrite Z0|]. exfalso. apply L; [lia|]. destruct l as [|d l' _] using rev_ind; [done|]. rewrite rev_app_distr in E. cbn in E. injection E as ->. apply last_snoc.
Qed.
Lemma show_u64_19_ok x : 0 <= x < TEN19 -> Forall is_digit (show_u64_19 x) /\ dec_value (show_u64_19 x) = x /\ length (show_u64_19 x) = 19%nat.
Proof.
  intros H. destruct (show_u64_ok x) as [(F & _) V]; [split; [lia|]; apply (Z.lt_trans _ _ _ (proj2 H)); reflexivity|]. unfold show_u64_19.
  assert (L : (length (show_u64 x) <= 19)%nat) by (unfold show_u64; rewrite rev_length; apply digits_rev_length; [exact H|lia]).
  rewrite dec_value_zeros, app_length, repeat_length. split; [|split; [done|lia]]. apply Forall_app. split; [|done]. apply List.Forall_forall. intros d Hd. apply repeat_spec in Hd. subst. unfold is_digit. lia.
Qed.

(** Chunks. *)
Definition chunk_value (cs : list Z) : Z := fold_left (fun a c => a * TEN19 + c) cs 0.
Lemma chunk_value_snoc l c : chunk_value (l ++ [c]) = chunk_value l * TEN19 + c.
Proof. unfold chunk_value. now rewrite fold_left_app. Qed.
Lemma hd_limbs_of_Z r : 0 <= r < B -> hd 0 (limbs (bi_mag (of_Z r))) = r.
Proof.
  intros H. destruct (bi_mag (of_Z r)) as [a|v] eqn:E.
  - destruct (single_of_Z r a) as [-> _]; [now rewrite E|]. cbn. rewrite Z.abs_eq by lia. destruct (Z.eqb_spec r 0) as [->|]; done.
  - pose proof (not_single_of_Z r) as N. rewrite E in N. specialize (N eq_refl). lia.
Qed.
Lemma chunk_loop_ok n z acc : 0 <= z < 2 ^ Z.of_nat n -> exists cs, chunk_loop n (of_Z z) acc = Some (cs ++ acc) /\ chunk_value cs = z /\ Forall (fun c => 0 <= c < TEN19) cs /\ (z = 0 -> cs = []) /\ hd_error cs <> Some 0.
Proof.
  revert z acc. induction n as [|n IH]; intros z acc H.
  - assert (z = 0) as -> by (cbn in H; lia). exists []. done.
  - cbn [chunk_loop]. rewrite is_zero_of_Z. destruct (Z.eqb_spec z 0) as [->|N]; [exists []; done|].
    rewrite from_u64_of_Z by (unfold is_u64; split; [discriminate|reflexivity]). rewrite div_rem_of_Z. change (TEN19 =? 0) with false. cbn match.
    rewrite Z.quot_div_nonneg, Z.rem_mod_nonneg by (try lia; reflexivity). pose proof (Z.mod_pos_bound z TEN19 ltac:(reflexivity)) as M. pose proof (Z.div_mod z TEN19 ltac:(discriminate)) as D.
    rewrite hd_limbs_of_Z by (split; [lia|]; apply (Z.lt_trans _ _ _ (proj2 M)); reflexivity).
    rewrite Nat2Z.inj_succ, Z.pow_succ_r in H by lia. assert (Q : 0 <= z / TEN19 < 2 ^ Z.of_nat n).
    { split; [apply Z.div_pos; [lia|reflexivity]|]. apply Z.div_lt_upper_bound; [reflexivity|]. unfold TEN19. lia. }
    destruct (IH (z / TEN19) (z mod TEN19 :: acc) Q) as (cs & E & V & F & Z0 & Hd). rewrite E. exists (cs ++ [z mod TEN19]). split; [now rewrite <- app_assoc|].
    rewrite chunk_value_snoc, V. split; [lia|]. split; [apply Forall_app; split; [done|constructor; [done|constructor]]|]. split; [lia|].
    destruct cs as [|c cs]; [|exact Hd]. cbn. intros [= Ez]. cbn in V. rewrite Ez in D. lia.
Qed.
Lemma chunks_text c cs : is_u64 c -> Forall (fun c => 0 <= c < TEN19) cs -> 0 < c ->
  let s := show_u64 c ++ concat (map show_u64_19 cs) in plain_digits s /\ dec_value s = chunk_value (c :: cs).
Proof.
  intros Hc F Pc. destruct (show_u64_ok c Hc) as [(P1 & P2 & P3) V].
  assert (G : Forall is_digit (concat (map show_u64_19 cs)) /\ dec_value (show_u64 c ++ concat (map show_u64_19 cs)) = chunk_value (c :: cs)).
  { induction cs as [|x cs IH] using rev_ind; [cbn [map concat]; rewrite app_nil_r; split; [constructor|rewrite V; cbn; lia]|]. apply Forall_app in F as [F Fx]. inversion Fx as [|? ? Hx _]; subst. destruct (IH F) as [D E].
    destruct (show_u64_19_ok x Hx) as (Dx & Vx & Lx). rewrite map_app, concat_app. cbn [map concat]. rewrite app_nil_r. split; [apply Forall_app; done|].
    rewrite app_assoc, dec_value_app, E, Lx, Vx. change (c :: cs ++ [x]) with ((c :: cs) ++ [x]). rewrite chunk_value_snoc. reflexivity. }
  destruct G as [G1 G2]. split; [|done]. split; [apply Forall_app; done|]. split; [destruct (show_u64 c); done|].
  destruct (show_u64 c) as [|d r] eqn:E; [done|]. cbn [app hd_error]. intros [= ->]. specialize (P3 eq_refl). injection P3 as ->. exfalso. cbn in V. lia.
Qed.
Lemma show_of_Z z : exists ds, bi_show (of_Z z) = Some ((if z <? 0 then [45] else []) ++ ds) /\ plain_digits ds /\ dec_value ds = Z.abs z.
Proof.
  unfold bi_show. rewrite is_zero_of_Z, is_negative_of_Z, abs_of_Z. destruct (Z.eqb_spec z 0) as [->|N].
  { exists [48]. split; [done|]. split; [|done]. split; [constructor; [unfold is_digit; lia|constructor]|]. done. }
  destruct (limbs_of_Z z) as (K & _ & V). pose proof (val_bound _ K) as Bd. rewrite V in Bd.
  destruct (chunk_loop_ok (64 * length (limbs (bi_mag (of_Z z)))) (Z.abs z) []) as (cs & E & Vc & F & _ & Hd).
  { split; [lia|]. replace (2 ^ Z.of_nat (64 * length (limbs (bi_mag (of_Z z))))) with (B ^ Z.of_nat (length (limbs (bi_mag (of_Z z))))); [lia|].
    change B with (2 ^ 64). rewrite <- (Z.pow_mul_r 2 64) by lia. f_equal. lia. }
  rewrite app_nil_r in E. rewrite E. destruct cs as [|c cs]; [cbn in Vc; lia|]. inversion F as [|? ? Hc F']; subst. assert (c <> 0) by (cbn in Hd; congruence).
  destruct (chunks_text c cs) as [P D]; [split; [lia|]; apply (Z.lt_trans _ _ _ (proj2 Hc)); reflexivity|done|lia|]. eexists. split; [reflexivity|]. split; [done|]. now rewrite D.
Qed.
