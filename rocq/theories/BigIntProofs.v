(** Lemmas about big integers. *)
From Coq Require Import ZArith List Lia.
From stdpp Require Import list.
From Verif Require Import MachInt BitLemmas WireModel WireProofs BigIntModel.
Open Scope Z_scope.

Notation B := two64.
Lemma B_pos : 0 < B. Proof. reflexivity. Qed.

(** The number a limb list denotes. *)
Fixpoint val (l : list Z) : Z := match l with [] => 0 | x :: l => x + B * val l end.
Definition lok (l : list Z) : Prop := Forall is_u64 l.
(** No zero limb at the end. *)
Definition norm (l : list Z) : Prop := last l <> Some 0.

Lemma Bn_pos n : 0 < B ^ Z.of_nat n.
Proof. apply Z.pow_pos_nonneg; [apply B_pos|lia]. Qed.
Lemma Bn_succ n : B ^ Z.of_nat (S n) = B * B ^ Z.of_nat n.
Proof. rewrite Nat2Z.inj_succ, Z.pow_succ_r by lia. done. Qed.
Lemma val_app a b : val (a ++ b) = val a + B ^ Z.of_nat (length a) * val b.
Proof. induction a as [|x a IH]; cbn [app val length]; [change (B ^ Z.of_nat 0) with 1; lia|]. rewrite IH, Bn_succ. ring. Qed.
Lemma val_bound l : lok l -> 0 <= val l < B ^ Z.of_nat (length l).
Proof.
  induction 1 as [|x l Hx _ IH]; cbn [val length]; [cbn; lia|]. rewrite Bn_succ. unfold is_u64 in Hx. pose proof B_pos. nia.
Qed.
Lemma val_zeros n : val (repeat 0 n) = 0.
Proof. induction n as [|n IH]; [done|]. cbn [repeat val]. rewrite IH. lia. Qed.
Lemma lok_zeros n : lok (repeat 0 n).
Proof. induction n; constructor; [unfold is_u64; pose proof B_pos; lia|done]. Qed.
Lemma lok_app a b : lok (a ++ b) <-> lok a /\ lok b.
Proof. apply Forall_app. Qed.

Lemma normalize_snoc l x : normalize (l ++ [x]) = if x =? 0 then normalize l else l ++ [x].
Proof.
  unfold normalize. rewrite rev_app_distr. cbn [rev app pop_zeros]. destruct (x =? 0); [done|]. cbn [rev]. now rewrite rev_involutive.
Qed.
Lemma normalize_val l : val (normalize l) = val l.
Proof.
  induction l as [|x l IH] using rev_ind; [done|]. rewrite normalize_snoc. destruct (Z.eqb_spec x 0) as [->|]; [|done].
  rewrite IH, val_app. cbn [val]. lia.
Qed.
Lemma normalize_lok l : lok l -> lok (normalize l).
Proof.
  induction l as [|x l IH] using rev_ind; [done|]. rewrite normalize_snoc. intros H. destruct (x =? 0); [|done]. apply IH. now apply lok_app in H as [? _].
Qed.
Lemma normalize_norm l : norm (normalize l).
Proof.
  induction l as [|x l IH] using rev_ind; [done|]. rewrite normalize_snoc. destruct (Z.eqb_spec x 0) as [->|]; [done|]. unfold norm. rewrite last_snoc. congruence.
Qed.
Lemma normalize_id l : norm l -> normalize l = l.
Proof.
  destruct l as [|x l _] using rev_ind; [done|]. unfold norm. rewrite last_snoc, normalize_snoc. intros H. destruct (Z.eqb_spec x 0) as [->|]; [done|done].
Qed.
Lemma norm_lower l : lok l -> norm l -> l <> [] -> B ^ (Z.of_nat (length l) - 1) <= val l.
Proof.
  destruct l as [|x l _] using rev_ind; [done|]. intros H N _. apply lok_app in H as [H1 H2]. inversion H2 as [|? ? Hx _]; subst. unfold norm in N. rewrite last_snoc in N.
  rewrite val_app, app_length. cbn [val length]. replace (Z.of_nat (length l + 1) - 1) with (Z.of_nat (length l)) by lia.
  pose proof (val_bound l H1). pose proof (Bn_pos (length l)). unfold is_u64 in Hx. assert (x <> 0) by congruence. nia.
Qed.
Lemma norm_zero l : lok l -> norm l -> val l = 0 -> l = [].
Proof.
  intros H N V. destruct (decide (l = [])) as [|Ne]; [done|]. pose proof (norm_lower l H N Ne) as L.
  assert (0 < B ^ (Z.of_nat (length l) - 1)) by (apply Z.pow_pos_nonneg; [apply B_pos|destruct l; [done|cbn; lia]]). lia.
Qed.
Lemma val_length_le a b : lok a -> lok b -> norm b -> val b <= val a -> (length b <= length a)%nat.
Proof.
  intros Ha Hb N L. destruct (decide (b = [])) as [->|Ne]; [cbn; lia|]. pose proof (norm_lower b Hb N Ne). pose proof (val_bound a Ha).
  destruct (Nat.le_gt_cases (length b) (length a)); [done|]. assert (B ^ Z.of_nat (length a) <= B ^ (Z.of_nat (length b) - 1)) by (apply Z.pow_le_mono_r; [apply B_pos|lia]). lia.
Qed.

(** ** Comparison *)
Lemma lex_cmp_val a b : lok a -> lok b -> length a = length b -> lex_cmp (rev a) (rev b) = (val a ?= val b).
Proof.
  revert b. induction a as [|x a IH] using rev_ind; intros b Ha Hb L.
  { destruct b; [done|discriminate]. }
  destruct b as [|y b _] using rev_ind; [rewrite app_length in L; cbn in L; lia|].
  rewrite !app_length in L. cbn in L. assert (L' : length a = length b) by lia. apply lok_app in Ha as [Ha Hx]. apply lok_app in Hb as [Hb Hy].
  rewrite !rev_app_distr. cbn [rev app lex_cmp]. rewrite !val_app. cbn [val]. rewrite L'. pose proof (val_bound a Ha) as Va. pose proof (val_bound b Hb) as Vb. rewrite L' in Va.
  set (P := B ^ Z.of_nat (length b)) in *. destruct (Z.compare_spec x y) as [->|Hl|Hg].
  - rewrite IH by done. destruct (Z.compare_spec (val a) (val b)); symmetry; [apply Z.compare_eq_iff|apply Z.compare_lt_iff|apply Z.compare_gt_iff]; lia.
  - symmetry. apply Z.compare_lt_iff. nia.
  - symmetry. apply Z.compare_gt_iff. nia.
Qed.
Lemma mag_cmp_val a b : lok a -> lok b -> norm a -> norm b -> mag_cmp a b = (val a ?= val b).
Proof.
  intros Ha Hb Na Nb. unfold mag_cmp. destruct (Nat.compare_spec (length a) (length b)) as [E|E|E].
  - now apply lex_cmp_val.
  - symmetry. apply Z.compare_lt_iff. destruct (Z.lt_ge_cases (val a) (val b)); [done|]. pose proof (val_length_le a b Ha Hb Nb). lia.
  - symmetry. apply Z.compare_gt_iff. destruct (Z.lt_ge_cases (val b) (val a)); [done|]. pose proof (val_length_le b a Hb Ha Na). lia.
Qed.

(** ** Addition *)
Lemma wrap64_u64 x : is_u64 (wrap64 x).
Proof. apply wrap64_range. Qed.
Lemma split64 x : 0 <= x -> x = wrap64 x + B * Z.shiftr x 64.
Proof. intros H. rewrite Z.shiftr_div_pow2 by lia. change (2 ^ 64) with B. unfold wrap64. pose proof (Z.div_mod x B ltac:(discriminate)). lia. Qed.
Lemma shiftr64_bound x k : 0 <= x < k * B -> 0 <= Z.shiftr x 64 < k.
Proof. intros H. rewrite Z.shiftr_div_pow2 by lia. change (2 ^ 64) with B. pose proof B_pos. split; [apply Z.div_pos; lia|apply Z.div_lt_upper_bound; lia]. Qed.
Lemma wrap128_small x : 0 <= x < B * B -> wrap128 x = x.
Proof. intros H. unfold wrap128. apply Z.mod_small. exact H. Qed.
Lemma hd_lok a : lok a -> is_u64 (hd 0 a).
Proof. intros H. destruct H; [unfold is_u64; pose proof B_pos; cbn; lia|done]. Qed.
Lemma tl_lok a : lok a -> lok (tl a).
Proof. intros H. destruct H; [constructor|done]. Qed.
Lemma hd_tl_val a : val a = hd 0 a + B * val (tl a).
Proof. destruct a; cbn [hd tl val]; lia. Qed.
Lemma add_loop_val n a b c : lok a -> lok b -> 0 <= c <= 1 -> (length a <= n)%nat -> (length b <= n)%nat ->
  val (add_loop n a b c) = val a + val b + c /\ lok (add_loop n a b c).
Proof.
  revert a b c. induction n as [|n IH]; intros a b c Ha Hb Hc La Lb; cbn [add_loop].
  - assert (a = []) as -> by (destruct a; [done|cbn in La; lia]). assert (b = []) as -> by (destruct b; [done|cbn in Lb; lia]).
    destruct (Z.eqb_spec c 0) as [->|]; [split; [done|constructor]|]. assert (c = 1) as -> by lia. split; [reflexivity|]. constructor; [apply wrap64_u64|constructor].
  - pose proof (hd_lok a Ha) as HA. pose proof (hd_lok b Hb) as HB. unfold is_u64 in HA, HB. pose proof B_pos.
    rewrite wrap128_small by (assert (2 < B) by reflexivity; nia). set (s := hd 0 a + hd 0 b + c).
    assert (Hs : 0 <= Z.shiftr s 64 < 2) by (apply shiftr64_bound; unfold s; lia).
    destruct (IH (tl a) (tl b) (Z.shiftr s 64)) as [V L]; [now apply tl_lok|now apply tl_lok|lia|destruct a; cbn in *; lia|destruct b; cbn in *; lia|].
    cbn [val]. rewrite V. split; [|constructor; [apply wrap64_u64|done]]. rewrite (hd_tl_val a), (hd_tl_val b). assert (D : s = wrap64 s + B * Z.shiftr s 64) by (apply split64; unfold s; lia).
    unfold s in D at 1. lia.
Qed.
Lemma mag_add_ok a b : lok a -> lok b -> val (mag_add a b) = val a + val b /\ lok (mag_add a b) /\ norm (mag_add a b).
Proof.
  intros Ha Hb. unfold mag_add. destruct (add_loop_val (Nat.max (length a) (length b)) a b 0) as [V L]; [done|done|lia|lia|lia|].
  rewrite normalize_val, V. split; [lia|]. split; [now apply normalize_lok|apply normalize_norm].
Qed.

(** ** Subtraction *)
Lemma sub_loop_val a b c : lok a -> lok b -> 0 <= c <= 1 -> (length b <= length a)%nat ->
  lok (sub_loop a b c) /\ length (sub_loop a b c) = length a /\ exists k, 0 <= k <= 1 /\ val (sub_loop a b c) = val a - val b - c + k * B ^ Z.of_nat (length a).
Proof.
  revert b c. induction a as [|av a IH]; intros b c Ha Hb Hc L; cbn [sub_loop].
  - assert (b = []) as -> by (destruct b; [done|cbn in L; lia]). split; [constructor|]. split; [done|]. exists c. split; [done|]. cbn. lia.
  - inversion Ha as [|? ? Hav Ha']; subst. pose proof (hd_lok b Hb) as HB. unfold is_u64 in Hav, HB. rewrite (hd_tl_val b). cbn [length val]. rewrite Bn_succ.
    assert (Lt : (length (tl b) <= length a)%nat) by (destruct b; cbn in *; lia).
    destruct (Z.ltb_spec (av - hd 0 b - c) 0) as [H|H].
    + destruct (IH (tl b) 1) as (Lk & Ln & k & Hk & V); [done|now apply tl_lok|lia|done|]. split; [constructor; [apply wrap64_u64|done]|]. cbn [length val]. split; [now rewrite Ln|]. exists k. split; [done|].
      rewrite V. change (Z.shiftl 1 64) with B. rewrite wrap64_small by (unfold is_u64; lia). lia.
    + destruct (IH (tl b) 0) as (Lk & Ln & k & Hk & V); [done|now apply tl_lok|lia|done|]. split; [constructor; [apply wrap64_u64|done]|]. cbn [length val]. split; [now rewrite Ln|]. exists k. split; [done|].
      rewrite V. rewrite wrap64_small by (unfold is_u64; lia). lia.
Qed.
Lemma mag_sub_ok a b : lok a -> lok b -> norm b -> val b <= val a -> val (mag_sub a b) = val a - val b /\ lok (mag_sub a b) /\ norm (mag_sub a b).
Proof.
  intros Ha Hb N Le. unfold mag_sub. destruct (sub_loop_val a b 0) as (Lk & Ln & k & Hk & V); [done|done|lia|now apply val_length_le|].
  split; [|split; [now apply normalize_lok|apply normalize_norm]]. rewrite normalize_val. pose proof (val_bound _ Lk) as Bd. rewrite Ln in Bd. pose proof (val_bound _ Ha).
  pose proof (val_bound _ Hb). assert (k = 0 \/ k = 1) as [-> | ->] by lia; lia.
Qed.

(** ** Multiplication *)
Lemma mul_row_val av b o1 rest c : is_u64 av -> lok b -> lok o1 -> length o1 = length b -> 0 <= c < B ->
  exists r, mul_row av b (o1 ++ 0 :: rest) c = Some (r ++ rest) /\ length r = S (length b) /\ lok r /\ val r = val o1 + av * val b + c.
Proof.
  intros Hav. revert o1 c. induction b as [|bv b IH]; intros o1 c Hb Ho L Hc.
  - destruct o1; [|discriminate]. cbn [app mul_row]. eexists [_]. split; [reflexivity|]. split; [done|]. rewrite (wrap64_small c), wrap64_small by (unfold is_u64; lia).
    split; [constructor; [unfold is_u64; lia|constructor]|]. cbn [val]. lia.
  - destruct o1 as [|o o1]; [discriminate|]. injection L as L. inversion Hb as [|? ? Hbv Hb']; subst. inversion Ho as [|? ? Ho1 Ho']; subst. cbn [app mul_row].
    unfold is_u64 in *. pose proof B_pos. rewrite (wrap128_small (av * bv)) by nia. rewrite wrap128_small by nia.
    set (cur := o + av * bv + c). assert (Hcur : 0 <= cur < B * B) by (unfold cur; nia).
    destruct (IH o1 (Z.shiftr cur 64)) as (r & E & Lr & Kr & Vr); [done|done|done|now apply shiftr64_bound|].
    rewrite E. exists (wrap64 cur :: r). split; [done|]. split; [cbn; lia|]. split; [constructor; [apply wrap64_u64|done]|]. cbn [val]. rewrite Vr.
    assert (D : cur = wrap64 cur + B * Z.shiftr cur 64) by (apply split64; lia). unfold cur in D at 1. lia.
Qed.
Lemma mul_rows_val a b o1 : lok a -> lok b -> b <> [] -> lok o1 -> length o1 = length b ->
  exists r, mul_rows a b (o1 ++ repeat 0 (length a)) = Some r /\ lok r /\ val r = val o1 + val a * val b.
Proof.
  intros Ha Hb Hn. revert o1. induction Ha as [|av a Hav Ha IH]; intros o1 Ho L.
  - cbn [mul_rows repeat length]. rewrite app_nil_r. exists o1. split; [done|]. split; [done|]. cbn. lia.
  - cbn [mul_rows repeat length]. destruct (mul_row_val av b o1 (repeat 0 (length a)) 0 Hav Hb Ho L) as (r & E & Lr & Kr & Vr); [pose proof B_pos; lia|].
    rewrite E. destruct r as [|r0 r]; [discriminate|]. cbn [app]. inversion Kr as [|? ? Kr0 Kr']; subst. injection Lr as Lr.
    destruct (IH r) as (s & Es & Ks & Vs); [done|done|]. rewrite Es. exists (r0 :: s). split; [done|]. split; [now constructor|]. cbn [val] in *. rewrite Vs. lia.
Qed.
Lemma mag_mul_ok a b : lok a -> lok b -> exists r, mag_mul a b = Some r /\ val r = val a * val b /\ lok r /\ norm r.
Proof.
  intros Ha Hb. unfold mag_mul. destruct a as [|x a]; [exists []; cbn; split; [done|]; split; [lia|]; split; [constructor|done]|].
  destruct b as [|y b]; [exists []; cbn; split; [done|]; split; [lia|]; split; [constructor|done]|].
  destruct (mul_rows_val (x :: a) (y :: b) (repeat 0 (length (y :: b)))) as (r & E & K & V); [done|done|done|apply lok_zeros|apply repeat_length|].
  rewrite <- repeat_app in E. rewrite Nat.add_comm. rewrite E. exists (normalize r). split; [done|]. rewrite normalize_val, V, val_zeros. split; [lia|].
  split; [now apply normalize_lok|apply normalize_norm].
Qed.

(** ** Division *)
Lemma shl1_val a c : lok a -> 0 <= c <= 1 -> val (shl1_loop a c) = 2 * val a + c /\ lok (shl1_loop a c).
Proof.
  intros Ha. revert c. induction Ha as [|x a Hx Ha IH]; intros c Hc; cbn [shl1_loop].
  - destruct (Z.eqb_spec c 0) as [->|]; [split; [done|constructor]|]. cbn [val]. split; [lia|]. constructor; [unfold is_u64; assert (2 < B) by reflexivity; lia|constructor].
  - unfold is_u64 in Hx. assert (Hs : 0 <= Z.shiftr x 63 <= 1).
    { rewrite Z.shiftr_div_pow2 by lia. split; [apply Z.div_pos; lia|]. apply Z.lt_succ_r. apply Z.div_lt_upper_bound; [lia|]. exact (proj2 Hx). }
    destruct (IH _ Hs) as [V K].
    assert (D : Z.lor (wrap64 (Z.shiftl x 1)) c = wrap64 (2 * x) + c).
    { rewrite Z.shiftl_mul_pow2 by lia. change (2 ^ 1) with 2. unfold wrap64. rewrite (Z.mul_comm x 2). change B with (2 * 2 ^ 63). rewrite Zmult_mod_distr_l.
      rewrite Z.lor_comm. rewrite (Z.mul_comm 2 (x mod 2 ^ 63)). etransitivity; [apply (lor_add c (x mod 2 ^ 63) 1); change (2 ^ 1) with 2; lia|]. change (2 ^ 1) with 2. lia. }
    assert (E : 2 * x = wrap64 (2 * x) + B * Z.shiftr x 63).
    { unfold wrap64. pose proof (Z.div_mod (2 * x) B ltac:(discriminate)) as M. assert (2 * x / B = Z.shiftr x 63); [|lia].
      rewrite Z.shiftr_div_pow2 by lia. change B with (2 * 2 ^ 63). rewrite Z.div_mul_cancel_l by lia. done. }
    cbn [val]. rewrite V, D. split; [lia|]. constructor; [|done]. unfold is_u64, wrap64. change B with (2 * 2 ^ 63). rewrite Zmult_mod_distr_l. pose proof (Z.mod_pos_bound x (2 ^ 63) ltac:(lia)). lia.
Qed.
Lemma mag_shl1_ok a c : lok a -> 0 <= c <= 1 -> val (mag_shl1 a c) = 2 * val a + c /\ lok (mag_shl1 a c) /\ norm (mag_shl1 a c).
Proof.
  intros Ha Hc. unfold mag_shl1. assert (Z.land c 1 = c) as ->. { change 1 with (2 ^ 1 - 1). rewrite land_mask by lia. change (2 ^ 1) with 2. apply Z.mod_small. lia. }
  destruct (shl1_val a c Ha Hc) as [V K]. rewrite normalize_val. split; [done|]. split; [now apply normalize_lok|apply normalize_norm].
Qed.

(** Limb [k] of a list, and the bits of its value. *)
Lemma val_limb l k : lok l -> val l / B ^ Z.of_nat k mod B = nth k l 0.
Proof.
  intros H. revert k. induction H as [|x l Hx H IH]; intros k.
  - cbn [val]. rewrite Z.div_0_l by (pose proof (Bn_pos k); lia). destruct k; reflexivity.
  - destruct k as [|k]; cbn [val nth].
    + change (B ^ Z.of_nat 0) with 1. rewrite Z.div_1_r, Z.mul_comm, Z.mod_add by discriminate. now apply Z.mod_small.
    + rewrite Bn_succ. rewrite <- Z.div_div by (pose proof (Bn_pos k); first [discriminate|lia]). rewrite (Z.mul_comm B), Z.div_add by discriminate. rewrite (Z.div_small x) by done. apply IH.
Qed.
Lemma pow_split i : 2 ^ Z.of_nat i = B ^ Z.of_nat (i / 64) * 2 ^ Z.of_nat (i mod 64).
Proof.
  pose proof (Nat.div_mod i 64 ltac:(lia)) as E. set (a := (i / 64)%nat) in *. set (b := (i mod 64)%nat) in *. clearbody a b. subst i.
  change B with (2 ^ 64). rewrite <- (Z.pow_mul_r 2 64 (Z.of_nat a)) by lia. rewrite <- Z.pow_add_r by lia. f_equal. lia.
Qed.
Lemma bit_of l i : lok l -> Z.land (Z.shiftr (nth (i / 64) l 0) (Z.of_nat (i mod 64))) 1 = val l / 2 ^ Z.of_nat i mod 2.
Proof.
  intros H. change 1 with (2 ^ 1 - 1). rewrite land_mask by lia. change (2 ^ 1) with 2. rewrite Z.shiftr_div_pow2 by lia. rewrite <- (val_limb l) by done. rewrite (pow_split i).
  rewrite <- Z.div_div; [|apply Z.pow_nonzero; [discriminate|apply Nat2Z.is_nonneg]|apply Z.pow_pos_nonneg; lia]. set (v := val l / B ^ Z.of_nat (i / 64)). set (j := (i mod 64)%nat).
  assert (J : (j < 64)%nat) by (apply Nat.mod_upper_bound; lia).
  change B with (2 ^ 64). replace 64 with (Z.of_nat j + (63 - Z.of_nat j + 1)) by lia. rewrite Z.pow_add_r by lia.
  rewrite Z.rem_mul_r; [|apply Z.pow_nonzero; lia|apply Z.pow_pos_nonneg; lia].
  rewrite (Z.mul_comm (2 ^ Z.of_nat j)), Z.div_add by (apply Z.pow_nonzero; lia). rewrite (Z.div_small (v mod _)) by (apply Z.mod_pos_bound; apply Z.pow_pos_nonneg; lia).
  rewrite Z.add_0_l. rewrite Z.pow_add_r by lia. change (2 ^ 1) with 2. rewrite (Z.mul_comm (2 ^ _) 2). rewrite Z.rem_mul_r; [|lia|apply Z.pow_pos_nonneg; lia].
  rewrite (Z.mul_comm 2), Z.mod_add by lia. apply Z.mod_mod. lia.
Qed.
Lemma val_insert l k x : (k < length l)%nat -> val (<[k := x]> l) = val l + (x - nth k l 0) * B ^ Z.of_nat k.
Proof.
  revert k. induction l as [|y l IH]; intros k H; [cbn in H; lia|]. destruct k as [|k]; cbn [nth].
  - change (<[0%nat := x]> (y :: l)) with (x :: l). cbn [val]. change (B ^ Z.of_nat 0) with 1. lia.
  - change (<[S k := x]> (y :: l)) with (y :: <[k := x]> l). cbn [val length] in *. rewrite IH by lia. rewrite Bn_succ. ring.
Qed.
Lemma set_bit q i : lok q -> (i / 64 < length q)%nat -> val q mod 2 ^ Z.of_nat (S i) = 0 ->
  let q' := <[(i / 64)%nat := Z.lor (nth (i / 64) q 0) (Z.shiftl 1 (Z.of_nat (i mod 64)))]> q in lok q' /\ val q' = val q + 2 ^ Z.of_nat i.
Proof.
  intros K L M q'. set (k := (i / 64)%nat) in *. set (j := (i mod 64)%nat) in *. assert (J : (j < 64)%nat) by (apply Nat.mod_upper_bound; lia).
  assert (Pj : 0 < 2 ^ Z.of_nat j) by (apply Z.pow_pos_nonneg; lia).
  assert (N : is_u64 (nth k q 0)) by (apply Forall_nth; [exact K|done]). unfold is_u64 in N.
  (* the limb is a multiple of 2^(j+1) *)
  assert (Dv : exists m, nth k q 0 = m * 2 ^ (Z.of_nat j + 1)).
  { apply Z.mod_divide in M; [|apply Z.pow_nonzero; lia]. destruct M as [m M]. replace (2 ^ Z.of_nat (S i)) with (B ^ Z.of_nat k * 2 ^ (Z.of_nat j + 1)) in M.
    2:{ rewrite Nat2Z.inj_succ, Z.pow_succ_r by lia. rewrite (pow_split i). fold k j. rewrite Z.pow_add_r by lia. ring. }
    exists (m mod 2 ^ (64 - (Z.of_nat j + 1))). rewrite <- (val_limb q) by done. rewrite M. replace (m * (B ^ Z.of_nat k * 2 ^ (Z.of_nat j + 1))) with (m * 2 ^ (Z.of_nat j + 1) * B ^ Z.of_nat k) by ring.
    rewrite Z.div_mul by (pose proof (Bn_pos k); lia). change B with (2 ^ 64) at 1. replace 64 with ((64 - (Z.of_nat j + 1)) + (Z.of_nat j + 1)) at 1 by lia. rewrite (Z.pow_add_r 2 (64 - (Z.of_nat j + 1)) (Z.of_nat j + 1)) by lia.
    apply Zmult_mod_distr_r. }
  destruct Dv as [m Dv].
  assert (Lo : Z.lor (nth k q 0) (Z.shiftl 1 (Z.of_nat j)) = nth k q 0 + 2 ^ Z.of_nat j).
  { rewrite Z.shiftl_mul_pow2, Z.mul_1_l by lia. rewrite Z.lor_comm, Dv. rewrite lor_add; [lia|lia|]. rewrite Z.pow_add_r by lia. change (2 ^ 1) with 2. lia. }
  assert (U : is_u64 (Z.lor (nth k q 0) (Z.shiftl 1 (Z.of_nat j)))).
  { rewrite Z.shiftl_mul_pow2, Z.mul_1_l by lia. apply lor_u64; [done|]. unfold is_u64. split; [lia|]. apply Z.pow_lt_mono_r; lia. }
  unfold q'. split; [|rewrite val_insert, Lo, (pow_split i) by done; fold k j; ring].
  apply Forall_insert; [exact K|exact U].
Qed.

Lemma divrem_loop_ok n a b q r : lok a -> lok b -> norm b -> 0 < val b -> (n <= length a * 64)%nat -> lok q -> length q = length a -> lok r -> norm r ->
  val q mod 2 ^ Z.of_nat n = 0 -> val a / 2 ^ Z.of_nat n = val b * (val q / 2 ^ Z.of_nat n) + val r -> val r < val b ->
  let '(q', r') := divrem_loop n a b q r in lok q' /\ lok r' /\ norm r' /\ val a = val b * val q' + val r' /\ val r' < val b.
Proof.
  intros Ha Hb Nb Pb. revert q r. induction n as [|i IH]; intros q r Hn Kq Lq Kr Nr Mq E Lr; cbn [divrem_loop].
  - change (2 ^ Z.of_nat 0) with 1 in E. rewrite !Z.div_1_r in E. done.
  - set (bit := Z.land _ 1). assert (Hbit : bit = val a / 2 ^ Z.of_nat i mod 2) by now apply bit_of. assert (Bb : 0 <= bit <= 1) by (pose proof (Z.mod_pos_bound (val a / 2 ^ Z.of_nat i) 2 ltac:(lia)); lia).
    destruct (mag_shl1_ok r bit Kr Bb) as (V & K & N). set (r2 := mag_shl1 r bit) in *.
    assert (P : 0 < 2 ^ Z.of_nat i) by (apply Z.pow_pos_nonneg; lia).
    assert (S2 : 2 ^ Z.of_nat (S i) = 2 ^ Z.of_nat i * 2) by (rewrite Nat2Z.inj_succ, Z.pow_succ_r by lia; ring).
    pose proof (val_bound q Kq) as Bq. pose proof (val_bound r Kr) as Br.
    assert (Eq2 : exists m, val q = m * 2 ^ Z.of_nat (S i)) by (apply Z.mod_divide; [apply Z.pow_nonzero; lia|done]). destruct Eq2 as [m Em].
    assert (Eqi : val q / 2 ^ Z.of_nat i = 2 * m) by (rewrite Em, S2; replace (m * (2 ^ Z.of_nat i * 2)) with (2 * m * 2 ^ Z.of_nat i) by ring; apply Z.div_mul; lia).
    assert (Eqs : val q / 2 ^ Z.of_nat (S i) = m) by (rewrite Em; apply Z.div_mul; apply Z.pow_nonzero; lia).
    assert (Ea : val a / 2 ^ Z.of_nat i = 2 * (val a / 2 ^ Z.of_nat (S i)) + bit).
    { rewrite S2, <- Z.div_div by lia. rewrite Hbit. apply Z.div_mod. lia. }
    rewrite Eqs in E. rewrite mag_cmp_val by done. destruct (Z.compare_spec (val r2) (val b)) as [C|C|C].
    2:{ apply IH; try done; [lia| |].
        - rewrite Em, S2. replace (m * (2 ^ Z.of_nat i * 2)) with (m * 2 * 2 ^ Z.of_nat i) by ring. apply Z.mod_mul. lia.
        - rewrite Eqi, Ea, E, V. ring. }
    all: destruct (mag_sub_ok r2 b K Hb Nb ltac:(lia)) as (V3 & K3 & N3);
      (destruct (set_bit q i Kq) as [Kq' Vq']; [rewrite Lq; apply Nat.div_lt_upper_bound; lia|done|]); apply IH; try done; try lia; [now rewrite insert_length| |].
    all: try (rewrite Vq', Em, S2; replace (m * (2 ^ Z.of_nat i * 2) + 2 ^ Z.of_nat i) with ((m * 2 + 1) * 2 ^ Z.of_nat i) by ring; apply Z.mod_mul; lia).
    all: rewrite Vq'; rewrite <- (Z.mul_1_l (2 ^ Z.of_nat i)) at 2; rewrite Z.div_add by lia; rewrite Eqi, Ea, E, V3, V; ring.
Qed.
Lemma mag_divrem_ok a b : lok a -> lok b -> norm a -> norm b -> 0 < val b ->
  let '(q, r) := mag_divrem a b in lok q /\ lok r /\ norm q /\ norm r /\ val q = val a / val b /\ val r = val a mod val b.
Proof.
  intros Ha Hb Na Nb Pb. unfold mag_divrem. rewrite mag_cmp_val by done. pose proof (val_bound a Ha) as Ba.
  assert (G : forall p : list Z * list Z, p = divrem_loop (length a * 64) a b (repeat 0 (length a)) [] -> let '(q, r) := (let '(q, r) := p in (normalize q, normalize r)) in
     lok q /\ lok r /\ norm q /\ norm r /\ val q = val a / val b /\ val r = val a mod val b).
  { intros [q r] E. pose proof (divrem_loop_ok (length a * 64) a b (repeat 0 (length a)) []) as H. rewrite <- E in H. destruct H as (Kq & Kr & Nr & V & L); try done.
    - apply lok_zeros.
    - apply repeat_length.
    - constructor.
    - rewrite val_zeros. apply Z.mod_0_l. apply Z.pow_nonzero; lia.
    - rewrite val_zeros. rewrite Z.div_0_l by (apply Z.pow_nonzero; lia). cbn [val]. rewrite Z.div_small; [lia|]. split; [lia|].
      replace (2 ^ Z.of_nat (length a * 64)) with (B ^ Z.of_nat (length a)); [lia|]. change B with (2 ^ 64). rewrite <- Z.pow_mul_r by lia. f_equal. lia.
    - rewrite !normalize_val. pose proof (val_bound r Kr). split; [now apply normalize_lok|]. split; [now apply normalize_lok|]. split; [apply normalize_norm|]. split; [apply normalize_norm|].
      split; [apply (Z.div_unique_pos _ _ _ (val r)); lia|apply (Z.mod_unique_pos _ _ (val q)); lia]. }
  destruct (Z.compare_spec (val a) (val b)) as [C|C|C].
  - apply G. reflexivity.
  - split; [constructor|]. split; [done|]. split; [done|]. split; [done|]. cbn [val]. rewrite Z.div_small, Z.mod_small by lia. done.
  - apply G. reflexivity.
Qed.
