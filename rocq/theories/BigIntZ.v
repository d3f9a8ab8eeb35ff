(** Big integers as integers: the canonical forms are in bijection with [Z] and the operations
    are those of [Z]. *)
From Coq Require Import ZArith List Lia.
From stdpp Require Import list.
From Verif Require Import MachInt BitLemmas WireModel WireProofs BigIntModel BigIntProofs.
Open Scope Z_scope.

Definition mag_ok (m : bmag) : Prop := match m with Inline x => is_u64 x | Heap v => lok v /\ norm v /\ (2 <= length v)%nat end.
Definition mval (m : bmag) : Z := val (limbs m).
(** The value, and the canonical form the type's invariant describes. *)
Definition bval (b : bigint) : Z := match bi_sign b with Neg => - mval (bi_mag b) | Zero => 0 | Pos => mval (bi_mag b) end.
Definition canon (b : bigint) : Prop := mag_ok (bi_mag b) /\ (bi_sign b = Zero <-> bi_mag b = Inline 0).

Lemma limbs_ok m : mag_ok m -> lok (limbs m) /\ norm (limbs m).
Proof.
  destruct m as [x|v]; cbn; [|tauto]. intros H. destruct (Z.eqb_spec x 0); [split; [constructor|done]|]. split; [now constructor; [|constructor]|]. unfold norm. cbn. congruence.
Qed.
Lemma mval_inline x : mval (Inline x) = x.
Proof. unfold mval. cbn. destruct (Z.eqb_spec x 0); cbn [val]; lia. Qed.
Lemma mval_nonneg m : mag_ok m -> 0 <= mval m.
Proof. intros H. apply limbs_ok in H as [H _]. apply val_bound in H. unfold mval. lia. Qed.
Lemma mval_heap v : mag_ok (Heap v) -> B <= mval (Heap v).
Proof.
  intros (K & N & L). unfold mval. cbn [limbs]. assert (Ne : v <> []) by (intros ->; cbn in L; lia). pose proof (norm_lower v K N Ne).
  assert (B ^ 1 <= B ^ (Z.of_nat (length v) - 1)) by (apply Z.pow_le_mono_r; [apply B_pos|lia]). rewrite Z.pow_1_r in *. lia.
Qed.
Lemma mval_zero m : mag_ok m -> mval m = 0 <-> m = Inline 0.
Proof.
  intros H. destruct m as [x|v]; [rewrite mval_inline; split; [now intros ->|congruence]|]. apply mval_heap in H. pose proof B_pos. split; [lia|discriminate].
Qed.
Lemma val_inj a b : lok a -> lok b -> length a = length b -> val a = val b -> a = b.
Proof.
  intros Ha. revert b. induction Ha as [|x a Hx Ha IH]; intros b Hb L E; destruct Hb as [|y b Hy Hb]; try discriminate; [done|].
  cbn [val] in E. unfold is_u64 in *. assert (x = y).
  { assert (M : (x + B * val a) mod B = (y + B * val b) mod B) by now rewrite E. rewrite !(Z.mul_comm B), !Z.mod_add in M by discriminate. rewrite !Z.mod_small in M by done. done. }
  subst y. f_equal. apply IH; [done|injection L; done|pose proof B_pos; nia].
Qed.
Lemma val_inj_norm a b : lok a -> lok b -> norm a -> norm b -> val a = val b -> a = b.
Proof. intros Ka Kb Na Nb E. apply val_inj; try done. apply Nat.le_antisymm; apply val_length_le; try done; lia. Qed.
Lemma limbs_inj m m' : mag_ok m -> mag_ok m' -> limbs m = limbs m' -> m = m'.
Proof.
  intros H H' E. destruct m as [x|v], m' as [y|w]; cbn in *.
  - destruct (Z.eqb_spec x 0), (Z.eqb_spec y 0); congruence.
  - destruct H' as (_ & _ & H'). exfalso. destruct (x =? 0); subst w; cbn in H'; lia.
  - destruct H as (_ & _ & H). exfalso. destruct (y =? 0); subst v; cbn in H; lia.
  - congruence.
Qed.
Lemma mag_inj m m' : mag_ok m -> mag_ok m' -> mval m = mval m' -> m = m'.
Proof. intros H H' E. apply limbs_inj; try done. apply limbs_ok in H as [? ?], H' as [? ?]. now apply val_inj_norm. Qed.

Theorem canon_inj x y : canon x -> canon y -> bval x = bval y -> x = y.
Proof.
  destruct x as [s m], y as [t m']. intros [Hm Hs] [Hm' Ht] E. unfold bval in E. cbn in *. pose proof (mval_nonneg m Hm). pose proof (mval_nonneg m' Hm').
  pose proof (mval_zero m Hm) as Zm. pose proof (mval_zero m' Hm') as Zm'.
  assert (Es : s = t).
  { destruct s, t; try done; exfalso.
    all: try (assert (mval m = 0) as X by lia; apply Zm in X; apply Hs in X; discriminate).
    all: assert (mval m' = 0) as X by lia; apply Zm' in X; apply Ht in X; discriminate. }
  subst t. f_equal. destruct s.
  - apply mag_inj; try done. lia.
  - rewrite (proj1 Hs), (proj1 Ht); done.
  - now apply mag_inj.
Qed.

Lemma mag_from_vec_ok v : lok v -> mag_ok (mag_from_vec v) /\ mval (mag_from_vec v) = val v.
Proof.
  intros K. unfold mag_from_vec. pose proof (normalize_lok v K) as K'. pose proof (normalize_norm v) as N. rewrite <- (normalize_val v). destruct (normalize v) as [|x [|y w]].
  - split; [cbn; unfold is_u64; pose proof B_pos; lia|reflexivity].
  - inversion K'; subst. split; [done|]. rewrite mval_inline. cbn [val]. lia.
  - split; [|reflexivity]. split; [done|]. split; [done|]. cbn. lia.
Qed.
Lemma from_sign_mag_ok neg v : lok v -> canon (from_sign_mag neg v) /\ bval (from_sign_mag neg v) = if neg then - val v else val v.
Proof.
  intros K. destruct (mag_from_vec_ok v K) as [H V]. unfold from_sign_mag, canon, bval. cbn [bi_sign bi_mag]. rewrite V. set (m := mag_from_vec v) in *.
  destruct (limbs m) as [|x l] eqn:E.
  - assert (mval m = 0) as Z0 by (unfold mval; now rewrite E). split; [split; [done|]|destruct neg; lia]. split; [intros _|done]. now apply mval_zero.
  - assert (mval m <> 0) as Z0. { intros Z0. apply mval_zero in Z0; [|done]. rewrite Z0 in E. discriminate. }
    split; [split; [done|]|now destruct neg]. split; [destruct neg; discriminate|]. intros X. apply (mval_zero m H) in X. done.
Qed.
Lemma from_u128_ok neg m : 0 <= m < B * B -> canon (from_sign_mag_u128 neg m) /\ bval (from_sign_mag_u128 neg m) = if neg then - m else m.
Proof.
  intros H. unfold from_sign_mag_u128. destruct (Z.eqb_spec m 0) as [->|N].
  { split; [|destruct neg; reflexivity]. split; [cbn; unfold is_u64; pose proof B_pos; lia|]. cbn. tauto. }
  pose proof (split64 m ltac:(lia)) as D. pose proof (shiftr64_bound m B H) as Hh. rewrite (wrap64_small (Z.shiftr m 64)) by done. pose proof (wrap64_u64 m) as Hl.
  unfold canon, bval. cbn [bi_sign bi_mag]. destruct (Z.eqb_spec (Z.shiftr m 64) 0) as [E|E].
  - rewrite E in D. split; [split; [done|split; [destruct neg; discriminate|intros [= X]; lia]]|]. rewrite mval_inline. destruct neg; lia.
  - split; [split; [|split; [destruct neg; discriminate|discriminate]]|].
    + split; [constructor; [done|constructor; [exact Hh|constructor]]|]. split; [|cbn; lia]. unfold norm. cbn. congruence.
    + unfold mval. cbn [limbs val]. destruct neg; lia.
Qed.

(** The canonical big integer of an integer. *)
Fixpoint limbs_of (n : nat) (z : Z) : list Z := match n with O => [] | S n => z mod B :: limbs_of n (z / B) end.
Definition of_Z (z : Z) : bigint := from_sign_mag (z <? 0) (limbs_of (S (Z.to_nat (Z.log2 (Z.abs z)))) (Z.abs z)).
Lemma limbs_of_ok n z : 0 <= z < B ^ Z.of_nat n -> lok (limbs_of n z) /\ val (limbs_of n z) = z.
Proof.
  revert z. induction n as [|n IH]; intros z H; cbn [limbs_of]; [split; [constructor|cbn in *; lia]|]. rewrite Bn_succ in H. pose proof B_pos as P.
  destruct (IH (z / B)) as [K V]; [split; [apply Z.div_pos; lia|apply Z.div_lt_upper_bound; lia]|]. split; [constructor; [apply Z.mod_pos_bound; lia|done]|].
  cbn [val]. rewrite V. pose proof (Z.div_mod z B ltac:(discriminate)). lia.
Qed.
Lemma limbs_of_enough z : 0 <= z -> z < B ^ Z.of_nat (S (Z.to_nat (Z.log2 z))).
Proof.
  intros H. destruct (Z.eq_dec z 0) as [->|N]; [reflexivity|]. pose proof (Z.log2_spec z ltac:(lia)) as [_ L]. pose proof (Z.log2_nonneg z).
  assert (2 ^ Z.succ (Z.log2 z) <= B ^ Z.of_nat (S (Z.to_nat (Z.log2 z)))); [|lia]. replace (Z.of_nat (S (Z.to_nat (Z.log2 z)))) with (Z.succ (Z.log2 z)) by lia.
  apply Z.pow_le_mono_l. split; [lia|discriminate].
Qed.
Lemma of_Z_ok z : canon (of_Z z) /\ bval (of_Z z) = z.
Proof.
  unfold of_Z. destruct (limbs_of_ok (S (Z.to_nat (Z.log2 (Z.abs z)))) (Z.abs z)) as [K V]; [split; [lia|apply limbs_of_enough; lia]|].
  destruct (from_sign_mag_ok (z <? 0) _ K) as [C W]. split; [done|]. rewrite W, V. destruct (Z.ltb_spec z 0); lia.
Qed.
Lemma canon_of_Z z : canon (of_Z z). Proof. apply of_Z_ok. Qed.
Lemma bval_of_Z z : bval (of_Z z) = z. Proof. apply of_Z_ok. Qed.
Lemma of_Z_bval b : canon b -> of_Z (bval b) = b.
Proof. intros C. apply canon_inj; [apply canon_of_Z|done|apply bval_of_Z]. Qed.
Lemma of_Z_inj x y : of_Z x = of_Z y -> x = y.
Proof. intros E. rewrite <- (bval_of_Z x), <- (bval_of_Z y). now rewrite E. Qed.
Lemma is_of_Z b z : canon b -> bval b = z -> b = of_Z z.
Proof. intros C <-. symmetry. now apply of_Z_bval. Qed.

(** ** The operations *)
Lemma zero_of_Z : bi_zero = of_Z 0.
Proof. reflexivity. Qed.
Lemma u128_of_Z neg m : 0 <= m < B * B -> from_sign_mag_u128 neg m = of_Z (if neg then - m else m).
Proof. intros H. destruct (from_u128_ok neg m H). now apply is_of_Z. Qed.
Lemma fsm_of_Z neg v : lok v -> from_sign_mag neg v = of_Z (if neg then - val v else val v).
Proof. intros K. destruct (from_sign_mag_ok neg v K). now apply is_of_Z. Qed.
Lemma from_i64_of_Z x : is_i64 x -> bi_from_i64 x = of_Z x.
Proof.
  intros H. unfold bi_from_i64. rewrite u128_of_Z; [f_equal; destruct (Z.ltb_spec x 0); lia|]. unfold is_i64 in H. split; [lia|]. assert (2 ^ 63 < B * B) by reflexivity. lia.
Qed.
Lemma from_u64_of_Z x : is_u64 x -> bi_from_u64 x = of_Z x.
Proof. intros H. unfold bi_from_u64. rewrite u128_of_Z; [done|]. unfold is_u64 in H. pose proof B_pos. nia. Qed.

(** The sign of a canonical form. *)
Lemma sign_of_Z z : bi_sign (of_Z z) = if z <? 0 then Neg else if z =? 0 then Zero else Pos.
Proof.
  pose proof (canon_of_Z z) as [H S]. pose proof (bval_of_Z z) as V. unfold bval in V. pose proof (mval_nonneg _ H). pose proof (mval_zero _ H) as M. rewrite <- S in M.
  destruct (bi_sign (of_Z z)); destruct (Z.ltb_spec z 0); try lia; destruct (Z.eqb_spec z 0); try lia; try done.
  all: exfalso; assert (X : mval (bi_mag (of_Z z)) = 0) by lia; apply M in X; discriminate.
Qed.
Lemma neg_of_Z z : bsign_eqb (bi_sign (of_Z z)) Neg = (z <? 0).
Proof. rewrite sign_of_Z. destruct (z <? 0), (z =? 0); reflexivity. Qed.
Lemma is_zero_of_Z z : bi_is_zero (of_Z z) = (z =? 0).
Proof. unfold bi_is_zero. rewrite sign_of_Z. destruct (Z.ltb_spec z 0), (Z.eqb_spec z 0); try reflexivity; lia. Qed.
Lemma is_negative_of_Z z : bi_is_negative (of_Z z) = (z <? 0).
Proof. apply neg_of_Z. Qed.
Lemma is_positive_of_Z z : bi_is_positive (of_Z z) = (0 <? z).
Proof. unfold bi_is_positive. rewrite sign_of_Z. destruct (Z.ltb_spec z 0), (Z.eqb_spec z 0), (Z.ltb_spec 0 z); try reflexivity; lia. Qed.
Lemma mval_of_Z z : mval (bi_mag (of_Z z)) = Z.abs z.
Proof.
  pose proof (canon_of_Z z) as [H S]. pose proof (bval_of_Z z) as V. pose proof (mval_nonneg _ H). unfold bval in V. rewrite sign_of_Z in V.
  destruct (Z.ltb_spec z 0); [lia|]. destruct (Z.eqb_spec z 0) as [->|]; [|lia]. apply mval_zero; [done|]. apply S. rewrite sign_of_Z. reflexivity.
Qed.
Lemma single_of_Z z a : as_single (bi_mag (of_Z z)) = Some a -> a = Z.abs z /\ is_u64 a.
Proof.
  pose proof (canon_of_Z z) as [H _]. rewrite <- mval_of_Z. destruct (bi_mag (of_Z z)) as [x|v]; [|discriminate]. intros [= ->]. rewrite mval_inline. done.
Qed.
Lemma not_single_of_Z z : as_single (bi_mag (of_Z z)) = None -> B <= Z.abs z.
Proof. pose proof (canon_of_Z z) as [H _]. rewrite <- mval_of_Z. destruct (bi_mag (of_Z z)) as [x|v]; [discriminate|]. intros _. now apply mval_heap. Qed.
Lemma limbs_of_Z z : lok (limbs (bi_mag (of_Z z))) /\ norm (limbs (bi_mag (of_Z z))) /\ val (limbs (bi_mag (of_Z z))) = Z.abs z.
Proof. pose proof (canon_of_Z z) as [H _]. pose proof (mval_of_Z z). apply limbs_ok in H as [? ?]. done. Qed.

Lemma negated_of_Z z : bi_negated (of_Z z) = of_Z (- z).
Proof.
  apply is_of_Z.
  - pose proof (canon_of_Z z) as [H S]. split; [exact H|]. cbn [bi_negated bi_abs bi_sign bi_mag]. rewrite <- S. destruct (bi_sign (of_Z z)); split; intros X; try discriminate; done.
  - pose proof (bval_of_Z z) as V. unfold bval in *. cbn [bi_negated bi_sign bi_mag]. destruct (bi_sign (of_Z z)); lia.
Qed.
Lemma abs_of_Z z : bi_abs (of_Z z) = of_Z (Z.abs z).
Proof.
  apply is_of_Z.
  - pose proof (canon_of_Z z) as [H S]. split; [exact H|]. cbn [bi_negated bi_abs bi_sign bi_mag]. rewrite <- S. destruct (bi_sign (of_Z z)); split; intros X; try discriminate; done.
  - pose proof (mval_of_Z z) as V. unfold bval. cbn [bi_abs bi_sign bi_mag]. rewrite sign_of_Z. destruct (Z.ltb_spec z 0); [exact V|]. destruct (Z.eqb_spec z 0); [subst; reflexivity|exact V].
Qed.
Lemma to_i64_of_Z z : bi_to_i64 (of_Z z) = if (- 2 ^ 63 <=? z) && (z <? 2 ^ 63) then Some z else None.
Proof.
  unfold bi_to_i64. rewrite neg_of_Z. destruct (as_single (bi_mag (of_Z z))) as [a|] eqn:E.
  - apply single_of_Z in E as [-> _]. assert ((if z <? 0 then - Z.abs z else Z.abs z) = z) as -> by (destruct (Z.ltb_spec z 0); lia).
    destruct (Z.leb_spec (- 2 ^ 63) z), (Z.leb_spec z (2 ^ 63 - 1)), (Z.ltb_spec z (2 ^ 63)); cbn; try done; lia.
  - apply not_single_of_Z in E. change B with (2 ^ 64) in E. destruct (Z.leb_spec (- 2 ^ 63) z), (Z.ltb_spec z (2 ^ 63)); cbn; try done; lia.
Qed.
Lemma is_odd_of_Z z : bi_is_odd (of_Z z) = Z.odd z.
Proof.
  unfold bi_is_odd. destruct (limbs_of_Z z) as (K & N & V). assert (Z.odd z = Z.odd (Z.abs z)) as -> by (destruct (Z.abs_eq_or_opp z) as [-> | ->]; [done|now rewrite Z.odd_opp]).
  rewrite <- V. destruct (limbs (bi_mag (of_Z z))) as [|x l]; [done|]. cbn [val]. change B with (2 * 2 ^ 63). rewrite <- Z.mul_assoc, Z.odd_add_mul_2.
  change 1 with (2 ^ 1 - 1) at 1. rewrite land_mask by lia. change (2 ^ 1) with 2. rewrite Zmod_odd. destruct (Z.odd x); reflexivity.
Qed.

Lemma add_of_Z x y : bi_add (of_Z x) (of_Z y) = of_Z (x + y).
Proof.
  unfold bi_add. destruct (limbs_of_Z x) as (Kx & Nx & Vx). destruct (limbs_of_Z y) as (Ky & Ny & Vy).
  assert (Slow : match bi_sign (of_Z x), bi_sign (of_Z y) with
      | Zero, _ => of_Z y
      | _, Zero => of_Z x
      | a, b =>
          if bsign_eqb a b then from_sign_mag (bsign_eqb a Neg) (mag_add (limbs (bi_mag (of_Z x))) (limbs (bi_mag (of_Z y))))
          else match mag_cmp (limbs (bi_mag (of_Z x))) (limbs (bi_mag (of_Z y))) with
               | Eq => bi_zero
               | Gt => from_sign_mag (bsign_eqb a Neg) (mag_sub (limbs (bi_mag (of_Z x))) (limbs (bi_mag (of_Z y))))
               | Lt => from_sign_mag (bsign_eqb b Neg) (mag_sub (limbs (bi_mag (of_Z y))) (limbs (bi_mag (of_Z x))))
               end
      end = of_Z (x + y)).
  { rewrite !sign_of_Z. set (a := limbs (bi_mag (of_Z x))) in *. set (b := limbs (bi_mag (of_Z y))) in *.
    destruct (mag_add_ok a b Kx Ky) as (Va & Ka & _). rewrite mag_cmp_val by done.
    destruct (Z.ltb_spec x 0); [|destruct (Z.eqb_spec x 0); [subst; f_equal; lia|]];
    (destruct (Z.ltb_spec y 0); [|destruct (Z.eqb_spec y 0); [subst; f_equal; lia|]]); cbn [bsign_eqb];
    try (rewrite fsm_of_Z by done; f_equal; lia).
    - destruct (Z.compare_spec (val a) (val b)).
      + rewrite zero_of_Z. f_equal. lia.
      + destruct (mag_sub_ok b a) as (Vs & Ks & _); try done; [lia|]. rewrite fsm_of_Z by done. f_equal. lia.
      + destruct (mag_sub_ok a b) as (Vs & Ks & _); try done; [lia|]. rewrite fsm_of_Z by done. f_equal. lia.
    - destruct (Z.compare_spec (val a) (val b)).
      + rewrite zero_of_Z. f_equal. lia.
      + destruct (mag_sub_ok b a) as (Vs & Ks & _); try done; [lia|]. rewrite fsm_of_Z by done. f_equal. lia.
      + destruct (mag_sub_ok a b) as (Vs & Ks & _); try done; [lia|]. rewrite fsm_of_Z by done. f_equal. lia. }
  destruct (as_single (bi_mag (of_Z x))) as [a|] eqn:Ea; [|exact Slow]. destruct (as_single (bi_mag (of_Z y))) as [b|] eqn:Eb; [|exact Slow].
  apply single_of_Z in Ea as [-> Ha], Eb as [-> Hb]. rewrite !neg_of_Z. unfold is_u64 in *.
  assert ((if x <? 0 then - Z.abs x else Z.abs x) = x) as -> by (destruct (Z.ltb_spec x 0); lia).
  assert ((if y <? 0 then - Z.abs y else Z.abs y) = y) as -> by (destruct (Z.ltb_spec y 0); lia).
  rewrite u128_of_Z; [f_equal; destruct (Z.ltb_spec (x + y) 0); lia|]. split; [lia|]. assert (B + B < B * B) by reflexivity. lia.
Qed.
Lemma sub_of_Z x y : bi_sub (of_Z x) (of_Z y) = of_Z (x - y).
Proof. unfold bi_sub. rewrite negated_of_Z, add_of_Z. f_equal. Qed.
Lemma xor_sign x y v : v = Z.abs x * Z.abs y -> (if xorb (x <? 0) (y <? 0) then - v else v) = x * y.
Proof. intros ->. destruct (Z.ltb_spec x 0), (Z.ltb_spec y 0); cbn [xorb]; nia. Qed.
Lemma mul_of_Z x y : bi_mul (of_Z x) (of_Z y) = of_Z (x * y).
Proof.
  unfold bi_mul. destruct (limbs_of_Z x) as (Kx & Nx & Vx). destruct (limbs_of_Z y) as (Ky & Ny & Vy). rewrite !neg_of_Z, !is_zero_of_Z.
  assert (Slow : (if (x =? 0) || (y =? 0) then bi_zero else from_sign_mag (xorb (x <? 0) (y <? 0)) (default [] (mag_mul (limbs (bi_mag (of_Z x))) (limbs (bi_mag (of_Z y)))))) = of_Z (x * y)).
  { destruct (Z.eqb_spec x 0) as [->|]; [reflexivity|]. destruct (Z.eqb_spec y 0) as [->|]; [cbn [orb]; rewrite zero_of_Z; f_equal; lia|]. cbn [orb].
    destruct (mag_mul_ok _ _ Kx Ky) as (r & -> & Vr & Kr & _). change (default [] (Some r)) with r. rewrite fsm_of_Z by done. f_equal. apply xor_sign. rewrite Vr, Vx, Vy. done. }
  destruct (as_single (bi_mag (of_Z x))) as [a|] eqn:Ea; [|exact Slow]. destruct (as_single (bi_mag (of_Z y))) as [b|] eqn:Eb; [|exact Slow].
  apply single_of_Z in Ea as [-> Ha], Eb as [-> Hb]. unfold is_u64 in *. rewrite wrap128_small by nia. rewrite u128_of_Z by nia. f_equal. now apply xor_sign.
Qed.
Lemma quot_sign x y : y <> 0 -> (if xorb (x <? 0) (y <? 0) then - (Z.abs x / Z.abs y) else Z.abs x / Z.abs y) = Z.quot x y.
Proof.
  intros Hy. destruct (Z.ltb_spec x 0), (Z.ltb_spec y 0); cbn [xorb].
  - rewrite (Z.abs_neq x), (Z.abs_neq y) by lia. rewrite <- Z.quot_div_nonneg by lia. now rewrite Z.quot_opp_opp.
  - rewrite (Z.abs_neq x), (Z.abs_eq y) by lia. rewrite <- Z.quot_div_nonneg by lia. rewrite Z.quot_opp_l by done. lia.
  - rewrite (Z.abs_eq x), (Z.abs_neq y) by lia. rewrite <- Z.quot_div_nonneg by lia. rewrite Z.quot_opp_r by done. lia.
  - rewrite (Z.abs_eq x), (Z.abs_eq y) by lia. now rewrite Z.quot_div_nonneg by lia.
Qed.
Lemma rem_sign x y : y <> 0 -> (if x <? 0 then - (Z.abs x mod Z.abs y) else Z.abs x mod Z.abs y) = Z.rem x y.
Proof.
  intros Hy. rewrite <- Z.rem_abs_r by done. destruct (Z.ltb_spec x 0).
  - rewrite (Z.abs_neq x) by lia. rewrite <- Z.rem_mod_nonneg by lia. rewrite Z.rem_opp_l by lia. lia.
  - rewrite (Z.abs_eq x) by lia. now rewrite Z.rem_mod_nonneg by lia.
Qed.
Lemma div_rem_of_Z x y : bi_div_rem (of_Z x) (of_Z y) = if y =? 0 then None else Some (of_Z (Z.quot x y), of_Z (Z.rem x y)).
Proof.
  unfold bi_div_rem. rewrite !neg_of_Z, !is_zero_of_Z. destruct (Z.eqb_spec y 0) as [->|Hy]; [done|].
  destruct (limbs_of_Z x) as (Kx & Nx & Vx). destruct (limbs_of_Z y) as (Ky & Ny & Vy).
  assert (Slow : (if x =? 0 then Some (bi_zero, bi_zero) else let '(qm, rm) := mag_divrem (limbs (bi_mag (of_Z x))) (limbs (bi_mag (of_Z y))) in
     Some (from_sign_mag (xorb (x <? 0) (y <? 0)) qm, from_sign_mag (x <? 0) rm)) = Some (of_Z (Z.quot x y), of_Z (Z.rem x y))).
  { destruct (Z.eqb_spec x 0) as [->|]; [rewrite Z.quot_0_l, Z.rem_0_l by done; reflexivity|].
    pose proof (mag_divrem_ok _ _ Kx Ky Nx Ny) as D. destruct (mag_divrem _ _) as [qm rm]. destruct D as (Kq & Kr & _ & _ & Vq & Vr); [lia|]. rewrite Vx, Vy in Vq, Vr.
    rewrite !fsm_of_Z by done. rewrite Vq, Vr, quot_sign, rem_sign by done. done. }
  destruct (as_single (bi_mag (of_Z x))) as [a|] eqn:Ea; [|exact Slow]. destruct (as_single (bi_mag (of_Z y))) as [b|] eqn:Eb; [|exact Slow].
  apply single_of_Z in Ea as [-> Ha], Eb as [-> Hb]. unfold is_u64 in *.
  assert (Q : 0 <= Z.abs x / Z.abs y <= Z.abs x) by (split; [apply Z.div_pos; lia|apply Z.div_le_upper_bound; nia]).
  pose proof (Z.mod_pos_bound (Z.abs x) (Z.abs y) ltac:(lia)) as R.
  rewrite !u128_of_Z by nia. rewrite quot_sign, rem_sign by done. done.
Qed.
Lemma cmp_of_Z x y : bi_cmp (of_Z x) (of_Z y) = (x ?= y).
Proof.
  unfold bi_cmp. destruct (limbs_of_Z x) as (Kx & Nx & Vx). destruct (limbs_of_Z y) as (Ky & Ny & Vy). rewrite !mag_cmp_val by done. rewrite Vx, Vy, !sign_of_Z.
  destruct (Z.ltb_spec x 0); [|destruct (Z.eqb_spec x 0)]; (destruct (Z.ltb_spec y 0); [|destruct (Z.eqb_spec y 0)]); cbn [rank Z.compare].
  all: try (symmetry; first [apply Z.compare_lt_iff; lia | apply Z.compare_gt_iff; lia | apply Z.compare_eq_iff; lia]).
  - rewrite (Z.abs_neq x), (Z.abs_neq y) by lia. cbn. rewrite Z.compare_opp. done.
  - rewrite (Z.abs_eq x), (Z.abs_eq y) by lia. done.
Qed.
Lemma bi_eqb_iff x y : bi_eqb x y = true <-> x = y.
Proof.
  destruct x as [s m], y as [t m']. unfold bi_eqb. cbn [bi_sign bi_mag]. rewrite andb_true_iff.
  assert (bsign_eqb s t = true <-> s = t) as -> by (destruct s, t; cbn; split; intros; done).
  destruct m as [a|a], m' as [b|b].
  - rewrite Z.eqb_eq. split; [intros [-> ->]; done|intros [= -> ->]; done].
  - split; [intros [_ ?]; done|discriminate].
  - split; [intros [_ ?]; done|discriminate].
  - rewrite bool_decide_eq_true. split; [intros [-> ->]; done|intros [= -> ->]; done].
Qed.
Lemma eqb_of_Z x y : bi_eqb (of_Z x) (of_Z y) = (x =? y).
Proof. apply eq_true_iff_eq. rewrite bi_eqb_iff, Z.eqb_eq. split; [apply of_Z_inj|now intros ->]. Qed.

Lemma land_1 x : Z.land x 1 = x mod 2.
Proof. apply (land_mask x 1). lia. Qed.
Lemma pow_loop_of_Z n r b e : 0 <= e < 2 ^ Z.of_nat n -> bi_pow_loop n (of_Z r) (of_Z b) e = of_Z (r * b ^ e).
Proof.
  revert r b e. induction n as [|n IH]; intros r b e H; cbn [bi_pow_loop].
  - assert (e = 0) as -> by (cbn in H; lia). f_equal. cbn. lia.
  - destruct (Z.eqb_spec e 0) as [->|N]; [f_equal; cbn; lia|]. rewrite land_1. rewrite Z.shiftr_div_pow2 by lia. change (2 ^ 1) with 2.
    rewrite Nat2Z.inj_succ, Z.pow_succ_r in H by lia. assert (H2 : 0 <= e / 2 < 2 ^ Z.of_nat n) by (split; [apply Z.div_pos; lia|apply Z.div_lt_upper_bound; lia]).
    pose proof (Z.div_mod e 2 ltac:(lia)) as D. pose proof (Z.mod_pos_bound e 2 ltac:(lia)) as M. set (h := e / 2) in *.
    assert (E : (if e mod 2 =? 1 then bi_mul (of_Z r) (of_Z b) else of_Z r) = of_Z (if e mod 2 =? 1 then r * b else r)) by (destruct (e mod 2 =? 1); [apply mul_of_Z|done]). rewrite E.
    assert (E2 : (if 0 <? h then bi_mul (of_Z b) (of_Z b) else of_Z b) = of_Z (if 0 <? h then b * b else b)) by (destruct (0 <? h); [apply mul_of_Z|done]). rewrite E2.
    rewrite IH by done. f_equal. assert (Ph : (if 0 <? h then b * b else b) ^ h = b ^ (2 * h)).
    { destruct (Z.ltb_spec 0 h); [|replace h with 0 by lia; reflexivity]. rewrite Z.pow_mul_r by lia. f_equal. lia. }
    rewrite Ph. replace (b ^ e) with (b ^ (2 * h + e mod 2)) by (f_equal; lia). destruct (Z.eqb_spec (e mod 2) 1) as [->|]; [rewrite Z.pow_add_r by lia; rewrite Z.pow_1_r; ring|]. replace (e mod 2) with 0 by lia. rewrite Z.add_0_r. done.
Qed.
Lemma pow_of_Z b e : 0 <= e < 2 ^ 32 -> bi_pow (of_Z b) e = of_Z (b ^ e).
Proof.
  intros H. unfold bi_pow. rewrite from_u64_of_Z by (unfold is_u64; split; [lia|reflexivity]). rewrite pow_loop_of_Z by exact H. f_equal. lia.
Qed.
