(* Proofs about the noise and rejection samplers *)
From Coq Require Import ZArith List Lia Bool.
Import ListNotations.
From Verif Require Import NttModel KemModel KemProofs.
Open Scope Z_scope.

(* ---- centred binomial noise ---- *)

Lemma testbit_0_mod t : Z.b2z (Z.testbit t 0) = t mod 2.
Proof. symmetry. rewrite <- Z.bit0_mod. reflexivity. Qed.

Lemma land_digit w t M : 1 <= w -> 0 <= M ->
  Z.land t (1 + 2 ^ w * M) = Z.b2z (Z.testbit t 0) + 2 ^ w * Z.land (Z.shiftr t w) M.
Proof.
  intros Hw HM.
  assert (HP : 2 <= 2 ^ w) by (pose proof (pow_le 1 w ltac:(lia)) as P; change (2 ^ 1) with 2 in P; lia).
  rewrite !(Z.mul_comm (2 ^ w)).
  rewrite <- !lor_shift; try lia.
  2:{ destruct (Z.testbit t 0); cbn [Z.b2z]; lia. }
  apply Z.bits_inj'. intros k Hk. rewrite Z.land_spec, !Z.lor_spec, !Z.shiftl_spec, Z.land_spec by lia.
  destruct (Z_lt_le_dec k w).
  - rewrite !(Z.testbit_neg_r _ (k - w)) by lia. rewrite andb_false_r, !orb_false_r.
    destruct (Z.eq_dec k 0) as [->|Hk0].
    + change (Z.testbit 1 0) with true. rewrite andb_true_r. destruct (Z.testbit t 0); reflexivity.
    + replace (Z.testbit 1 k) with false.
      2:{ symmetry. change 1 with (2 ^ 0). apply Z.pow2_bits_false. lia. }
      rewrite andb_false_r. symmetry. destruct (Z.testbit t 0); cbn [Z.b2z]; [|apply Z.bits_0].
      change 1 with (2 ^ 0). apply Z.pow2_bits_false. lia.
  - assert (Z1 : forall b, Z.testbit (Z.b2z b) k = false).
    { intros [|]; cbn [Z.b2z]; [|apply Z.bits_0]. change 1 with (2 ^ 0). apply Z.pow2_bits_false. lia. }
    rewrite Z1. rewrite (Z1 true : Z.testbit 1 k = false). cbn [orb].
    rewrite Z.shiftr_spec by lia. replace (k - w + w) with k by lia. reflexivity.
Qed.

Lemma land_digits w n : 1 <= w -> forall t k,
  0 <= t -> 0 <= k ->
  Z.land (Z.shiftr t k) (value w (repeat 1 n)) =
  value w (map (fun i => Z.b2z (Z.testbit t (w * Z.of_nat i + k))) (seq 0 n)).
Proof.
  intros Hw. induction n as [|n IH]; intros t k Ht Hk.
  { cbn. apply Z.land_0_r. }
  cbn [repeat value seq map]. rewrite land_digit; [|lia|].
  2:{ apply value_bound; [lia|]. apply Forall_forall. intros x Hx. apply repeat_spec in Hx. subst.
      pose proof (pow_le 1 w ltac:(lia)) as P. change (2 ^ 1) with 2 in P. lia. }
  rewrite Z.shiftr_spec by lia. rewrite Z.shiftr_shiftr by lia. rewrite IH by lia.
  f_equal; [do 2 f_equal; lia|]. f_equal. f_equal. rewrite <- seq_shift, map_map. apply map_ext.
  intros i. do 2 f_equal. lia.
Qed.

Lemma value_add w (f g : nat -> Z) l : value w (map f l) + value w (map g l) = value w (map (fun i => f i + g i) l).
Proof. induction l as [|x l IH]; cbn [map value]; [reflexivity|]. rewrite <- IH. ring. Qed.

Lemma b2z_range b : 0 <= Z.b2z b <= 1.
Proof. destruct b; cbn; lia. Qed.

Lemma value_digit_map w (f : nat -> Z) n k :
  0 <= w -> (forall i, 0 <= f i < 2 ^ w) -> (k < n)%nat ->
  Z.land (Z.shiftr (value w (map f (seq 0 n))) (w * Z.of_nat k)) (2 ^ w - 1) = f k.
Proof.
  intros Hw Hf Hk. rewrite land_mask, Z.shiftr_div_pow2 by lia.
  rewrite value_digit; [|lia| |rewrite map_length, seq_length; lia].
  - rewrite nth_indep with (d' := f 0%nat) by (rewrite map_length, seq_length; lia).
    rewrite map_nth, seq_nth by lia. reflexivity.
  - apply Forall_map, Forall_forall. intros; apply Hf.
Qed.

(* bit [k] of the buffer *)
Definition buf_bit (buf : list Z) (k : nat) : Z :=
  Z.b2z (Z.testbit (nth (k / 8) buf 0) (Z.of_nat (k mod 8))).

Lemma value_testbit l k : digits 8 l -> (k < 8 * length l)%nat ->
  Z.b2z (Z.testbit (value 8 l) (Z.of_nat k)) = buf_bit l k.
Proof.
  intros Hl Hk. unfold buf_bit. f_equal.
  pose proof (Nat.div_mod k 8 ltac:(lia)) as E. pose proof (Nat.mod_upper_bound k 8 ltac:(lia)).
  rewrite <- (value_digit 8 l (k / 8)); [|lia|exact Hl|].
  2:{ apply Nat.div_lt_upper_bound; lia. }
  rewrite Z.mod_pow2_bits_low by lia. rewrite Z.div_pow2_bits by lia. f_equal. lia.
Qed.

Lemma nth_skipn' {A} (dflt : A) k : forall l i, nth i (skipn k l) dflt = nth (k + i) l dflt.
Proof.
  induction k as [|k IH]; intros l i; [reflexivity|]. destruct l as [|x l]; cbn [skipn nth Nat.add].
  - destruct i; reflexivity.
  - apply IH.
Qed.
Lemma nth_firstn' {A} (dflt : A) n : forall l i, (i < n)%nat -> nth i (firstn n l) dflt = nth i l dflt.
Proof.
  induction n as [|n IH]; intros l i Hi; [lia|]. destruct l as [|x l]; [destruct i; reflexivity|].
  destruct i as [|i]; cbn [firstn nth]; [reflexivity|]. apply IH. lia.
Qed.

Lemma buf_bit_shift buf m n k i : (k < 8 * n)%nat -> firstn n (skipn (n * i) buf) = m -> length m = n ->
  buf_bit m k = buf_bit buf (8 * n * i + k).
Proof.
  intros Hk <- L. unfold buf_bit. f_equal. 
  replace ((8 * n * i + k) / 8)%nat with (n * i + k / 8)%nat.
  2:{ replace (8 * n * i + k)%nat with (k + (n * i) * 8)%nat by lia. rewrite Nat.div_add by lia. lia. }
  replace ((8 * n * i + k) mod 8)%nat with (k mod 8)%nat.
  2:{ replace (8 * n * i + k)%nat with (k + (n * i) * 8)%nat by lia. rewrite Nat.mod_add by lia. lia. }
  f_equal. assert (k / 8 < n)%nat by (apply Nat.div_lt_upper_bound; lia).
  rewrite nth_firstn' by lia. apply nth_skipn'.
Qed.

Lemma flat_map_seq {A} (f : nat -> A) n m :
  flat_map (fun i => map (fun j => f (n * i + j)%nat) (seq 0 n)) (seq 0 m) = map f (seq 0 (n * m)).
Proof.
  induction m as [|m IH]; [rewrite Nat.mul_0_r; reflexivity|].
  rewrite seq_S, flat_map_app, IH. cbn [flat_map Nat.add]. rewrite app_nil_r.
  replace (n * S m)%nat with (n * m + n)%nat by lia. rewrite seq_app, map_app. f_equal.
  change (0 + n * m)%nat with (n * m)%nat. generalize (n * m)%nat as a. clear. intros a.
  assert (G : forall b, map (fun j => f (a + j)%nat) (seq b n) = map f (seq (a + b) n)).
  { induction n as [|n IH]; intros b; cbn [seq map]; [reflexivity|]. f_equal.
    rewrite IH. rewrite <- plus_n_Sm. reflexivity. }
  rewrite G, Nat.add_0_r. reflexivity.
Qed.

Lemma nth_take_list {A} (n : nat) (dflt : A) l : (n <= length l)%nat -> firstn n l = map (fun i => nth i l dflt) (seq 0 n).
Proof.
  revert l. induction n as [|n IH]; intros [|x l] Hl; cbn [length] in Hl; try lia; try reflexivity.
  cbn [firstn seq map nth]. f_equal. rewrite IH by lia. rewrite <- seq_shift, map_map. reflexivity.
Qed.

Lemma window buf n i : (n * (i + 1) <= length buf)%nat ->
  firstn n (skipn (n * i) buf) = map (fun j => byte buf (n * i + j)) (seq 0 n).
Proof.
  intros Hl. rewrite (nth_take_list n 0) by (rewrite skipn_length; nia).
  apply map_ext. intros j. apply nth_skipn'.
Qed.

Lemma digits_window buf n i : digits 8 buf -> digits 8 (firstn n (skipn (n * i) buf)).
Proof.
  intros Hb. unfold digits in *. apply Forall_forall. intros x Hx. apply (proj1 (Forall_forall _ _) Hb).
  rewrite <- (firstn_skipn (n * i) buf). apply in_or_app. right.
  rewrite <- (firstn_skipn n (skipn (n * i) buf)). apply in_or_app. left. exact Hx.
Qed.

Lemma cbd2_group_spec buf i : digits 8 buf -> length buf = 128%nat -> (i < 32)%nat ->
  cbd2_group buf i = map (fun j => let c := (8 * i + j)%nat in
    buf_bit buf (4 * c) + buf_bit buf (4 * c + 1) - (buf_bit buf (4 * c + 2) + buf_bit buf (4 * c + 3))) (seq 0 8).
Proof.
  intros Hb L Hi. unfold cbd2_group. cbv zeta.
  pose proof (window buf 4 i ltac:(lia)) as W. cbn [seq map] in W. rewrite Nat.add_0_r in W.
  pose proof (digits_window buf 4 i Hb) as DW. rewrite W in DW.
  set (m := [byte buf (4 * i); byte buf (4 * i + 1); byte buf (4 * i + 2); byte buf (4 * i + 3)]) in *.
  replace (byte buf (4 * i) + 256 * (byte buf (4 * i + 1) + 256 * (byte buf (4 * i + 2) + 256 * byte buf (4 * i + 3))))
    with (value 8 m) by (unfold m; cbn [value]; change (2 ^ 8) with 256; ring).
  set (t := value 8 m). assert (Ht : 0 <= t) by (apply value_bound; [lia|exact DW]).
  change 0x55555555 with (value 2 (repeat 1 16)).
  change (Z.land t (value 2 (repeat 1 16))) with (Z.land (Z.shiftr t 0) (value 2 (repeat 1 16))). rewrite !land_digits by lia. rewrite value_add.
  apply map_ext_in. intros j Hj. apply in_seq in Hj. cbv zeta.
  replace (4 * Z.of_nat j) with (2 * Z.of_nat (2 * j)) by lia.
  replace (2 * Z.of_nat (2 * j) + 2) with (2 * Z.of_nat (2 * j + 1)) by lia.
  change 3 with (2 ^ 2 - 1).
  rewrite !value_digit_map; try lia.
  2:{ intros x. pose proof (b2z_range (Z.testbit t (2 * Z.of_nat x + 0))).
      pose proof (b2z_range (Z.testbit t (2 * Z.of_nat x + 1))). change (2 ^ 2) with 4. lia. }
  2:{ intros x. pose proof (b2z_range (Z.testbit t (2 * Z.of_nat x + 0))).
      pose proof (b2z_range (Z.testbit t (2 * Z.of_nat x + 1))). change (2 ^ 2) with 4. lia. }
  replace (2 * Z.of_nat (2 * j) + 0) with (Z.of_nat (4 * j)) by lia.
  replace (2 * Z.of_nat (2 * j) + 1) with (Z.of_nat (4 * j + 1)) by lia.
  replace (2 * Z.of_nat (2 * j + 1) + 0) with (Z.of_nat (4 * j + 2)) by lia.
  replace (2 * Z.of_nat (2 * j + 1) + 1) with (Z.of_nat (4 * j + 3)) by lia.
  unfold t. rewrite !value_testbit by (try exact DW; cbn [length m]; lia).
  rewrite !(buf_bit_shift buf m 4 _ i) by (try exact W; try reflexivity; lia).
  replace (4 * (8 * i + j))%nat with (8 * 4 * i + 4 * j)%nat by lia.
  rewrite !Nat.add_assoc. reflexivity.
Qed.

Lemma cbd3_group_spec buf i : digits 8 buf -> length buf = 192%nat -> (i < 64)%nat ->
  cbd3_group buf i = map (fun j => let c := (4 * i + j)%nat in
    buf_bit buf (6 * c) + buf_bit buf (6 * c + 1) + buf_bit buf (6 * c + 2)
    - (buf_bit buf (6 * c + 3) + buf_bit buf (6 * c + 4) + buf_bit buf (6 * c + 5))) (seq 0 4).
Proof.
  intros Hb L Hi. unfold cbd3_group. cbv zeta.
  pose proof (window buf 3 i ltac:(lia)) as W. cbn [seq map] in W. rewrite Nat.add_0_r in W.
  pose proof (digits_window buf 3 i Hb) as DW. rewrite W in DW.
  set (m := [byte buf (3 * i); byte buf (3 * i + 1); byte buf (3 * i + 2)]) in *.
  replace (Z.lor (Z.lor (byte buf (3 * i)) (Z.shiftl (byte buf (3 * i + 1)) 8)) (Z.shiftl (byte buf (3 * i + 2)) 16))
    with (value 8 m).
  2:{ unfold m in *. pose proof DW as DW0. unfold digits in DW0. apply Forall_cons_iff in DW0 as [B0 DW1].
      apply Forall_cons_iff in DW1 as [B1 DW2]. apply Forall_cons_iff in DW2 as [B2 DW3]. cbv beta in B0, B1, B2. change (2 ^ 8) with 256 in *.
      rewrite (lor_shift _ _ 8) by (change (2 ^ 8) with 256; lia). change (2 ^ 8) with 256.
      rewrite (lor_shift _ _ 16) by (change (2 ^ 16) with 65536; lia).
      cbn [value]. change (2 ^ 8) with 256. change (2 ^ 16) with (256 * 256). ring. }
  set (t := value 8 m). assert (Ht : 0 <= t) by (apply value_bound; [lia|exact DW]).
  change 0x249249 with (value 3 (repeat 1 8)).
  change (Z.land t (value 3 (repeat 1 8))) with (Z.land (Z.shiftr t 0) (value 3 (repeat 1 8))). rewrite !land_digits by lia. rewrite !value_add.
  apply map_ext_in. intros j Hj. apply in_seq in Hj. cbv zeta.
  replace (6 * Z.of_nat j) with (3 * Z.of_nat (2 * j)) by lia.
  replace (3 * Z.of_nat (2 * j) + 3) with (3 * Z.of_nat (2 * j + 1)) by lia.
  change 7 with (2 ^ 3 - 1).
  assert (R : forall x : nat, 0 <= Z.b2z (Z.testbit t (3 * Z.of_nat x + 0)) + Z.b2z (Z.testbit t (3 * Z.of_nat x + 1))
               + Z.b2z (Z.testbit t (3 * Z.of_nat x + 2)) < 2 ^ 3).
  { intros x. pose proof (b2z_range (Z.testbit t (3 * Z.of_nat x + 0))).
    pose proof (b2z_range (Z.testbit t (3 * Z.of_nat x + 1))).
    pose proof (b2z_range (Z.testbit t (3 * Z.of_nat x + 2))). change (2 ^ 3) with 8. lia. }
  rewrite !value_digit_map; try exact R; try lia.
  replace (3 * Z.of_nat (2 * j) + 0) with (Z.of_nat (6 * j)) by lia.
  replace (3 * Z.of_nat (2 * j) + 1) with (Z.of_nat (6 * j + 1)) by lia.
  replace (3 * Z.of_nat (2 * j) + 2) with (Z.of_nat (6 * j + 2)) by lia.
  replace (3 * Z.of_nat (2 * j + 1) + 0) with (Z.of_nat (6 * j + 3)) by lia.
  replace (3 * Z.of_nat (2 * j + 1) + 1) with (Z.of_nat (6 * j + 4)) by lia.
  replace (3 * Z.of_nat (2 * j + 1) + 2) with (Z.of_nat (6 * j + 5)) by lia.
  unfold t. rewrite !value_testbit by (try exact DW; cbn [length m]; lia).
  rewrite !(buf_bit_shift buf m 3 _ i) by (try exact W; try reflexivity; lia).
  replace (6 * (4 * i + j))%nat with (8 * 3 * i + 6 * j)%nat by lia.
  rewrite !Nat.add_assoc. reflexivity.
Qed.

Lemma flat_map_ext_in {A B} (f g : A -> list B) l : (forall x, In x l -> f x = g x) -> flat_map f l = flat_map g l.
Proof.
  induction l as [|x l IH]; intros E; [reflexivity|]. cbn [flat_map]. rewrite (E x) by (left; reflexivity).
  rewrite IH; [reflexivity|]. intros y Hy. apply E. right. exact Hy.
Qed.

Lemma buf_bit_mod buf k : buf_bit (map (fun x => x mod 256) buf) k = buf_bit buf k.
Proof.
  unfold buf_bit. f_equal. rewrite (map_nth (fun x => x mod 256) buf 0 (k / 8) : nth (k / 8) (map (fun x => x mod 256) buf) 0 = _).
  change 256 with (2 ^ 8). apply Z.mod_pow2_bits_low. pose proof (Nat.mod_upper_bound k 8 ltac:(lia)). lia.
Qed.

Lemma cbd2_spec buf : length buf = 128%nat ->
  mlkem_cbd2 buf = Some (map (fun c =>
    buf_bit buf (4 * c) + buf_bit buf (4 * c + 1) - (buf_bit buf (4 * c + 2) + buf_bit buf (4 * c + 3))) (seq 0 256)).
Proof.
  intros L. unfold mlkem_cbd2, cbd_eta2. rewrite map_length, L. change (128 =? 128)%nat with true. cbv iota. f_equal.
  set (b := map (fun x => x mod 256) buf).
  rewrite (flat_map_ext_in _ (fun i => map (fun j => (fun c => buf_bit b (4 * c) + buf_bit b (4 * c + 1) - (buf_bit b (4 * c + 2) + buf_bit b (4 * c + 3))) (8 * i + j)%nat) (seq 0 8))).
  - etransitivity; [exact (flat_map_seq (fun c => buf_bit b (4 * c) + buf_bit b (4 * c + 1) - (buf_bit b (4 * c + 2) + buf_bit b (4 * c + 3))) 8 32)|].
    change (8 * 32)%nat with 256%nat. apply map_ext. intros c.
    unfold b. rewrite !buf_bit_mod. reflexivity.
  - intros i Hi. apply in_seq in Hi. apply cbd2_group_spec; [apply (digits_mod 8); lia|unfold b; rewrite map_length; exact L|lia].
Qed.

Lemma cbd3_spec buf : length buf = 192%nat ->
  mlkem_cbd3 buf = Some (map (fun c =>
    buf_bit buf (6 * c) + buf_bit buf (6 * c + 1) + buf_bit buf (6 * c + 2)
    - (buf_bit buf (6 * c + 3) + buf_bit buf (6 * c + 4) + buf_bit buf (6 * c + 5))) (seq 0 256)).
Proof.
  intros L. unfold mlkem_cbd3, cbd_eta3. rewrite map_length, L. change (192 =? 192)%nat with true. cbv iota. f_equal.
  set (b := map (fun x => x mod 256) buf).
  rewrite (flat_map_ext_in _ (fun i => map (fun j => (fun c => buf_bit b (6 * c) + buf_bit b (6 * c + 1) + buf_bit b (6 * c + 2)
    - (buf_bit b (6 * c + 3) + buf_bit b (6 * c + 4) + buf_bit b (6 * c + 5))) (4 * i + j)%nat) (seq 0 4))).
  - etransitivity; [exact (flat_map_seq (fun c => buf_bit b (6 * c) + buf_bit b (6 * c + 1) + buf_bit b (6 * c + 2)
    - (buf_bit b (6 * c + 3) + buf_bit b (6 * c + 4) + buf_bit b (6 * c + 5))) 4 64)|].
    change (4 * 64)%nat with 256%nat. apply map_ext. intros c.
    unfold b. rewrite !buf_bit_mod. reflexivity.
  - intros i Hi. apply in_seq in Hi. apply cbd3_group_spec; [apply (digits_mod 8); lia|unfold b; rewrite map_length; exact L|lia].
Qed.

(* ---- rejection sampling ---- *)

Fixpoint cands (s : list Z) : list Z :=
  match s with b0 :: b1 :: b2 :: s => cand1 b0 b1 :: cand2 b1 b2 :: cands s | _ => [] end.
Definition accept (l : list Z) : list Z := List.filter (fun c => c <? Q) l.

Lemma keep_spec want out b0 b1 b2 : (length out < want)%nat ->
  keep want out b0 b1 b2 = out ++ firstn (want - length out) (accept [cand1 b0 b1; cand2 b1 b2]).
Proof.
  intros Hl. unfold keep, accept. cbn [List.filter].
  destruct (cand1 b0 b1 <? Q), (cand2 b1 b2 <? Q); cbn [andb].
  - destruct (Nat.ltb_spec (length (out ++ [cand1 b0 b1])) want) as [Hlt|Hge]; rewrite app_length in *; cbn [length] in *.
    + destruct (want - length out)%nat as [|[|w]] eqn:E; try lia. cbn [firstn]. rewrite firstn_nil, <- app_assoc. reflexivity.
    + destruct (want - length out)%nat as [|[|w]] eqn:E; try lia. cbn [firstn]. reflexivity.
  - destruct (want - length out)%nat as [|w] eqn:E; try lia. cbn [firstn]. rewrite firstn_nil. reflexivity.
  - destruct (Nat.ltb_spec (length out) want); [|lia].
    destruct (want - length out)%nat as [|w] eqn:E; try lia. cbn [firstn]. rewrite firstn_nil. reflexivity.
  - rewrite firstn_nil, app_nil_r. reflexivity.
Qed.

Lemma accept_app a b : accept (a ++ b) = accept a ++ accept b.
Proof. apply List.filter_app. Qed.

(* taking in two goes *)
Lemma take_more {A} n (out a b : list A) : (length out <= n)%nat ->
  (out ++ firstn (n - length out) a) ++ firstn (n - length (out ++ firstn (n - length out) a)) b
  = out ++ firstn (n - length out) (a ++ b).
Proof.
  intros Hl. rewrite <- app_assoc. f_equal. rewrite firstn_app. f_equal.
  rewrite app_length, firstn_length. destruct (Nat.le_ge_cases (length a) (n - length out)).
  - rewrite Nat.min_r by lia. f_equal. lia.
  - rewrite Nat.min_l by lia. replace (n - (length out + (n - length out)))%nat with 0%nat by lia.
    replace (n - length out - length a)%nat with 0%nat by lia. reflexivity.
Qed.

Lemma triples {A} (P : list A -> Prop) :
  (forall l, (length l < 3)%nat -> P l) -> (forall a b c l, P l -> P (a :: b :: c :: l)) -> forall l, P l.
Proof.
  intros H0 H1 l. assert (G : forall n l, (length l < n)%nat -> P l).
  { induction n as [|n IH]; intros l' Hl; [lia|].
    destruct l' as [|a [|b [|c l']]]; try (apply H0; cbn; lia). apply H1, IH. cbn [length] in Hl. lia. }
  apply (G (S (length l))). lia.
Qed.

Lemma try_sample_spec want stream : forall out, (length out <= want)%nat ->
  try_sample want out stream =
    if (want <=? length out + length (accept (cands stream)))%nat
    then Some (out ++ firstn (want - length out) (accept (cands stream))) else None.
Proof.
  induction stream as [l Hl|b0 b1 b2 l IH] using triples; intros out Ho.
  - assert (E : cands l = []) by (destruct l as [|? [|? [|? ?]]]; cbn [length] in Hl; try lia; reflexivity).
    rewrite E. cbn [accept List.filter length]. rewrite firstn_nil, app_nil_r, Nat.add_0_r.
    assert (T : try_sample want out l = if (length out <? want)%nat then None else Some out).
    { destruct l as [|? [|? [|? ?]]]; cbn [length] in Hl; try lia; reflexivity. }
    rewrite T. destruct (Nat.ltb_spec (length out) want), (Nat.leb_spec want (length out)); try lia; reflexivity.
  - cbn [try_sample cands]. destruct (Nat.ltb_spec (length out) want) as [Hlt|Hge].
    + rewrite keep_spec by lia.
      set (a := accept [cand1 b0 b1; cand2 b1 b2]).
      change (accept (cand1 b0 b1 :: cand2 b1 b2 :: cands l)) with (accept ([cand1 b0 b1; cand2 b1 b2] ++ cands l)).
      rewrite accept_app. fold a. rewrite IH.
      2:{ rewrite app_length, firstn_length. lia. }
      rewrite take_more by lia. rewrite !app_length, firstn_length.
      match goal with |- (if ?x then _ else _) = (if ?y then _ else _) => replace x with y; [reflexivity|] end.
      destruct (Nat.leb_spec want (length out + (length a + length (accept (cands l)))));
      destruct (Nat.leb_spec want (length out + Nat.min (want - length out) (length a) + length (accept (cands l)))); try lia; reflexivity.
    + replace (want - length out)%nat with 0%nat by lia. cbn [firstn]. rewrite app_nil_r.
      destruct (Nat.leb_spec want (length out + length (accept (cand1 b0 b1 :: cand2 b1 b2 :: cands l)))); [reflexivity|lia].
Qed.

Lemma reject_block_spec block : forall out, (length out <= 256)%nat ->
  reject_block out block = out ++ firstn (256 - length out) (accept (cands block)).
Proof.
  induction block as [l Hl|b0 b1 b2 l IH] using triples; intros out Ho.
  - assert (E : cands l = []) by (destruct l as [|? [|? [|? ?]]]; cbn [length] in Hl; try lia; reflexivity).
    rewrite E. cbn [accept List.filter]. rewrite firstn_nil, app_nil_r.
    destruct l as [|? [|? [|? ?]]]; cbn [length] in Hl; try lia; reflexivity.
  - cbn [reject_block cands]. destruct (Nat.ltb_spec (length out) 256) as [Hlt|Hge].
    + rewrite keep_spec by lia. rewrite IH.
      2:{ rewrite app_length, firstn_length. lia. }
      rewrite take_more by lia. rewrite <- accept_app. reflexivity.
    + replace (256 - length out)%nat with 0%nat by lia. cbn [firstn]. rewrite app_nil_r. reflexivity.
Qed.

(* the candidates are the twelve-bit digits of the stream *)
Lemma cands_app a b : (Nat.modulo (length a) 3 = 0)%nat -> cands (a ++ b) = cands a ++ cands b.
Proof.
  induction a as [l Hl|b0 b1 b2 l IH] using triples; intros M.
  - destruct l as [|? [|? [|? ?]]]; cbn [length] in *; try lia; try discriminate; reflexivity.
  - cbn [app cands]. rewrite IH; [reflexivity|]. cbn [length] in M.
    replace (S (S (S (length l)))) with (length l + 1 * 3)%nat in M by lia. rewrite Nat.mod_add in M by lia. exact M.
Qed.

Lemma cands_digits s : digits 8 s ->
  cands s = map (fun k => value 8 s / 2 ^ (12 * Z.of_nat k) mod 2 ^ 12) (seq 0 (2 * (length s / 3))).
Proof.
  induction s as [l Hl|b0 b1 b2 l IH] using triples; intros D.
  - destruct l as [|? [|? [|? ?]]]; cbn [length] in *; try lia; reflexivity.
  - inversion D as [|? ? B0 D1]; subst. inversion D1 as [|? ? B1 D2]; subst. inversion D2 as [|? ? B2 D3]; subst. cbv beta in B0, B1, B2.
    change (2 ^ 8) with 256 in *. cbn [cands length].
    replace (2 * (S (S (S (length l))) / 3))%nat with (2 + 2 * (length l / 3))%nat.
    2:{ replace (S (S (S (length l)))) with (length l + 1 * 3)%nat by lia. rewrite Nat.div_add by lia. lia. }
    assert (EV : value 8 (b0 :: b1 :: b2 :: l) = cand1 b0 b1 + 2 ^ 12 * (cand2 b1 b2 + 2 ^ 12 * value 8 l)).
    { cbn [value]. unfold cand1, cand2. change (2 ^ 12) with 4096. change (2 ^ 8) with 256.
      pose proof (Z.div_mod b1 16 ltac:(lia)). lia. }
    assert (C1 : 0 <= cand1 b0 b1 < 2 ^ 12).
    { unfold cand1. change (2 ^ 12) with 4096. pose proof (Z.mod_pos_bound b1 16 ltac:(lia)). lia. }
    assert (C2 : 0 <= cand2 b1 b2 < 2 ^ 12).
    { unfold cand2. change (2 ^ 12) with 4096.
      assert (0 <= b1 / 16 < 16) by (split; [apply Z.div_pos; lia|apply Z.div_lt_upper_bound; lia]). lia. }
    rewrite EV. set (v := value 8 l) in *. change (2 + 2 * (length l / 3))%nat with (S (S (2 * (length l / 3)))).
    cbn [seq map]. rewrite <- !seq_shift, !map_map. f_equal; [|f_equal].
    + change (2 ^ (12 * Z.of_nat 0)) with 1. rewrite Z.div_1_r, Z.mul_comm, Z.mod_add by lia.
      symmetry. apply Z.mod_small. exact C1.
    + change (12 * Z.of_nat 1) with 12. rewrite (Z.mul_comm (2 ^ 12)), Z.div_add by lia. rewrite (Z.div_small (cand1 b0 b1)) by lia.
      rewrite Z.add_0_l, Z.mul_comm, Z.mod_add by lia. symmetry. apply Z.mod_small. exact C2.
    + rewrite IH by exact D3. apply map_ext. intros k.
      replace (12 * Z.of_nat (S (S k))) with (12 + (12 + 12 * Z.of_nat k)) by lia.
      rewrite !Z.pow_add_r by lia.
      assert (0 < 2 ^ (12 * Z.of_nat k)) by (apply Z.pow_pos_nonneg; lia).
      rewrite <- !Z.div_div by lia.
      rewrite (Z.mul_comm (2 ^ 12) (cand2 b1 b2 + 2 ^ 12 * v)), Z.div_add by lia. rewrite (Z.div_small (cand1 b0 b1)) by lia.
      rewrite Z.add_0_l, (Z.mul_comm (2 ^ 12) v), Z.div_add by lia. rewrite (Z.div_small (cand2 b1 b2)) by lia. reflexivity.
Qed.

(* block by block is as one stream *)
Lemma sample_a_spec squeeze fuel : (forall n, length (squeeze n) = 168%nat) -> forall n out, (length out < 256)%nat ->
  sample_a reject_block squeeze fuel n out =
    try_sample 256 out (concat (map squeeze (seq n fuel))).
Proof.
  intros Hs. induction fuel as [|f IH]; intros n out Ho.
  { cbn [sample_a seq map concat try_sample]. destruct (Nat.ltb_spec (length out) 256); [reflexivity|lia]. }
  cbn [sample_a seq map concat]. rewrite reject_block_spec by lia.
  set (a := accept (cands (squeeze n))).
  rewrite (try_sample_spec 256 (squeeze n ++ _)) by lia.
  rewrite cands_app by (rewrite Hs; reflexivity). rewrite accept_app. fold a.
  set (out' := out ++ firstn (256 - length out) a).
  assert (L : length out' = (length out + Nat.min (256 - length out) (length a))%nat)
    by (unfold out'; rewrite app_length, firstn_length; reflexivity).
  destruct (Nat.leb_spec 256 (length out')) as [H1|H1].
  - destruct (Nat.leb_spec 256 (length out + length (a ++ accept (cands (concat (map squeeze (seq (S n) f)))))));
      rewrite app_length in *; [|lia].
    f_equal. rewrite firstn_all2 by lia. unfold out'. f_equal. rewrite firstn_app.
    replace (256 - length out - length a)%nat with 0%nat by lia. cbn [firstn]. rewrite app_nil_r. reflexivity.
  - rewrite IH by lia. rewrite try_sample_spec by lia. unfold out' at 2 3. rewrite take_more by lia. fold out'.
    rewrite app_length.
    match goal with |- (if ?x then _ else _) = (if ?y then _ else _) => replace x with y; [reflexivity|] end.
    f_equal. lia.
Qed.

(* ---- the vector sampler ---- *)

Lemma take_min {A} n k (l : list A) : firstn (Nat.min n k) l = firstn k (firstn n l).
Proof. rewrite firstn_firstn. f_equal. lia. Qed.

Lemma movemask_filter c0 c1 c2 c3 c4 c5 c6 c7 (f : Z -> bool) (x0 x1 x2 x3 x4 x5 x6 x7 x8 x9 x10 x11 x12 x13 x14 x15 : Z) :
  c0 = x0 + 256 * x1 -> c1 = x2 + 256 * x3 -> c2 = x4 + 256 * x5 -> c3 = x6 + 256 * x7 ->
  c4 = x8 + 256 * x9 -> c5 = x10 + 256 * x11 -> c6 = x12 + 256 * x13 -> c7 = x14 + 256 * x15 ->
  let m := movemask (map f [c0; c1; c2; c3; c4; c5; c6; c7]) in
  firstn (count_ones 8 m) (lanes_of (shuffle8 [x0; x1; x2; x3; x4; x5; x6; x7; x8; x9; x10; x11; x12; x13; x14; x15] (rej_table m)))
  = List.filter f [c0; c1; c2; c3; c4; c5; c6; c7].
Proof.
  intros E0 E1 E2 E3 E4 E5 E6 E7. cbn [map List.filter].
  destruct (f c0), (f c1), (f c2), (f c3), (f c4), (f c5), (f c6), (f c7);
    rewrite ?E0, ?E1, ?E2, ?E3, ?E4, ?E5, ?E6, ?E7; reflexivity.
Qed.

Lemma half_spec out cand : length cand = 8%nat -> (length out <= 256)%nat ->
  half_x8 out cand = out ++ firstn (256 - length out) (accept cand).
Proof.
  intros L Ho. unfold half_x8. destruct (Nat.leb_spec 256 (length out)) as [H1|H1].
  { replace (256 - length out)%nat with 0%nat by lia. cbn [firstn]. rewrite app_nil_r. reflexivity. }
  destruct cand as [|c0 [|c1 [|c2 [|c3 [|c4 [|c5 [|c6 [|c7 [|? ?]]]]]]]]]; cbn [length] in L; try lia.
  cbv zeta. rewrite take_min. f_equal. f_equal. unfold bytes_of, accept. cbn [flat_map app].
  apply movemask_filter; rewrite Z.add_comm; apply Z.div_mod; lia.
Qed.

Lemma spread_even b0 b1 : 0 <= b0 < 256 -> 0 <= b1 < 256 -> Z.land (b0 + 256 * b1) 4095 = cand1 b0 b1.
Proof.
  intros H0 H1. change 4095 with (2 ^ 12 - 1). rewrite land_mask by lia. change (2 ^ 12) with 4096. unfold cand1.
  pose proof (Z.div_mod b1 16 ltac:(lia)). pose proof (Z.mod_pos_bound b1 16 ltac:(lia)).
  symmetry. apply Z.mod_unique with (b1 / 16); lia.
Qed.
Lemma spread_odd b1 b2 : 0 <= b1 < 256 -> 0 <= b2 < 256 -> Z.land (Z.shiftr (b1 + 256 * b2) 4) 4095 = cand2 b1 b2.
Proof.
  intros H1 H2. change 4095 with (2 ^ 12 - 1). rewrite land_mask by lia. rewrite Z.shiftr_div_pow2 by lia.
  change (2 ^ 12) with 4096. change (2 ^ 4) with 16. unfold cand2.
  replace (b1 + 256 * b2) with (b1 + (16 * b2) * 16) by lia. rewrite Z.div_add by lia.
  apply Z.mod_small. assert (0 <= b1 / 16 < 16) by (split; [apply Z.div_pos; lia|apply Z.div_lt_upper_bound; lia]). lia.
Qed.

Lemma group_cands block : digits 8 block -> (24 <= length block)%nat ->
  spread (firstn 16 block) idx_lo ++ spread (firstn 16 (skipn 8 block)) idx_hi = cands (firstn 24 block)
  /\ length (spread (firstn 16 block) idx_lo) = 8%nat /\ length (spread (firstn 16 (skipn 8 block)) idx_hi) = 8%nat.
Proof.
  intros D L.
  do 24 (destruct block as [|? block]; cbn [length] in L; [lia|]).
  unfold digits in D. change (2 ^ 8) with 256 in D. repeat (apply Forall_cons_iff in D; destruct D as [? D]).
  cbn [firstn skipn cands].
  split; [|split; reflexivity].
  rewrite <- !spread_even, <- !spread_odd by assumption. reflexivity.
Qed.

Lemma reject_groups_spec n : forall out block, digits 8 block -> length block = (24 * n)%nat -> (length out <= 256)%nat ->
  reject_groups n out block = out ++ firstn (256 - length out) (accept (cands block)).
Proof.
  induction n as [|n IH]; intros out block D L Ho.
  { destruct block; [|cbn in L; lia]. cbn [reject_groups cands accept List.filter]. rewrite firstn_nil, app_nil_r. reflexivity. }
  cbn [reject_groups]. destruct (Nat.ltb_spec (length out) 256) as [H1|H1].
  - destruct (group_cands block D ltac:(lia)) as (E & L1 & L2). cbv zeta.
    rewrite (half_spec out) by assumption. rewrite half_spec; [|assumption|rewrite app_length, firstn_length; lia].
    rewrite take_more by lia. rewrite <- accept_app, E.
    rewrite IH.
    + rewrite take_more by lia. rewrite <- accept_app, <- cands_app.
      * rewrite firstn_skipn. reflexivity.
      * rewrite firstn_length, Nat.min_l by lia. reflexivity.
    + unfold digits in *. rewrite <- (firstn_skipn 24 block) in D. apply Forall_app in D. apply D.
    + rewrite skipn_length. lia.
    + rewrite app_length, firstn_length. lia.
  - replace (256 - length out)%nat with 0%nat by lia. cbn [firstn]. rewrite app_nil_r. reflexivity.
Qed.
