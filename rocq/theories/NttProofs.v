(* Lemmas about the ML-KEM transform of NttModel.v: both the scalar loops and
   the AVX2 loops compute, level by level, one explicit function of the array. *)
From Coq Require Import ZArith List Lia Bool Zdiv Setoid Morphisms.
Import ListNotations.
From Verif Require Import NttModel.
Open Scope Z_scope.

Local Ltac zdm x y := pose proof (Z.div_mod x y ltac:(lia)); pose proof (Z.mod_pos_bound x y ltac:(lia)).

(* ---------- machine integers ---------- *)

Lemma w16_range x : -32768 <= w16 x < 32768.
Proof. unfold w16. zdm (x + 32768) 65536. lia. Qed.

Lemma w16_id x : -32768 <= x < 32768 -> w16 x = x.
Proof. intros H. unfold w16. rewrite Z.mod_small by lia. lia. Qed.

Lemma w16_spec x : exists k, w16 x = x + 65536 * k.
Proof. unfold w16. zdm (x + 32768) 65536. exists (- ((x + 32768) / 65536)). lia. Qed.

Lemma w16_eq x y k : x = y + 65536 * k -> w16 x = w16 y.
Proof.
  intros ->. unfold w16. f_equal. replace (y + 65536 * k + 32768) with (y + 32768 + k * 65536) by lia.
  now rewrite Z_mod_plus_full.
Qed.

Definition mt (a : Z) : Z := w16 (w16 a * QINV).

(* the multiple of q subtracted agrees with the argument modulo 2^16 *)
Lemma mt_spec a : exists k, a - mt a * Q = 65536 * k.
Proof.
  unfold mt. destruct (w16_spec a) as [k1 E1]. destruct (w16_spec (w16 a * QINV)) as [k2 E2].
  rewrite E2, E1. unfold QINV, Q.
  exists (169 * a - (k1 * -3327 + k2) * 3329). nia.
Qed.

Lemma mont_shift a k : a - mt a * Q = 65536 * k -> montgomery_reduce a = w16 k.
Proof.
  intros H. unfold montgomery_reduce. fold (mt a). rewrite H.
  rewrite Z.shiftr_div_pow2 by lia. change (2 ^ 16) with 65536.
  rewrite Z.mul_comm, Z.div_mul by lia. reflexivity.
Qed.

Lemma mont_spec a : -32768 * Q <= a < 32768 * Q ->
  - Q < montgomery_reduce a < Q /\ exists k, montgomery_reduce a * 65536 = a + Q * k.
Proof.
  intros Ha. destruct (mt_spec a) as [k Hk]. rewrite (mont_shift a k Hk).
  pose proof (w16_range (w16 a * QINV)). fold (mt a) in H.
  assert (Hb : - Q < k < Q) by (unfold Q in *; lia).
  rewrite w16_id by (unfold Q in *; lia). split; [exact Hb|].
  exists (- mt a). lia.
Qed.

Lemma fqmul_spec a b : -32768 <= a < 32768 -> Z.abs b < Q ->
  - Q < fqmul a b < Q /\ exists k, fqmul a b * 65536 = a * b + Q * k.
Proof.
  intros Ha Hb. unfold fqmul. apply mont_spec. unfold Q in *. nia.
Qed.

Lemma fqmul_comm a b : fqmul a b = fqmul b a.
Proof. unfold fqmul. now rewrite Z.mul_comm. Qed.

Lemma barrett_spec a : -32768 <= a < 32768 ->
  - 1664 <= barrett_reduce a <= 1664 /\ exists k, barrett_reduce a = a + Q * k.
Proof.
  intros Ha. unfold barrett_reduce.
  replace barrett_v with 20159 by reflexivity.
  rewrite Z.shiftr_div_pow2 by lia. change (2 ^ 26) with 67108864. change (2 ^ 25) with 33554432.
  set (t := (20159 * a + 33554432) / 67108864).
  zdm (20159 * a + 33554432) 67108864. fold t in H. unfold Q.
  rewrite (w16_id t) by lia.
  destruct (w16_spec (t * 3329)) as [k Ek].
  rewrite (w16_eq _ (a - t * 3329) (- k)) by lia.
  rewrite w16_id by lia.
  split; [lia | exists (- t); lia].
Qed.

Lemma cadd_spec x : - Q < x < Q -> cadd_q x = x mod Q.
Proof.
  intros H. unfold cadd_q. rewrite Z.shiftr_div_pow2 by lia. change (2 ^ 15) with 32768.
  unfold Q in *. destruct (Z_lt_ge_dec x 0).
  - replace (x / 32768) with (-1) by (apply Z.div_unique with (x + 32768); lia).
    rewrite Z.land_m1_r. unfold u16. rewrite Z.mod_small by lia.
    apply Z.mod_unique with (-1); lia.
  - rewrite Z.div_small by lia. rewrite Z.land_0_r. unfold u16.
    rewrite !Z.mod_small by lia. lia.
Qed.

(* the lane forms of the two reductions *)
Lemma mont_lane a b :
  w16 (Z.shiftr (b * a) 16 - Z.shiftr (w16 (w16 (b * a) * QINV) * Q) 16) = fqmul a b.
Proof.
  unfold fqmul. destruct (mt_spec (a * b)) as [k Hk]. rewrite (mont_shift _ _ Hk).
  rewrite (Z.mul_comm b a). fold (mt (a * b)). f_equal.
  rewrite !Z.shiftr_div_pow2 by lia. change (2 ^ 16) with 65536.
  replace (a * b) with (mt (a * b) * Q + k * 65536) at 1 by lia.
  rewrite Z.div_add by lia. lia.
Qed.

Lemma barrett_lane a : -32768 <= a < 32768 ->
  w16 (a - w16 (Z.shiftr (w16 (Z.shiftr (a * w16 barrett_v) 16 + 512)) 10 * Q)) = barrett_reduce a.
Proof.
  intros Ha. unfold barrett_reduce. do 3 f_equal.
  replace barrett_v with 20159 by reflexivity. rewrite (w16_id 20159) by lia.
  rewrite !Z.shiftr_div_pow2 by lia.
  change (2 ^ 16) with 65536. change (2 ^ 10) with 1024.
  change (2 ^ 26) with 67108864. change (2 ^ 25) with 33554432.
  zdm (a * 20159) 65536. rewrite (w16_id (a * 20159 / 65536 + 512)) by lia.
  assert (E : (a * 20159 / 65536 + 512) / 1024 = (20159 * a + 33554432) / 67108864).
  { zdm (a * 20159 / 65536 + 512) 1024.
    apply Z.div_unique with
      (a * 20159 mod 65536 + 65536 * ((a * 20159 / 65536 + 512) mod 1024)); lia. }
  rewrite E. zdm (20159 * a + 33554432) 67108864. now rewrite w16_id by lia.
Qed.

(* ---------- arrays ---------- *)

Lemma set_length r i x : length (set r i x) = length r.
Proof. revert i. induction r as [|y r IH]; intros [|i]; cbn; auto. Qed.

Lemma get_set r i x j : (i < length r)%nat ->
  get (set r i x) j = if (i =? j)%nat then x else get r j.
Proof.
  unfold get. revert i j. induction r as [|y r IH]; intros i j H; cbn in H; [lia|].
  destruct i, j; cbn; auto. rewrite IH by lia. reflexivity.
Qed.

Lemma get_ext r s : length r = length s ->
  (forall i, (i < length r)%nat -> get r i = get s i) -> r = s.
Proof. intros H G. apply nth_ext with 0 0; auto. Qed.

Lemma get_map_seq f n i : (i < n)%nat -> get (map f (seq 0 n)) i = f i.
Proof.
  intros H. unfold get. rewrite nth_indep with (d' := f 0%nat) by (rewrite map_length, seq_length; lia).
  rewrite map_nth, seq_nth by lia. reflexivity.
Qed.

Lemma get_map f r i : (i < length r)%nat -> get (map f r) i = f (get r i).
Proof. intros H. unfold get. rewrite nth_indep with (d' := f 0) by (now rewrite map_length). apply map_nth. Qed.

Lemma fold_length {A} (f : list Z -> A -> list Z) l r :
  (forall r x, length (f r x) = length r) -> length (fold_left f l r) = length r.
Proof. intros H. revert r. induction l as [|x l IH]; intros r; cbn; [reflexivity|]. now rewrite IH, H. Qed.

(* ---------- one level of the forward transform ---------- *)

Definition flevel (len k : nat) (r : list Z) (i : nat) : Z :=
  let z := zeta (k + i / (2 * len)) in
  if (i mod (2 * len) <? len)%nat then w16 (get r i + fqmul z (get r (i + len)))
  else w16 (get r (i - len) - fqmul z (get r i)).

Definition level (len k : nat) (r : list Z) : list Z := map (flevel len k r) (seq 0 256).

Definition ilevel_at (len k : nat) (r : list Z) (i : nat) : Z :=
  let z := zeta (k - i / (2 * len)) in
  if (i mod (2 * len) <? len)%nat then barrett_reduce (w16 (get r i + get r (i + len)))
  else fqmul z (w16 (get r i - get r (i - len))).

Definition ilevel (len k : nat) (r : list Z) : list Z := map (ilevel_at len k r) (seq 0 256).

Lemma level_length len k r : length (level len k r) = 256%nat.
Proof. unfold level. now rewrite map_length, seq_length. Qed.
Lemma ilevel_length len k r : length (ilevel len k r) = 256%nat.
Proof. unfold ilevel. now rewrite map_length, seq_length. Qed.

Local Ltac casesb := repeat match goal with
  | |- context [(?a =? ?b)%nat] => destruct (Nat.eqb_spec a b)
  | |- context [(?a <? ?b)%nat] => destruct (Nat.ltb_spec a b)
  | |- context [(?a <=? ?b)%nat] => destruct (Nat.leb_spec a b)
  end; cbn [andb].

(* settle the comparisons that linear arithmetic decides, without splitting *)
Local Ltac dec := repeat match goal with
  | |- context [(?a =? ?b)%nat] => first
      [ replace (a =? b)%nat with true by (symmetry; apply Nat.eqb_eq; lia)
      | replace (a =? b)%nat with false by (symmetry; apply Nat.eqb_neq; lia)]
  | |- context [(?a <? ?b)%nat] => first
      [ replace (a <? b)%nat with true by (symmetry; apply Nat.ltb_lt; lia)
      | replace (a <? b)%nat with false by (symmetry; apply Nat.ltb_ge; lia)]
  | |- context [(?a <=? ?b)%nat] => first
      [ replace (a <=? b)%nat with true by (symmetry; apply Nat.leb_le; lia)
      | replace (a <=? b)%nat with false by (symmetry; apply Nat.leb_gt; lia)]
  end; cbn [andb].

Lemma butterfly_length z len r j : length (butterfly z len r j) = length r.
Proof. unfold butterfly. now rewrite !set_length. Qed.
Lemma gs_butterfly_length z len r j : length (gs_butterfly z len r j) = length r.
Proof. unfold gs_butterfly. now rewrite !set_length. Qed.

(* the effect of one block's inner loop: everything outside the block is kept *)
Lemma fold_bf z len start m r : (m <= len)%nat -> (start + 2 * len <= length r)%nat -> forall i,
  get (fold_left (butterfly z len) (seq start m) r) i =
  if ((start <=? i) && (i <? start + m))%nat%bool then w16 (get r i + fqmul z (get r (i + len)))
  else if ((start + len <=? i) && (i <? start + len + m))%nat%bool
       then w16 (get r (i - len) - fqmul z (get r i))
       else get r i.
Proof.
  induction m as [|m IH]; intros Hm Hl i.
  - cbn [seq fold_left]. casesb; try lia; auto.
  - rewrite seq_S, fold_left_app. cbn [fold_left].
    set (r' := fold_left (butterfly z len) (seq start m) r) in *.
    assert (L : length r' = length r) by (apply fold_length, butterfly_length).
    unfold butterfly at 1. rewrite !get_set by (rewrite ?set_length; lia).
    rewrite !IH by lia.
    destruct (Nat.eq_dec i (start + m)); [subst i; dec; now rewrite ?Nat.add_sub|].
    destruct (Nat.eq_dec i (start + len + m)).
    { subst i. replace (start + len + m - len)%nat with (start + m)%nat by lia.
      replace (start + m + len)%nat with (start + len + m)%nat by lia. dec. reflexivity. }
    dec.
    destruct (Nat.leb_spec start i), (Nat.leb_spec (start + len) i); try lia; dec; try reflexivity;
      destruct (Nat.ltb_spec i (start + m)), (Nat.ltb_spec i (start + len + m)); first [lia | dec; reflexivity].
Qed.

Lemma fold_gs z len start m r : (m <= len)%nat -> (start + 2 * len <= length r)%nat -> forall i,
  get (fold_left (gs_butterfly z len) (seq start m) r) i =
  if ((start <=? i) && (i <? start + m))%nat%bool then barrett_reduce (w16 (get r i + get r (i + len)))
  else if ((start + len <=? i) && (i <? start + len + m))%nat%bool
       then fqmul z (w16 (get r i - get r (i - len)))
       else get r i.
Proof.
  induction m as [|m IH]; intros Hm Hl i.
  - cbn [seq fold_left]. casesb; try lia; auto.
  - rewrite seq_S, fold_left_app. cbn [fold_left].
    set (r' := fold_left (gs_butterfly z len) (seq start m) r) in *.
    assert (L : length r' = length r) by (apply fold_length, gs_butterfly_length).
    unfold gs_butterfly at 1. rewrite !get_set by (rewrite ?set_length; lia).
    rewrite !IH by lia.
    destruct (Nat.eq_dec i (start + m)); [subst i; dec; now rewrite ?Nat.add_sub|].
    destruct (Nat.eq_dec i (start + len + m)).
    { subst i. replace (start + len + m - len)%nat with (start + m)%nat by lia.
      replace (start + m + len)%nat with (start + len + m)%nat by lia. dec. reflexivity. }
    dec.
    destruct (Nat.leb_spec start i), (Nat.leb_spec (start + len) i); try lia; dec; try reflexivity;
      destruct (Nat.ltb_spec i (start + m)), (Nat.ltb_spec i (start + len + m)); first [lia | dec; reflexivity].
Qed.

(* after [n] blocks, the first [n] blocks hold the new level and the rest the
   old array *)
Definition part (F : nat -> Z) (m : nat) (r r' : list Z) : Prop :=
  length r' = 256%nat /\ forall i, (i < 256)%nat -> get r' i = if (i <? m)%nat then F i else get r i.

Lemma divmod_block len n i : (0 < len)%nat -> (2 * len * n <= i)%nat -> (i < 2 * len * n + 2 * len)%nat ->
  (i / (2 * len) = n)%nat /\ (i mod (2 * len) = i - 2 * len * n)%nat.
Proof.
  intros H1 H2 H3. split.
  - symmetry. apply Nat.div_unique with (i - 2 * len * n)%nat; lia.
  - symmetry. apply Nat.mod_unique with n; lia.
Qed.

Lemma ntt_blocks_part len k r nb : (0 < len)%nat -> (2 * len * nb = 256)%nat -> length r = 256%nat ->
  forall m n fuel r', (nb - n = m)%nat -> (n <= nb)%nat -> (m < fuel)%nat ->
  part (flevel len k r) (2 * len * n) r r' ->
  ntt_blocks fuel len (2 * len * n) (k + n) r' = (k + nb, level len k r)%nat.
Proof.
  intros Hl Hn Hr. induction m as [|m IH]; intros n fuel r' Hm Hle Hf [L P].
  - assert (n = nb) by lia. subst n. destruct fuel as [|f]; [lia|]. cbn [ntt_blocks].
    destruct (Nat.ltb_spec (2 * len * nb) 256); [lia|]. f_equal.
    apply get_ext; [now rewrite L, level_length|]. rewrite L. intros i Hi. rewrite P by lia.
    unfold level. rewrite get_map_seq by lia. destruct (Nat.ltb_spec i (2 * len * nb)); [auto|lia].
  - destruct fuel as [|f]; [lia|]. cbn [ntt_blocks].
    assert (2 * len * n + 2 * len <= 256)%nat by nia.
    destruct (Nat.ltb_spec (2 * len * n) 256); [|lia].
    replace (2 * len * n + 2 * len)%nat with (2 * len * (n + 1))%nat by lia.
    replace (k + n + 1)%nat with (k + (n + 1))%nat by lia.
    apply IH; try lia. split; [rewrite fold_length; auto using butterfly_length|].
    intros i Hi. rewrite fold_bf by lia. rewrite !P by lia.
    assert (G : forall x, (x < 256)%nat -> get r' x = if (x <? 2 * len * n)%nat then flevel len k r x else get r x)
      by auto.
    destruct (Nat.ltb_spec i (2 * len * n)).
    { dec. auto. }
    destruct (Nat.ltb_spec i (2 * len * (n + 1))).
    + destruct (divmod_block len n i) as [D M]; try lia.
      unfold flevel. rewrite D, M.
      destruct (Nat.ltb_spec (i - 2 * len * n) len); dec; rewrite ?G by lia; dec; reflexivity.
    + dec. auto.
Qed.

Lemma ntt_blocks_level len k r nb : (0 < len)%nat -> (2 * len * nb = 256)%nat -> length r = 256%nat ->
  (nb < 256)%nat -> ntt_blocks 256 len 0 k r = (k + nb, level len k r)%nat.
Proof.
  intros H1 H2 H3 H4. set (fuel := 256%nat).
  pose proof (ntt_blocks_part len k r nb H1 H2 H3 nb 0 fuel r) as E.
  rewrite Nat.mul_0_r, Nat.add_0_r in E. apply E; subst fuel; try lia.
  split; [auto|]. intros i Hi. destruct (Nat.ltb_spec i 0); [lia|auto].
Qed.

Lemma inv_blocks_part len k r nb : (0 < len)%nat -> (2 * len * nb = 256)%nat -> length r = 256%nat ->
  forall m n fuel r', (nb - n = m)%nat -> (n <= nb)%nat -> (m < fuel)%nat ->
  part (ilevel_at len k r) (2 * len * n) r r' ->
  inv_blocks fuel len (2 * len * n) (k - n) r' = (k - nb, ilevel len k r)%nat.
Proof.
  intros Hl Hn Hr. induction m as [|m IH]; intros n fuel r' Hm Hle Hf [L P].
  - assert (n = nb) by lia. subst n. destruct fuel as [|f]; [lia|]. cbn [inv_blocks].
    destruct (Nat.ltb_spec (2 * len * nb) 256); [lia|]. f_equal.
    apply get_ext; [now rewrite L, ilevel_length|]. rewrite L. intros i Hi. rewrite P by lia.
    unfold ilevel. rewrite get_map_seq by lia. destruct (Nat.ltb_spec i (2 * len * nb)); [auto|lia].
  - destruct fuel as [|f]; [lia|]. cbn [inv_blocks].
    assert (2 * len * n + 2 * len <= 256)%nat by nia.
    destruct (Nat.ltb_spec (2 * len * n) 256); [|lia].
    replace (2 * len * n + 2 * len)%nat with (2 * len * (n + 1))%nat by lia.
    replace (k - n - 1)%nat with (k - (n + 1))%nat by lia.
    apply IH; try lia. split; [rewrite fold_length; auto using gs_butterfly_length|].
    intros i Hi. rewrite fold_gs by lia. rewrite !P by lia.
    assert (G : forall x, (x < 256)%nat -> get r' x = if (x <? 2 * len * n)%nat then ilevel_at len k r x else get r x)
      by auto.
    destruct (Nat.ltb_spec i (2 * len * n)).
    { dec. auto. }
    destruct (Nat.ltb_spec i (2 * len * (n + 1))).
    + destruct (divmod_block len n i) as [D M]; try lia.
      unfold ilevel_at. rewrite D, M.
      destruct (Nat.ltb_spec (i - 2 * len * n) len); dec; rewrite ?G by lia; dec; reflexivity.
    + dec. auto.
Qed.

Lemma inv_blocks_level len k r nb : (0 < len)%nat -> (2 * len * nb = 256)%nat -> length r = 256%nat ->
  (nb < 256)%nat -> inv_blocks 256 len 0 k r = (k - nb, ilevel len k r)%nat.
Proof.
  intros H1 H2 H3 H4. set (fuel := 256%nat).
  pose proof (inv_blocks_part len k r nb H1 H2 H3 nb 0 fuel r) as E.
  rewrite Nat.mul_0_r, !Nat.sub_0_r in E. apply E; subst fuel; try lia.
  split; [auto|]. intros i Hi. destruct (Nat.ltb_spec i 0); [lia|auto].
Qed.

Definition forward (r : list Z) : list Z :=
  level 2 64 (level 4 32 (level 8 16 (level 16 8 (level 32 4 (level 64 2 (level 128 1 r)))))).
Definition backward (r : list Z) : list Z :=
  ilevel 128 1 (ilevel 64 3 (ilevel 32 7 (ilevel 16 15 (ilevel 8 31 (ilevel 4 63 (ilevel 2 127 r)))))).

Lemma ntt_step f len k r nb : (2 <= len)%nat -> (2 * len * nb = 256)%nat -> length r = 256%nat ->
  ntt_levels (S f) len k r = ntt_levels f (len / 2) (k + nb) (level len k r).
Proof.
  intros H1 H2 H3. cbn [ntt_levels]. rewrite (ntt_blocks_level len k r nb) by (auto; nia).
  apply Nat.leb_le in H1. rewrite H1. reflexivity.
Qed.

Lemma inv_step f len k r nb : (0 < len)%nat -> (len <= 128)%nat -> (2 * len * nb = 256)%nat -> length r = 256%nat ->
  (nb < 256)%nat ->
  inv_levels (S f) len k r = inv_levels f (2 * len) (k - nb) (ilevel len k r).
Proof.
  intros H0 H1 H2 H3 H4. cbn [inv_levels]. rewrite (inv_blocks_level len k r nb) by auto.
  apply Nat.leb_le in H1. rewrite H1. reflexivity.
Qed.

Lemma ntt_levels_all f r : length r = 256%nat ->
  ntt_levels (S (S (S (S (S (S (S (S f)))))))) 128 1 r = forward r.
Proof.
  intros H. unfold forward.
  rewrite (ntt_step _ 128 1 r 1) by (auto; lia). change (128 / 2)%nat with 64%nat. change (1 + 1)%nat with 2%nat.
  rewrite (ntt_step _ 64 2 _ 2) by (rewrite ?level_length; lia). change (64 / 2)%nat with 32%nat. change (2 + 2)%nat with 4%nat.
  rewrite (ntt_step _ 32 4 _ 4) by (rewrite ?level_length; lia). change (32 / 2)%nat with 16%nat. change (4 + 4)%nat with 8%nat.
  rewrite (ntt_step _ 16 8 _ 8) by (rewrite ?level_length; lia). change (16 / 2)%nat with 8%nat. change (8 + 8)%nat with 16%nat.
  rewrite (ntt_step _ 8 16 _ 16) by (rewrite ?level_length; lia). change (8 / 2)%nat with 4%nat. change (16 + 16)%nat with 32%nat.
  rewrite (ntt_step _ 4 32 _ 32) by (rewrite ?level_length; lia). change (4 / 2)%nat with 2%nat. change (32 + 32)%nat with 64%nat.
  rewrite (ntt_step _ 2 64 _ 64) by (rewrite ?level_length; lia). change (2 / 2)%nat with 1%nat.
  reflexivity.
Qed.

Lemma inv_levels_all f r : length r = 256%nat ->
  inv_levels (S (S (S (S (S (S (S (S f)))))))) 2 127 r = backward r.
Proof.
  intros H. unfold backward.
  rewrite (inv_step _ 2 127 r 64) by (auto; lia). change (2 * 2)%nat with 4%nat. change (127 - 64)%nat with 63%nat.
  rewrite (inv_step _ 4 63 _ 32) by (rewrite ?ilevel_length; lia). change (2 * 4)%nat with 8%nat. change (63 - 32)%nat with 31%nat.
  rewrite (inv_step _ 8 31 _ 16) by (rewrite ?ilevel_length; lia). change (2 * 8)%nat with 16%nat. change (31 - 16)%nat with 15%nat.
  rewrite (inv_step _ 16 15 _ 8) by (rewrite ?ilevel_length; lia). change (2 * 16)%nat with 32%nat. change (15 - 8)%nat with 7%nat.
  rewrite (inv_step _ 32 7 _ 4) by (rewrite ?ilevel_length; lia). change (2 * 32)%nat with 64%nat. change (7 - 4)%nat with 3%nat.
  rewrite (inv_step _ 64 3 _ 2) by (rewrite ?ilevel_length; lia). change (2 * 64)%nat with 128%nat. change (3 - 2)%nat with 1%nat.
  rewrite (inv_step _ 128 1 _ 1) by (rewrite ?ilevel_length; lia).
  reflexivity.
Qed.

Lemma ntt_scalar_forward r : length r = 256%nat -> ntt_scalar r = forward r.
Proof. intros H. exact (ntt_levels_all 248 r H). Qed.

Lemma invntt_scalar_backward r : length r = 256%nat ->
  invntt_scalar r = map (fun x => fqmul x 1441) (backward r).
Proof. intros H. exact (f_equal _ (inv_levels_all 248 r H)). Qed.
