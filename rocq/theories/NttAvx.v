(* The AVX2 transforms of NttModel.v give the same array as the scalar ones. *)
From Coq Require Import ZArith List Lia Bool.
Import ListNotations.
From Verif Require Import NttModel NttProofs.
Open Scope Z_scope.

Local Ltac dec := repeat match goal with
  | |- context [(?a =? ?b)%nat] => first
      [ replace (a =? b)%nat with true by (symmetry; apply Nat.eqb_eq; lia)
      | replace (a =? b)%nat with false by (symmetry; apply Nat.eqb_neq; lia)]
  | |- context [(?a <? ?b)%nat] => first
      [ replace (a <? b)%nat with true by (symmetry; apply Nat.ltb_lt; lia)
      | replace (a <? b)%nat with false by (symmetry; apply Nat.ltb_ge; lia)]
  | |- context [(?a <=? ?b)%nat] => first
      [ replace (a <=? b)%nat with true by (symmetry; apply Nat.leb_le; lia)
      | replace (a <=? b)%nat with false by (symmetry; apply Nat.leb_gt; lia)]
  end; cbn [andb].

Lemma lane_vec f i : (i < 16)%nat -> lane (vec f) i = f i.
Proof. intros H. unfold lane, vec. exact (get_map_seq f 16 i H). Qed.

Lemma lane_load r j i : (i < 16)%nat -> lane (load r j) i = get r (j + i).
Proof. intros H. unfold load. now rewrite lane_vec. Qed.

Lemma store_length r j v : length (store r j v) = length r.
Proof. unfold store. apply fold_length. intros. apply set_length. Qed.

Lemma get_store r j v i : (j + 16 <= length r)%nat ->
  get (store r j v) i = if ((j <=? i) && (i <? j + 16))%nat%bool then lane v (i - j) else get r i.
Proof.
  intros H. unfold store.
  assert (G : forall m, (m <= 16)%nat ->
    get (fold_left (fun r i => set r (j + i) (lane v i)) (seq 0 m) r) i =
    if ((j <=? i) && (i <? j + m))%nat%bool then lane v (i - j) else get r i).
  { induction m as [|m IH]; intros Hm.
    - cbn [seq fold_left]. destruct (Nat.leb_spec j i); dec; reflexivity.
    - rewrite seq_S, fold_left_app. cbn [fold_left Nat.add].
      rewrite get_set by (rewrite fold_length; [lia | intros; apply set_length]).
      rewrite IH by lia. destruct (Nat.eqb_spec (j + m) i) as [<-|].
      + dec. f_equal. lia.
      + destruct (Nat.leb_spec j i); dec; try reflexivity.
        destruct (Nat.ltb_spec i (j + m)); dec; reflexivity. }
  apply (G 16%nat). lia.
Qed.

Lemma lane_mont a b i : (i < 16)%nat -> lane (mont_mul_x16 a b) i = fqmul (lane a i) (lane b i).
Proof.
  intros H. unfold mont_mul_x16, vsub, mulhi, mullo, set1. rewrite !lane_vec by lia. apply mont_lane.
Qed.

Lemma lane_barrett a i : (i < 16)%nat -> -32768 <= lane a i < 32768 ->
  lane (barrett_x16 a) i = barrett_reduce (lane a i).
Proof.
  intros H R. unfold barrett_x16, vsub, vadd, srai, mulhi, mullo, set1. rewrite !lane_vec by lia.
  now apply barrett_lane.
Qed.

Lemma butterfly_x16_length z len r j : length (butterfly_x16 z len r j) = length r.
Proof. unfold butterfly_x16. now rewrite !store_length. Qed.
Lemma gs_x16_length z len r j : length (gs_x16 z len r j) = length r.
Proof. unfold gs_x16. now rewrite !store_length. Qed.

Lemma fold_bf16 z len start m r : (16 * m <= len)%nat -> (start + 2 * len <= length r)%nat -> forall i,
  get (fold_left (butterfly_x16 z len) (map (fun i => start + 16 * i)%nat (seq 0 m)) r) i =
  if ((start <=? i) && (i <? start + 16 * m))%nat%bool then w16 (get r i + fqmul z (get r (i + len)))
  else if ((start + len <=? i) && (i <? start + len + 16 * m))%nat%bool
       then w16 (get r (i - len) - fqmul z (get r i))
       else get r i.
Proof.
  induction m as [|m IH]; intros Hm Hl i.
  - cbn [seq map fold_left].
    destruct (Nat.leb_spec start i), (Nat.leb_spec (start + len) i); first [lia | dec; reflexivity].
  - rewrite seq_S, map_app, fold_left_app. cbn [map fold_left Nat.add].
    set (r' := fold_left (butterfly_x16 z len) (map (fun i => start + 16 * i)%nat (seq 0 m)) r) in *.
    assert (L : length r' = length r) by (apply fold_length, butterfly_x16_length).
    unfold butterfly_x16 at 1. rewrite get_store by (rewrite store_length; lia).
    rewrite get_store by lia.
    destruct (Nat.lt_ge_cases i start); [dec; rewrite IH by lia; dec; reflexivity|].
    destruct (Nat.lt_ge_cases i (start + 16 * m)).
    { dec. rewrite IH by lia. dec. reflexivity. }
    destruct (Nat.lt_ge_cases i (start + 16 * m + 16)).
    { dec. unfold vadd. rewrite lane_vec by lia. rewrite lane_mont by lia. rewrite !lane_load by lia.
      unfold set1. rewrite lane_vec by lia. rewrite !IH by lia.
      replace (start + 16 * m + (i - (start + 16 * m)))%nat with i by lia.
      replace (start + 16 * m + len + (i - (start + 16 * m)))%nat with (i + len)%nat by lia.
      dec. now rewrite fqmul_comm. }
    destruct (Nat.lt_ge_cases i (start + len)); [dec; rewrite IH by lia; dec; reflexivity|].
    destruct (Nat.lt_ge_cases i (start + len + 16 * m)).
    { dec. rewrite IH by lia. dec. reflexivity. }
    destruct (Nat.lt_ge_cases i (start + len + 16 * m + 16)).
    { dec. unfold vsub. rewrite lane_vec by lia. rewrite lane_mont by lia. rewrite !lane_load by lia.
      unfold set1. rewrite lane_vec by lia. rewrite !IH by lia.
      replace (start + 16 * m + (i - (start + 16 * m + len)))%nat with (i - len)%nat by lia.
      replace (start + 16 * m + len + (i - (start + 16 * m + len)))%nat with i by lia.
      dec. now rewrite fqmul_comm. }
    dec. rewrite IH by lia. dec. reflexivity.
Qed.

Lemma fold_gs16 z len start m r : (16 * m <= len)%nat -> (start + 2 * len <= length r)%nat -> forall i,
  get (fold_left (gs_x16 z len) (map (fun i => start + 16 * i)%nat (seq 0 m)) r) i =
  if ((start <=? i) && (i <? start + 16 * m))%nat%bool then barrett_reduce (w16 (get r i + get r (i + len)))
  else if ((start + len <=? i) && (i <? start + len + 16 * m))%nat%bool
       then fqmul z (w16 (get r i - get r (i - len)))
       else get r i.
Proof.
  induction m as [|m IH]; intros Hm Hl i.
  - cbn [seq map fold_left].
    destruct (Nat.leb_spec start i), (Nat.leb_spec (start + len) i); first [lia | dec; reflexivity].
  - rewrite seq_S, map_app, fold_left_app. cbn [map fold_left Nat.add].
    set (r' := fold_left (gs_x16 z len) (map (fun i => start + 16 * i)%nat (seq 0 m)) r) in *.
    assert (L : length r' = length r) by (apply fold_length, gs_x16_length).
    unfold gs_x16 at 1. rewrite get_store by (rewrite store_length; lia).
    rewrite get_store by lia.
    destruct (Nat.lt_ge_cases i start); [dec; rewrite IH by lia; dec; reflexivity|].
    destruct (Nat.lt_ge_cases i (start + 16 * m)).
    { dec. rewrite IH by lia. dec. reflexivity. }
    destruct (Nat.lt_ge_cases i (start + 16 * m + 16)).
    { dec. rewrite lane_barrett; [|lia|unfold vadd; rewrite lane_vec by lia; apply w16_range].
      unfold vadd. rewrite lane_vec by lia. rewrite !lane_load by lia. rewrite !IH by lia.
      replace (start + 16 * m + (i - (start + 16 * m)))%nat with i by lia.
      replace (start + 16 * m + len + (i - (start + 16 * m)))%nat with (i + len)%nat by lia.
      dec. reflexivity. }
    destruct (Nat.lt_ge_cases i (start + len)); [dec; rewrite IH by lia; dec; reflexivity|].
    destruct (Nat.lt_ge_cases i (start + len + 16 * m)).
    { dec. rewrite IH by lia. dec. reflexivity. }
    destruct (Nat.lt_ge_cases i (start + len + 16 * m + 16)).
    { dec. rewrite lane_mont by lia. unfold vsub, set1. rewrite !lane_vec by lia.
      rewrite !lane_load by lia. rewrite !IH by lia.
      replace (start + 16 * m + (i - (start + 16 * m + len)))%nat with (i - len)%nat by lia.
      replace (start + 16 * m + len + (i - (start + 16 * m + len)))%nat with i by lia.
      dec. reflexivity. }
    dec. rewrite IH by lia. dec. reflexivity.
Qed.

(* the wide levels *)
Lemma avx_blocks_eq len q nb : len = (16 * q)%nat -> (0 < q)%nat -> (2 * len * nb = 256)%nat ->
  forall f n k r, length r = 256%nat ->
  avx_blocks f len (2 * len * n) k r = ntt_blocks f len (2 * len * n) k r.
Proof.
  intros Hq Hp Hn. induction f as [|f IH]; intros n k r L; [reflexivity|].
  cbn [avx_blocks ntt_blocks]. destruct (Nat.ltb_spec (2 * len * n) 256); [|reflexivity].
  assert (n < nb)%nat by nia. assert (2 * len * n + 2 * len <= 256)%nat by nia.
  assert (E : fold_left (butterfly_x16 (zeta k) len)
           (map (fun i => 2 * len * n + 16 * i)%nat (seq 0 (len / 16))) r =
           fold_left (butterfly (zeta k) len) (seq (2 * len * n) len) r).
  { assert (D : (len / 16 = q)%nat) by (rewrite Hq, Nat.mul_comm; apply Nat.div_mul; lia).
    rewrite D. apply get_ext.
    - rewrite !fold_length; auto using butterfly_x16_length, butterfly_length.
    - intros i _. rewrite fold_bf16 by lia. rewrite fold_bf by lia. rewrite <- Hq. reflexivity. }
  rewrite E. replace (2 * len * n + 2 * len)%nat with (2 * len * (n + 1))%nat by lia.
  apply IH. rewrite fold_length; auto using butterfly_length.
Qed.

Lemma inv_avx_blocks_eq len q nb : len = (16 * q)%nat -> (0 < q)%nat -> (2 * len * nb = 256)%nat ->
  forall f n k r, length r = 256%nat ->
  inv_avx_blocks f len (2 * len * n) k r = inv_blocks f len (2 * len * n) k r.
Proof.
  intros Hq Hp Hn. induction f as [|f IH]; intros n k r L; [reflexivity|].
  cbn [inv_avx_blocks inv_blocks]. destruct (Nat.ltb_spec (2 * len * n) 256); [|reflexivity].
  assert (n < nb)%nat by nia. assert (2 * len * n + 2 * len <= 256)%nat by nia.
  assert (E : fold_left (gs_x16 (zeta k) len)
           (map (fun i => 2 * len * n + 16 * i)%nat (seq 0 (len / 16))) r =
           fold_left (gs_butterfly (zeta k) len) (seq (2 * len * n) len) r).
  { assert (D : (len / 16 = q)%nat) by (rewrite Hq, Nat.mul_comm; apply Nat.div_mul; lia).
    rewrite D. apply get_ext.
    - rewrite !fold_length; auto using gs_x16_length, gs_butterfly_length.
    - intros i _. rewrite fold_gs16 by lia. rewrite fold_gs by lia. rewrite <- Hq. reflexivity. }
  rewrite E. replace (2 * len * n + 2 * len)%nat with (2 * len * (n + 1))%nat by lia.
  apply IH. rewrite fold_length; auto using gs_butterfly_length.
Qed.

Lemma avx_blocks_level len k r q nb : len = (16 * q)%nat -> (0 < q)%nat -> (2 * len * nb = 256)%nat ->
  length r = 256%nat -> avx_blocks 256 len 0 k r = (k + nb, level len k r)%nat.
Proof.
  intros Hq Hp Hn L. pose proof (avx_blocks_eq len q nb Hq Hp Hn 256 0 k r L) as E.
  rewrite Nat.mul_0_r in E. rewrite E. apply ntt_blocks_level; auto; nia.
Qed.

Lemma inv_avx_blocks_level len k r q nb : len = (16 * q)%nat -> (0 < q)%nat -> (2 * len * nb = 256)%nat ->
  length r = 256%nat -> inv_avx_blocks 256 len 0 k r = (k - nb, ilevel len k r)%nat.
Proof.
  intros Hq Hp Hn L. pose proof (inv_avx_blocks_eq len q nb Hq Hp Hn 256 0 k r L) as E.
  rewrite Nat.mul_0_r in E. rewrite E. apply inv_blocks_level; auto; nia.
Qed.

(* the narrow levels: [n] blocks of two times [len] lanes in one vector *)
Section Narrow.
Variables (len n : nat) (sw : list Z -> list Z) (mask : nat -> bool).
Hypothesis Hn : (2 * len * n = 16)%nat.
Hypothesis Hmask : forall i, (i < 16)%nat -> mask i = (i mod (2 * len) <? len)%nat.
Hypothesis Hsw : forall v i, (i < 16)%nat -> lane (sw v) i = lane v (if mask i then i + len else i - len)%nat.

Lemma narrow_div : (16 / n = 2 * len)%nat.
Proof. rewrite <- Hn. apply Nat.div_mul. lia. Qed.

Lemma narrow_dm c i : (i < 16)%nat ->
  ((16 * c + i) / (2 * len) = n * c + i / (2 * len))%nat /\ ((16 * c + i) mod (2 * len) = i mod (2 * len))%nat.
Proof.
  intros Hi. assert (Hl : (2 * len <> 0)%nat) by lia.
  replace (16 * c + i)%nat with (i + (n * c) * (2 * len))%nat by nia.
  rewrite Nat.div_add, Nat.mod_add by auto. lia.
Qed.

Lemma narrow_low i : (i < 16)%nat -> (i mod (2 * len) < len)%nat -> (i + len < 16)%nat.
Proof.
  intros Hi Hm. assert (Hl : (2 * len <> 0)%nat) by lia.
  pose proof (Nat.div_mod i (2 * len) Hl). assert (i / (2 * len) < n)%nat by (apply Nat.div_lt_upper_bound; lia).
  nia.
Qed.

Lemma narrow_high i : (len <= i mod (2 * len))%nat -> (len <= i)%nat /\ ((i - len) mod (2 * len) < len)%nat.
Proof.
  intros Hm. assert (Hl : (2 * len <> 0)%nat) by lia.
  pose proof (Nat.div_mod i (2 * len) Hl). pose proof (Nat.mod_upper_bound i (2 * len) Hl).
  split; [lia|]. 
  replace ((i - len) mod (2 * len))%nat with (i mod (2 * len) - len)%nat; [lia|].
  apply Nat.mod_unique with (i / (2 * len))%nat; lia.
Qed.

Lemma short_vec c k r i : length r = 256%nat -> (c < 16)%nat -> (16 * c <= i < 16 * c + 16)%nat ->
  get (short_x16 (zvec (k + n * c) n) sw mask r (16 * c)) i = flevel len k r i.
Proof.
  intros L Hc Hi. unfold short_x16. rewrite get_store by lia. dec.
  remember (i - 16 * c)%nat as o eqn:Ho. assert (Hio : i = (16 * c + o)%nat) by lia.
  assert (Hoo : (o < 16)%nat) by lia. clear Ho Hi. subst i.
  destruct (narrow_dm c o Hoo) as [D M].
  unfold flevel. rewrite D, M.
  unfold blend. rewrite lane_vec by lia. rewrite Hmask by lia.
  destruct (Nat.ltb_spec (o mod (2 * len)) len) as [B|B].
  - pose proof (narrow_low o Hoo B).
    unfold vadd. rewrite lane_vec by lia. rewrite lane_mont, lane_load by lia.
    rewrite Hsw by lia. rewrite Hmask by lia. dec. rewrite lane_load by lia.
    unfold zvec. rewrite lane_vec by lia. rewrite narrow_div.
    rewrite fqmul_comm. do 3 f_equal; f_equal; lia.
  - destruct (narrow_high o B) as [B1 B2].
    rewrite Hsw by lia. rewrite Hmask by lia. dec.
    unfold vsub. rewrite lane_vec by lia. rewrite lane_mont, lane_load by lia.
    rewrite Hsw by lia. rewrite Hmask by lia. dec. rewrite lane_load by lia.
    unfold zvec. rewrite lane_vec by lia. rewrite narrow_div.
    replace (o - len + len)%nat with o by lia.
    replace (16 * c + o - len)%nat with (16 * c + (o - len))%nat by lia.
    assert (E : ((o - len) / (2 * len) = o / (2 * len))%nat).
    { assert (Hl : (2 * len <> 0)%nat) by lia.
      pose proof (Nat.div_mod o (2 * len) Hl). pose proof (Nat.mod_upper_bound o (2 * len) Hl).
      symmetry. apply Nat.div_unique with (o mod (2 * len) - len)%nat; lia. }
    rewrite E. rewrite fqmul_comm. do 3 f_equal; f_equal; lia.
Qed.

Lemma gs_vec c k r i : length r = 256%nat -> (c < 16)%nat -> (16 * c <= i < 16 * c + 16)%nat ->
  get (gs_short_x16 (zvec_down (k - n * c) n) sw mask r (16 * c)) i = ilevel_at len k r i.
Proof.
  intros L Hc Hi. unfold gs_short_x16. rewrite get_store by lia. dec.
  remember (i - 16 * c)%nat as o eqn:Ho. assert (Hio : i = (16 * c + o)%nat) by lia.
  assert (Hoo : (o < 16)%nat) by lia. clear Ho Hi. subst i.
  destruct (narrow_dm c o Hoo) as [D M].
  unfold ilevel_at. rewrite D, M.
  unfold blend. rewrite lane_vec by lia. rewrite Hmask by lia.
  destruct (Nat.ltb_spec (o mod (2 * len)) len) as [B|B].
  - pose proof (narrow_low o Hoo B).
    rewrite lane_barrett; [|lia|unfold vadd; rewrite lane_vec by lia; apply w16_range].
    unfold vadd. rewrite lane_vec by lia. rewrite lane_load by lia.
    rewrite Hsw by lia. rewrite Hmask by lia. dec. rewrite lane_load by lia.
    now rewrite Nat.add_assoc.
  - destruct (narrow_high o B) as [B1 B2].
    rewrite lane_mont by lia. unfold vsub. rewrite lane_vec by lia. rewrite lane_load by lia.
    rewrite Hsw by lia. rewrite Hmask by lia. dec. rewrite lane_load by lia.
    unfold zvec_down. rewrite lane_vec by lia. rewrite narrow_div.
    replace (16 * c + o - len)%nat with (16 * c + (o - len))%nat by lia.
    now rewrite Nat.sub_add_distr.
Qed.

Lemma vec_kept zv r start i : (start + 16 <= length r)%nat -> (i < start \/ start + 16 <= i)%nat ->
  get (short_x16 zv sw mask r start) i = get r i.
Proof. intros L Hi. unfold short_x16. rewrite get_store by lia. destruct Hi; dec; reflexivity. Qed.

Lemma gs_vec_kept zv r start i : (start + 16 <= length r)%nat -> (i < start \/ start + 16 <= i)%nat ->
  get (gs_short_x16 zv sw mask r start) i = get r i.
Proof. intros L Hi. unfold gs_short_x16. rewrite get_store by lia. destruct Hi; dec; reflexivity. Qed.

Lemma short_length zv r start : length (short_x16 zv sw mask r start) = length r.
Proof. unfold short_x16. apply store_length. Qed.
Lemma gs_short_length zv r start : length (gs_short_x16 zv sw mask r start) = length r.
Proof. unfold gs_short_x16. apply store_length. Qed.

(* a value of the new level only depends on the sixteen lanes around it *)
Lemma flevel_local k r r' c i : (c < 16)%nat -> (16 * c <= i < 16 * c + 16)%nat ->
  (forall x, (16 * c <= x < 16 * c + 16)%nat -> get r x = get r' x) -> flevel len k r i = flevel len k r' i.
Proof.
  intros Hc Hi H. remember (i - 16 * c)%nat as o eqn:Ho. assert (Hio : i = (16 * c + o)%nat) by lia.
  assert (Hoo : (o < 16)%nat) by lia. clear Ho. subst i. destruct (narrow_dm c o Hoo) as [D M].
  unfold flevel. rewrite D, M. destruct (Nat.ltb_spec (o mod (2 * len)) len) as [B|B].
  - pose proof (narrow_low o Hoo B). rewrite !H by lia. reflexivity.
  - destruct (narrow_high o B). rewrite !H by lia. reflexivity.
Qed.

Lemma ilevel_local k r r' c i : (c < 16)%nat -> (16 * c <= i < 16 * c + 16)%nat ->
  (forall x, (16 * c <= x < 16 * c + 16)%nat -> get r x = get r' x) -> ilevel_at len k r i = ilevel_at len k r' i.
Proof.
  intros Hc Hi H. remember (i - 16 * c)%nat as o eqn:Ho. assert (Hio : i = (16 * c + o)%nat) by lia.
  assert (Hoo : (o < 16)%nat) by lia. clear Ho. subst i. destruct (narrow_dm c o Hoo) as [D M].
  unfold ilevel_at. rewrite D, M. destruct (Nat.ltb_spec (o mod (2 * len)) len) as [B|B].
  - pose proof (narrow_low o Hoo B). rewrite !H by lia. reflexivity.
  - destruct (narrow_high o B). rewrite !H by lia. reflexivity.
Qed.

Lemma avx_short_part k r : length r = 256%nat -> forall m c fuel r', (16 - c = m)%nat -> (c <= 16)%nat ->
  (m < fuel)%nat -> part (flevel len k r) (16 * c) r r' ->
  avx_short fuel n (16 * c) (k + n * c) sw mask r' = (k + n * 16, level len k r)%nat.
Proof.
  intros Hr. induction m as [|m IH]; intros c fuel r' Hm Hle Hf [L P].
  - assert (c = 16)%nat by lia. subst c. destruct fuel as [|f]; [lia|]. cbn [avx_short].
    dec. f_equal. apply get_ext; [now rewrite L, level_length|]. rewrite L. intros i Hi. rewrite P by lia.
    unfold level. rewrite get_map_seq by lia. dec. reflexivity.
  - destruct fuel as [|f]; [lia|]. cbn [avx_short]. dec.
    replace (16 * c + 16)%nat with (16 * (c + 1))%nat by lia.
    replace (k + n * c + n)%nat with (k + n * (c + 1))%nat by lia.
    apply IH; try lia. split; [now rewrite short_length|].
    intros i Hi.
    destruct (Nat.lt_ge_cases i (16 * c)); [rewrite vec_kept by lia; rewrite P by lia; dec; reflexivity|].
    destruct (Nat.lt_ge_cases i (16 * c + 16)).
    + rewrite short_vec by lia. dec. apply flevel_local with c; try lia. intros x Hx. rewrite P by lia. dec. reflexivity.
    + rewrite vec_kept by lia. rewrite P by lia. dec. reflexivity.
Qed.

Lemma inv_short_part k r : length r = 256%nat -> forall m c fuel r', (16 - c = m)%nat -> (c <= 16)%nat ->
  (m < fuel)%nat -> part (ilevel_at len k r) (16 * c) r r' ->
  inv_short fuel n (16 * c) (k - n * c) sw mask r' = (k - n * 16, ilevel len k r)%nat.
Proof.
  intros Hr. induction m as [|m IH]; intros c fuel r' Hm Hle Hf [L P].
  - assert (c = 16)%nat by lia. subst c. destruct fuel as [|f]; [lia|]. cbn [inv_short].
    dec. f_equal. apply get_ext; [now rewrite L, ilevel_length|]. rewrite L. intros i Hi. rewrite P by lia.
    unfold ilevel. rewrite get_map_seq by lia. dec. reflexivity.
  - destruct fuel as [|f]; [lia|]. cbn [inv_short]. dec.
    replace (16 * c + 16)%nat with (16 * (c + 1))%nat by lia.
    replace (k - n * c - n)%nat with (k - n * (c + 1))%nat by lia.
    apply IH; try lia. split; [now rewrite gs_short_length|].
    intros i Hi.
    destruct (Nat.lt_ge_cases i (16 * c)); [rewrite gs_vec_kept by lia; rewrite P by lia; dec; reflexivity|].
    destruct (Nat.lt_ge_cases i (16 * c + 16)).
    + rewrite gs_vec by lia. dec. apply ilevel_local with c; try lia. intros x Hx. rewrite P by lia. dec. reflexivity.
    + rewrite gs_vec_kept by lia. rewrite P by lia. dec. reflexivity.
Qed.

Lemma avx_short_level k r : length r = 256%nat ->
  avx_short 256 n 0 k sw mask r = (k + n * 16, level len k r)%nat.
Proof.
  intros L. set (fuel := 256%nat). pose proof (avx_short_part k r L 16 0 fuel r) as E.
  rewrite !Nat.mul_0_r, Nat.add_0_r in E. apply E; subst fuel; try lia.
  split; [auto|]. intros i Hi. dec. reflexivity.
Qed.

Lemma inv_short_level k r : length r = 256%nat ->
  inv_short 256 n 0 k sw mask r = (k - n * 16, ilevel len k r)%nat.
Proof.
  intros L. set (fuel := 256%nat). pose proof (inv_short_part k r L 16 0 fuel r) as E.
  rewrite !Nat.mul_0_r, !Nat.sub_0_r in E. apply E; subst fuel; try lia.
  split; [auto|]. intros i Hi. dec. reflexivity.
Qed.
End Narrow.

Lemma sixteen (P : nat -> Prop) : (forall i, In i (seq 0 16) -> P i) -> forall i, (i < 16)%nat -> P i.
Proof. intros H i Hi. apply H. apply in_seq. lia. Qed.

Lemma swap128_lane v i : (i < 16)%nat -> lane (swap128 v) i = lane v (if lo_mask i then i + 8 else i - 8)%nat.
Proof. intros H. unfold swap128. now rewrite lane_vec. Qed.
Lemma swap64_lane v i : (i < 16)%nat -> lane (swap64 v) i = lane v (if mask4 i then i + 4 else i - 4)%nat.
Proof. intros H. unfold swap64. now rewrite lane_vec. Qed.
Lemma swap32_lane v i : (i < 16)%nat -> lane (swap32 v) i = lane v (if mask2 i then i + 2 else i - 2)%nat.
Proof. intros H. unfold swap32. now rewrite lane_vec. Qed.
Lemma lo_mask_spec i : (i < 16)%nat -> lo_mask i = (i mod (2 * 8) <? 8)%nat.
Proof. intros H. unfold lo_mask. rewrite Nat.mod_small by lia. reflexivity. Qed.

Lemma avx_step f len k r q nb : len = (16 * q)%nat -> (0 < q)%nat -> (2 * len * nb = 256)%nat ->
  length r = 256%nat ->
  avx_levels (S f) len k r = avx_levels f (len / 2) (k + nb) (level len k r).
Proof.
  intros H1 H2 H3 H4. cbn [avx_levels]. rewrite (avx_blocks_level len k r q nb) by auto.
  dec. reflexivity.
Qed.

Lemma inv_avx_step f len k r q nb : len = (16 * q)%nat -> (0 < q)%nat -> (2 * len * nb = 256)%nat ->
  length r = 256%nat ->
  inv_avx_levels (S f) len k r = inv_avx_levels f (2 * len) (k - nb) (ilevel len k r).
Proof.
  intros H1 H2 H3 H4. cbn [inv_avx_levels]. rewrite (inv_avx_blocks_level len k r q nb) by auto.
  assert (len <= 128)%nat by (destruct nb; lia || nia). dec. reflexivity.
Qed.

Lemma avx_levels_all f r : length r = 256%nat ->
  avx_levels (S (S (S (S (S f))))) 128 1 r = (16%nat, level 16 8 (level 32 4 (level 64 2 (level 128 1 r)))).
Proof.
  intros H.
  rewrite (avx_step _ 128 1 r 8 1) by (auto; lia). change (128 / 2)%nat with 64%nat. change (1 + 1)%nat with 2%nat.
  rewrite (avx_step _ 64 2 _ 4 2) by (rewrite ?level_length; lia). change (64 / 2)%nat with 32%nat. change (2 + 2)%nat with 4%nat.
  rewrite (avx_step _ 32 4 _ 2 4) by (rewrite ?level_length; lia). change (32 / 2)%nat with 16%nat. change (4 + 4)%nat with 8%nat.
  rewrite (avx_step _ 16 8 _ 1 8) by (rewrite ?level_length; lia). change (16 / 2)%nat with 8%nat. change (8 + 8)%nat with 16%nat.
  reflexivity.
Qed.

Lemma inv_avx_levels_all f r : length r = 256%nat ->
  inv_avx_levels (S (S (S (S (S f))))) 16 15 r = ilevel 128 1 (ilevel 64 3 (ilevel 32 7 (ilevel 16 15 r))).
Proof.
  intros H.
  rewrite (inv_avx_step _ 16 15 r 1 8) by (auto; lia). change (2 * 16)%nat with 32%nat. change (15 - 8)%nat with 7%nat.
  rewrite (inv_avx_step _ 32 7 _ 2 4) by (rewrite ?ilevel_length; lia). change (2 * 32)%nat with 64%nat. change (7 - 4)%nat with 3%nat.
  rewrite (inv_avx_step _ 64 3 _ 4 2) by (rewrite ?ilevel_length; lia). change (2 * 64)%nat with 128%nat. change (3 - 2)%nat with 1%nat.
  rewrite (inv_avx_step _ 128 1 _ 8 1) by (rewrite ?ilevel_length; lia).
  reflexivity.
Qed.

Lemma ntt_avx2_forward r : length r = 256%nat -> ntt_avx2 r = forward r.
Proof.
  intros H. unfold ntt_avx2, forward.
  pose proof (avx_levels_all 251 r H) as E. change (S (S (S (S (S 251))))) with 256%nat in E. rewrite E.
  rewrite (avx_short_level 8 1 swap128 lo_mask eq_refl lo_mask_spec swap128_lane) by apply level_length.
  change (16 + 1 * 16)%nat with 32%nat.
  rewrite (avx_short_level 4 2 swap64 mask4 eq_refl (fun _ _ => eq_refl) swap64_lane) by apply level_length.
  change (32 + 2 * 16)%nat with 64%nat.
  rewrite (avx_short_level 2 4 swap32 mask2 eq_refl (fun _ _ => eq_refl) swap32_lane) by apply level_length.
  reflexivity.
Qed.

Lemma scale_all r : length r = 256%nat ->
  fold_left scale_x16 (map (fun i => 16 * i)%nat (seq 0 16)) r = map (fun x => fqmul x 1441) r.
Proof.
  intros L.
  assert (SL : forall r x, length (scale_x16 r x) = length r) by (intros; unfold scale_x16; apply store_length).
  assert (G : forall m, (m <= 16)%nat -> forall i,
    get (fold_left scale_x16 (map (fun i => 16 * i)%nat (seq 0 m)) r) i =
    if (i <? 16 * m)%nat then fqmul (get r i) 1441 else get r i).
  { induction m as [|m IH]; intros Hm i; [cbn [seq map fold_left]; dec; reflexivity|].
    rewrite seq_S, map_app, fold_left_app. cbn [map fold_left Nat.add].
    unfold scale_x16 at 1. rewrite get_store by (rewrite fold_length by auto; lia).
    destruct (Nat.lt_ge_cases i (16 * m)); [dec; rewrite IH by lia; dec; reflexivity|].
    destruct (Nat.lt_ge_cases i (16 * m + 16)).
    - dec. rewrite lane_mont, lane_load by lia. unfold set1. rewrite lane_vec by lia.
      rewrite IH by lia. replace (16 * m + (i - 16 * m))%nat with i by lia. dec. apply fqmul_comm.
    - dec. rewrite IH by lia. dec. reflexivity. }
  apply get_ext; [rewrite map_length; now apply fold_length|].
  rewrite fold_length by auto. rewrite L. intros i Hi. rewrite G by lia. rewrite get_map by lia. dec. reflexivity.
Qed.

Lemma invntt_avx2_backward r : length r = 256%nat ->
  invntt_avx2 r = map (fun x => fqmul x 1441) (backward r).
Proof.
  intros H. unfold invntt_avx2, backward.
  rewrite (inv_short_level 2 4 swap32 mask2 eq_refl (fun _ _ => eq_refl) swap32_lane) by auto.
  change (127 - 4 * 16)%nat with 63%nat.
  rewrite (inv_short_level 4 2 swap64 mask4 eq_refl (fun _ _ => eq_refl) swap64_lane) by apply ilevel_length.
  change (63 - 2 * 16)%nat with 31%nat.
  rewrite (inv_short_level 8 1 swap128 lo_mask eq_refl lo_mask_spec swap128_lane) by apply ilevel_length.
  change (31 - 1 * 16)%nat with 15%nat.
  pose proof (inv_avx_levels_all 251 (ilevel 8 31 (ilevel 4 63 (ilevel 2 127 r))) (ilevel_length _ _ _)) as E.
  change (S (S (S (S (S 251))))) with 256%nat in E. rewrite E.
  apply scale_all, ilevel_length.
Qed.
