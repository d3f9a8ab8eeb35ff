(** What [encode], [decode] and the framing compute. *)
From Coq Require Import NArith List Lia Strings.Byte Permutation.
From stdpp Require Import list.
From Verif Require Import FecModel FecField FecProofs.
Open Scope nat_scope.
Opaque gf gf_exp gf_log gf_mul gf_div xor u8.

(** ** Padding *)
Definition padded (data : list byte) (k : nat) : list byte := data ++ repeat x00 (k * shard_len (length data) k - length data).
Lemma shard_len_pos len k : 1 <= shard_len len k. Proof. unfold shard_len. lia. Qed.
Lemma shard_len_enough len k : 0 < k -> len <= k * shard_len len k.
Proof. intros H. unfold shard_len. pose proof (Nat.div_mod (len + k - 1) k ltac:(lia)) as D. pose proof (Nat.mod_upper_bound (len + k - 1) k ltac:(lia)). nia. Qed.
Lemma shard_len_tight len k : 0 < k -> shard_len len k = 1 \/ k * (shard_len len k - 1) < len.
Proof. intros H. unfold shard_len. pose proof (Nat.div_mod (len + k - 1) k ltac:(lia)) as D. pose proof (Nat.mod_upper_bound (len + k - 1) k ltac:(lia)). destruct (Nat.le_gt_cases ((len + k - 1) / k) 1); [left; lia|right]. rewrite Nat.max_l by lia. nia. Qed.
Lemma padded_length data k : 0 < k -> length (padded data k) = k * shard_len (length data) k.
Proof. intros H. unfold padded. rewrite app_length, repeat_length. pose proof (shard_len_enough (length data) k H). lia. Qed.
Lemma padded_model data k : 0 < k -> take (k * shard_len (length data) k) (data ++ repeat x00 (k * shard_len (length data) k)) = padded data k.
Proof.
  intros H. pose proof (shard_len_enough (length data) k H) as L. unfold padded. set (m := k * shard_len (length data) k) in *. rewrite take_app_ge by done. f_equal.
  replace m with ((m - length data) + length data) at 2 by lia. rewrite repeat_app, take_app_le by (rewrite repeat_length; lia). rewrite take_ge by (now rewrite repeat_length). done.
Qed.
Lemma chunk (l : list byte) s n : s + n <= length l -> map (fun b => nth (s + b) l x00) (seq 0 n) = take n (drop s l).
Proof.
  intros H. apply (nth_ext _ _ x00 x00); [rewrite map_length, seq_length, take_length, drop_length; lia|]. rewrite map_length, seq_length. intros i Hi. rewrite nth_seq_map by done. rewrite !nth_lookup, lookup_take, lookup_drop by done. done.
Qed.
Lemma chunks (l : list byte) k n : k * n <= length l -> concat (map (fun j => map (fun b => nth (j * n + b) l x00) (seq 0 n)) (seq 0 k)) = take (k * n) l.
Proof.
  induction k as [|k IH]; intros H; [done|]. rewrite seq_S, map_app, concat_app, IH by lia. cbn [map concat]. rewrite app_nil_r, chunk by (cbn; lia). rewrite Nat.add_0_l. replace (S k * n) with (k * n + n) by lia. symmetry. apply eq_sym, take_take_drop.
Qed.

(** ** Encoding *)
Definition good (k n : nat) : Prop := 0 < k /\ k <= n /\ n <= 256.
Lemma good_spec k n : (k =? 0) || (n <? k) || (256 <? n) = false <-> good k n.
Proof. unfold good. rewrite !orb_false_iff, Nat.eqb_neq, !Nat.ltb_ge. lia. Qed.
Lemma bad_spec k n : (k =? 0) || (n <? k) || (256 <? n) = true <-> ~ good k n.
Proof. rewrite <- good_spec. destruct (_ || _ || _); split; try done; intros []; done. Qed.
Definition column (k : nat) (data : list byte) (sl b : nat) (j : nat) : byte := nth (j * sl + b) data x00.
Lemma encode_good data k n : good k n -> exists e shards,
  encode_matrix n k = Some e /\ encode data k n = Some (length data, shards) /\ length shards = n /\
  (forall i, i < n -> length (nth i shards []) = shard_len (length data) k /\
     forall b, b < shard_len (length data) k -> nth b (nth i shards []) x00 = apply_mat k e (column k (padded data k) (shard_len (length data) k) b) i).
Proof.
  intros G. pose proof G as (Hk & Hn & H256). destruct (encode_matrix_spec n k Hk Hn H256) as (e & Ee & _). exists e. unfold encode. rewrite (proj2 (good_spec k n) G), Ee, padded_model by done. eexists. split; [done|]. split; [done|].
  split; [now rewrite map_length, seq_length|]. intros i Hi. rewrite nth_seq_map by done. split; [now rewrite map_length, seq_length|]. intros b Hb. rewrite nth_seq_map by done. reflexivity.
Qed.
Lemma encode_bad data k n : ~ good k n -> encode data k n = None.
Proof. intros G. unfold encode. now rewrite (proj2 (bad_spec k n) G). Qed.
Lemma nth_eq_list (l m : list byte) n : length l = n -> length m = n -> (forall b, b < n -> nth b l x00 = nth b m x00) -> l = m.
Proof. intros L M H. apply (nth_ext _ _ x00 x00); [now rewrite L|]. intros i Hi. apply H. lia. Qed.
Lemma encode_systematic data k n e shards : good k n -> encode_matrix n k = Some e -> length shards = n ->
  (forall i, i < n -> length (nth i shards []) = shard_len (length data) k /\
     forall b, b < shard_len (length data) k -> nth b (nth i shards []) x00 = apply_mat k e (column k (padded data k) (shard_len (length data) k) b) i) ->
  concat (take k shards) = padded data k.
Proof.
  intros G Ee Ln Sh. pose proof G as (Hk & Hn & H256). set (sl := shard_len (length data) k) in *. destruct (encode_matrix_spec n k Hk Hn H256) as (e' & Ee' & _ & Sp). rewrite Ee in Ee'. injection Ee' as <-.
  pose proof (padded_length data k Hk) as PL. fold sl in PL. rewrite <- (take_ge (padded data k) (k * sl)) by lia. rewrite <- chunks by lia. f_equal.
  apply (nth_ext _ _ [] []); [rewrite take_length, map_length, seq_length; lia|]. intros i Hi. rewrite take_length, Ln in Hi. rewrite nth_take_row by lia. rewrite nth_seq_map by lia. destruct (Sh i ltac:(lia)) as [L V].
  apply (nth_eq_list _ _ sl); [done|now rewrite map_length, seq_length|]. intros b Hb. rewrite V by done. rewrite nth_seq_map by done. destruct (Sp (column k (padded data k) sl b)) as (c & S1 & S2). rewrite S1 by lia. apply S2. lia.
Qed.

(** ** Decoding *)
Definition valid (n sl : nat) (p : nat * list byte) : Prop := fst p < n /\ length (snd p) = sl.
Definition idx (s : nat * row * list byte) : nat := fst (fst s).
Lemma existsb_idx sel i : existsb (fun s : nat * row * list byte => fst (fst s) =? i) sel = true <-> In i (map idx sel).
Proof. rewrite existsb_exists, in_map_iff. split; intros (s & A & B); exists s; [apply Nat.eqb_eq in B|apply Nat.eqb_eq in A]; done. Qed.
Lemma nodup_snoc {A} (l : list A) x : List.NoDup l -> ~ In x l -> List.NoDup (l ++ [x]).
Proof. intros ND N. apply (Permutation_NoDup (l := x :: l)); [apply Permutation_cons_append|now constructor]. Qed.
Lemma pick_spec k n sl e have sel : List.NoDup (map idx sel) -> length sel < k ->
  let r := pick k n sl e have sel in
  List.NoDup (map idx r) /\ length r <= k /\
  (forall s, In s r -> In s sel \/ exists p, In p have /\ valid n sl p /\ s = (fst p, nth (fst p) e [], snd p)) /\
  (length r < k -> (forall s, In s sel -> In s r) /\ forall p, In p have -> valid n sl p -> In (fst p) (map idx r)).
Proof.
  revert sel. induction have as [|[i s] have IH]; intros sel ND L; cbn [pick].
  - cbn zeta. split; [done|]. split; [lia|]. split; [tauto|]. intros _. split; [tauto|intros ? []].
  - destruct ((n <=? i) || negb (length s =? sl) || existsb (fun s => fst (fst s) =? i) sel) eqn:E.
    + specialize (IH sel ND L). cbn zeta in *. set (r := pick k n sl e have sel) in *. destruct IH as (A & B & C & D). split; [done|]. split; [done|]. split.
      * intros x Hx. destruct (C x Hx) as [|(p & Hp & V & ->)]; [tauto|]. right. exists p. split; [now right|done].
      * intros Hr. destruct (D Hr) as [D1 D2]. split; [done|]. intros p [<-|Hp] V; [|now apply D2]. rewrite !orb_true_iff in E. destruct V as [V1 V2]. cbn in *. destruct E as [[E|E]|E]; [apply Nat.leb_le in E; lia|rewrite V2, Nat.eqb_refl in E; done|]. apply existsb_idx in E. apply in_map_iff in E as (x & <- & Hx). apply in_map. now apply D1.
    + rewrite !orb_false_iff in E. destruct E as [[E1 E2] E3]. apply Nat.leb_gt in E1. apply negb_false_iff, Nat.eqb_eq in E2. assert (Ni : ~ In i (map idx sel)) by (rewrite <- existsb_idx, E3; done).
      assert (V : valid n sl (i, s)) by done. set (sel' := sel ++ [(i, nth i e [], s)]). assert (ND' : List.NoDup (map idx sel')) by (unfold sel'; rewrite map_app; now apply nodup_snoc). assert (L' : length sel' = S (length sel)) by (unfold sel'; rewrite app_length; cbn; lia).
      assert (In' : forall x, In x sel' -> In x sel \/ exists p, In p ((i, s) :: have) /\ valid n sl p /\ x = (fst p, nth (fst p) e [], snd p)).
      { intros x Hx. unfold sel' in Hx. apply in_app_iff in Hx as [|[<-|[]]]; [tauto|]. right. exists (i, s). split; [now left|done]. }
      destruct (Nat.eqb_spec (length sel') k) as [Ek|Nk].
      * cbn zeta. split; [done|]. split; [lia|]. split; [done|]. intros; lia.
      * specialize (IH sel' ND' ltac:(lia)). cbn zeta in *. set (r := pick k n sl e have sel') in *. destruct IH as (A & B & C & D). split; [done|]. split; [done|]. split.
        -- intros x Hx. destruct (C x Hx) as [Hs|(p & Hp & Vp & ->)]; [now apply In'|]. right. exists p. split; [now right|done].
        -- intros Hr. destruct (D Hr) as [D1 D2]. split; [intros x Hx; apply D1; unfold sel'; apply in_app_iff; tauto|]. intros p [<-|Hp] Vp; [|now apply D2]. cbn. change i with (idx (i, nth i e [], s)). apply in_map, D1. unfold sel'. apply in_app_iff. right. now left.
Qed.
(** At least [k] different usable indices, or fewer. *)
Definition enough (k n sl : nat) (have : list (nat * list byte)) : Prop :=
  exists idxs, List.NoDup idxs /\ k <= length idxs /\ forall i, In i idxs -> exists s, In (i, s) have /\ valid n sl (i, s).
Lemma decode_enough ol k n e have sl pad : good k n -> encode_matrix n k = Some e -> have <> [] -> length (snd (nth 0 have (0, []))) = sl -> enough k n sl have ->
  length pad = k * sl -> (forall p, In p have -> valid n sl p -> forall b, b < sl -> nth b (snd p) x00 = apply_mat k e (column k pad sl b) (fst p)) ->
  decode ol k n have = if k * sl <? ol then None else Some (take ol pad).
Proof.
  intros G Ee Hne Hsl (idxs & ND & Lk & Hi) Lp Gen. pose proof G as (Hk & Hn & H256). unfold decode. rewrite (proj2 (good_spec k n) G). destruct have as [|p0 have']; [done|]. set (have := p0 :: have') in *. cbn [orb]. rewrite Hsl, Ee.
  pose proof (pick_spec k n sl e have [] (List.NoDup_nil _) Hk) as P. cbn zeta in P. set (r := pick k n sl e have []) in *. destruct P as (PN & PL & PI & PC).
  assert (Lr : length r = k).
  { destruct (Nat.eq_dec (length r) k) as [|N]; [done|]. destruct (PC ltac:(lia)) as [_ PC2]. assert (length idxs <= length (map idx r)); [|rewrite map_length in *; lia]. apply List.NoDup_incl_length; [done|]. intros i Hin. destruct (Hi i Hin) as (s & Hs & V). apply (PC2 (i, s) Hs V). }
  rewrite Lr, Nat.ltb_irrefl.
  assert (Em : map (fun s : nat * row * list byte => snd (fst s)) r = map (fun i => nth i e []) (map idx r)).
  { rewrite map_map. apply map_ext_in. intros s Hs. destruct (PI s Hs) as [[]|(p & _ & _ & ->)]. done. }
  assert (Bi : forall i, In i (map idx r) -> i < n) by (intros i Hin; apply in_map_iff in Hin as (s & <- & Hs); destruct (PI s Hs) as [[]|(p & _ & [V _] & ->)]; done).
  destruct (encode_matrix_mds n k e (map idx r) Hk Hn H256 Ee PN ltac:(now rewrite map_length) Bi) as (minv & Einv & Inv). cbn zeta in Einv. rewrite Em, Einv. cbn zeta.
  assert (Ed : concat (map (fun j => map (fun b => xsum k (fun t => gf_mul (at2 minv j t) (at2 (map snd r) t b))) (seq 0 sl)) (seq 0 k)) = pad).
  { rewrite <- (take_ge pad (k * sl)) by lia. rewrite <- chunks by lia. f_equal. apply map_ext_in. intros j Hj. apply in_seq in Hj. apply map_ext_in. intros b Hb. apply in_seq in Hb. symmetry. apply (Inv (column k pad sl b) (fun t => at2 (map snd r) t b)); [|lia].
    intros t Ht. rewrite (nth_map_in idx r t 0 (0, [], [])) by lia. unfold at2. rewrite (nth_map_in snd r t [] (0, [], [])) by lia. assert (Hs : In (nth t r (0, [], [])) r) by (apply nth_In; lia). destruct (PI _ Hs) as [[]|(p & Hp & V & ->)]. cbn. symmetry. apply Gen; [done|done|lia]. }
  rewrite Ed, Lp. done.
Qed.
Lemma decode_fewer ol k n have : ~ enough k n (length (snd (nth 0 have (0, [])))) have -> decode ol k n have = None.
Proof.
  intros F. unfold decode. destruct ((k =? 0) || (n <? k) || (256 <? n) || _) eqn:E; [done|]. rewrite orb_false_iff in E. destruct E as [G _]. apply good_spec in G. pose proof G as (Hk & _ & _). set (sl := length _) in *. destruct (encode_matrix n k) as [e|]; [|done].
  pose proof (pick_spec k n sl e have [] (List.NoDup_nil _) Hk) as P. cbn zeta in P. set (r := pick k n sl e have []) in *. destruct P as (PN & PL & PI & _). destruct (Nat.ltb_spec (length r) k) as [|Hr]; [done|]. destruct F. exists (map idx r). split; [done|]. split; [now rewrite map_length|].
  intros i Hin. apply in_map_iff in Hin as (s & <- & Hs). destruct (PI s Hs) as [[]|([i' sh] & Hp & V & ->)]. exists sh. done.
Qed.

(** ** Framing *)
Lemma le_length n x : length (le n x) = n. Proof. revert x. induction n as [|n IH]; intros x; cbn; [done|now rewrite IH]. Qed.
Lemma unle_le n x : unle (le n x) = (x mod 256 ^ N.of_nat n)%N.
Proof.
  revert x. induction n as [|n IH]; intros x; cbn [le unle]; [now rewrite N.mod_1_r|]. rewrite IH, u8_val, Nat2N.inj_succ, N.pow_succ_r', N.mod_mul_r by (try done; apply N.pow_nonzero; done). done.
Qed.
Definition wrap_len (len : nat) : nat := N.to_nat (N.of_nat len mod 256 ^ 4)%N.
Lemma slice_app a b (l r : list byte) : length l = a -> slice a (a + b) (l ++ r) = take b r.
Proof. intros <-. unfold slice. rewrite drop_app. f_equal. lia. Qed.
Lemma take_le n x r : take n (le n x ++ r) = le n x. Proof. apply take_app_alt. now rewrite le_length. Qed.
Lemma small_mod x n m : x < m -> (N.of_nat m <= 256 ^ N.of_nat n)%N -> N.to_nat (N.of_nat x mod 256 ^ N.of_nat n)%N = x.
Proof. intros H G. rewrite N.mod_small by lia. lia. Qed.
Lemma parse_frame id k n len i shard : (id < 256 ^ 8)%N -> k <= 256 -> n <= 256 -> i < 256 ->
  parse_shard (frame_shard id k n len i shard) = Some (Hdr id k n (wrap_len len) i, shard).
Proof.
  intros Hid Hk Hn Hi. unfold parse_shard, FEC_HEADER_LEN, frame_shard.
  set (a := le 8 id). set (b := le 2 (N.of_nat k)). set (c := le 2 (N.of_nat n)). set (d := le 4 (N.of_nat len)). set (f := le 2 (N.of_nat i)).
  assert (La : length a = 8) by apply le_length. assert (Lb : length b = 2) by apply le_length. assert (Lc : length c = 2) by apply le_length. assert (Ld : length d = 4) by apply le_length. assert (Lf : length f = 2) by apply le_length.
  set (bs := [FEC_MAGIC] ++ a ++ b ++ c ++ d ++ f ++ shard).
  assert (LB : 19 <= length bs) by (unfold bs; rewrite !app_length, La, Lb, Lc, Ld, Lf; cbn [length]; lia). rewrite (proj2 (Nat.ltb_ge _ _) LB). assert (E0 : nth 0 bs x00 = FEC_MAGIC) by reflexivity. rewrite E0. change (Byte.eqb FEC_MAGIC FEC_MAGIC) with true. cbn [orb negb].
  assert (Ea : slice 1 9 bs = a) by (unfold bs; rewrite (slice_app 1 8) by done; apply take_le).
  assert (Eb : slice 9 11 bs = b) by (replace bs with (([FEC_MAGIC] ++ a) ++ b ++ c ++ d ++ f ++ shard) by (unfold bs; now rewrite <- !app_assoc); rewrite (slice_app 9 2) by (rewrite app_length, La; done); apply take_le).
  assert (Ec : slice 11 13 bs = c) by (replace bs with (([FEC_MAGIC] ++ a ++ b) ++ c ++ d ++ f ++ shard) by (unfold bs; now rewrite <- !app_assoc); rewrite (slice_app 11 2) by (rewrite !app_length, La, Lb; done); apply take_le).
  assert (Ed : slice 13 17 bs = d) by (replace bs with (([FEC_MAGIC] ++ a ++ b ++ c) ++ d ++ f ++ shard) by (unfold bs; now rewrite <- !app_assoc); rewrite (slice_app 13 4) by (rewrite !app_length, La, Lb, Lc; done); apply take_le).
  assert (Ef : slice 17 19 bs = f) by (replace bs with (([FEC_MAGIC] ++ a ++ b ++ c ++ d) ++ f ++ shard) by (unfold bs; now rewrite <- !app_assoc); rewrite (slice_app 17 2) by (rewrite !app_length, La, Lb, Lc, Ld; done); apply take_le).
  assert (Es : drop 19 bs = shard) by (replace bs with (([FEC_MAGIC] ++ a ++ b ++ c ++ d ++ f) ++ shard) by (unfold bs; now rewrite <- !app_assoc); apply drop_app_alt; rewrite !app_length, La, Lb, Lc, Ld, Lf; done).
  rewrite Ea, Eb, Ec, Ed, Ef, Es. unfold a, b, c, d, f. rewrite !unle_le. rewrite (small_mod k 2 257), (small_mod n 2 257), (small_mod i 2 257) by (lia || done). rewrite (N.mod_small id) by done. done.
Qed.
