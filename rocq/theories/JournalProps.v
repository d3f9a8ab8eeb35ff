(** C13 (a cut journal recovers a prefix), C14 (writes after a torn tail), C15 (compaction). *)
From Coq Require Import NArith List Lia Strings.Byte.
From stdpp Require Import list gmap.
From Verif Require Import FecModel FecField FecCode JournalModel CrdtModel CrdtClockProofs.
Open Scope nat_scope.
Opaque u8.

(** ** CRC-32 *)
Definition w32 (x : N) : Prop := (x < 2 ^ 32)%N.
Lemma w32_shiftr (x : N) (n : nat) : w32 x <-> N.shiftr x 32 = 0%N.
Proof. unfold w32. rewrite N.shiftr_div_pow2. split; intros H; [now apply N.div_small|]. destruct (N.lt_ge_cases x (2 ^ 32)) as [|G]; [done|]. pose proof (N.div_str_pos x (2 ^ 32)). lia. Qed.
Lemma w32_lxor a b : w32 a -> w32 b -> w32 (N.lxor a b).
Proof. rewrite !(w32_shiftr _ 0), N.shiftr_lxor. intros -> ->. done. Qed.
Lemma crc_bit_w32 s : w32 s -> w32 (crc_bit s).
Proof.
  intros H. unfold crc_bit. assert (G : w32 (N.shiftr s 1)) by (unfold w32 in *; rewrite N.shiftr_div_pow2; apply N.div_lt_upper_bound; [done|]; change (2 ^ 1 * 2 ^ 32)%N with (2 ^ 33)%N; change (2 ^ 33)%N with 8589934592%N; change (2 ^ 32)%N with 4294967296%N in H; lia).
  destruct (N.odd s); [apply w32_lxor; done|done].
Qed.
Lemma crc_bit_linear a b : crc_bit (N.lxor a b) = N.lxor (crc_bit a) (crc_bit b).
Proof.
  unfold crc_bit. rewrite <- !N.bit0_odd, N.lxor_spec, N.shiftr_lxor. set (x := N.shiftr a 1). set (y := N.shiftr b 1). destruct (N.testbit a 0), (N.testbit b 0); cbn [xorb].
  - set (k := 3988292384%N). rewrite (N.lxor_comm y k), N.lxor_assoc, <- (N.lxor_assoc k k y), N.lxor_nilpotent, N.lxor_0_l. done.
  - rewrite !N.lxor_assoc. f_equal. apply N.lxor_comm.
  - now rewrite N.lxor_assoc.
  - done.
Qed.
Lemma crc_bit_zero s : w32 s -> crc_bit s = 0%N -> s = 0%N.
Proof.
  intros H. unfold crc_bit. destruct (N.odd s) eqn:E.
  - intros Z0. apply N.lxor_eq in Z0. assert (K : w32 (N.shiftr s 1) /\ (N.shiftr s 1 < 2 ^ 31)%N).
    { unfold w32 in *. rewrite N.shiftr_div_pow2. assert ((s / 2 ^ 1 < 2 ^ 31)%N) by (apply N.div_lt_upper_bound; [done|exact H]). split; [|done]. change (2 ^ 32)%N with 4294967296%N. change (2 ^ 31)%N with 2147483648%N in *. lia. }
    rewrite Z0 in K. destruct K as [_ K]. vm_compute in K. discriminate.
  - intros Z0. rewrite N.shiftr_div_pow2 in Z0. apply N.div_small_iff in Z0; [|done]. change (2 ^ 1)%N with 2%N in Z0. destruct s as [|[p|p|]]; try done; lia.
Qed.
Lemma crc_bits_w32 n s : w32 s -> w32 (crc_bits n s). Proof. intros H. unfold crc_bits. induction n as [|n IH]; [done|]. cbn. now apply crc_bit_w32. Qed.
Lemma crc_bits_linear n a b : crc_bits n (N.lxor a b) = N.lxor (crc_bits n a) (crc_bits n b).
Proof. induction n as [|n IH]; [done|]. change (crc_bit (crc_bits n (N.lxor a b)) = N.lxor (crc_bit (crc_bits n a)) (crc_bit (crc_bits n b))). now rewrite IH, crc_bit_linear. Qed.
Lemma crc_bits_zero n s : w32 s -> crc_bits n s = 0%N -> s = 0%N.
Proof. intros H. induction n as [|n IH]; [done|]. change (crc_bit (crc_bits n s) = 0%N -> s = 0%N). intros Z0. apply IH, crc_bit_zero; [now apply crc_bits_w32|done]. Qed.
Lemma crc_bits_add n m s : crc_bits n (crc_bits m s) = crc_bits (n + m) s.
Proof. induction n as [|n IH]; [done|]. cbn [Nat.add]. change (crc_bit (crc_bits n (crc_bits m s)) = crc_bit (crc_bits (n + m) s)). now rewrite IH. Qed.
Lemma crc_bit_double x : crc_bit (N.shiftl x 1) = x.
Proof. unfold crc_bit. rewrite <- N.bit0_odd, N.shiftl_spec_low by lia. rewrite N.shiftr_shiftl_r by lia. apply N.shiftr_0_r. Qed.
Lemma crc_bits_shift n x : crc_bits n (N.shiftl x (N.of_nat n)) = x.
Proof.
  revert x. induction n as [|n IH]; intros x; [apply N.shiftl_0_r|]. replace (S n) with (n + 1) by lia. rewrite <- crc_bits_add. rewrite Nat2N.inj_add, N.add_comm, <- N.shiftl_shiftl. change (crc_bits 1 ?y) with (crc_bit y). rewrite N.shiftl_shiftl, N.add_comm, <- N.shiftl_shiftl. change (N.of_nat 1) with 1%N. rewrite crc_bit_double. apply IH.
Qed.
Lemma to_N_w32 b : w32 (Byte.to_N b). Proof. unfold w32. pose proof (to_N_lt b). change (2 ^ 32)%N with 4294967296%N. lia. Qed.
Lemma crc_byte_w32 s b : w32 s -> w32 (crc_byte s b). Proof. intros H. apply crc_bits_w32, w32_lxor; [done|apply to_N_w32]. Qed.
Lemma fold_w32 bs s : w32 s -> w32 (fold_left crc_byte bs s). Proof. revert s. induction bs as [|b bs IH]; intros s H; [done|]. cbn. now apply IH, crc_byte_w32. Qed.
Lemma crc32_w32 bs : w32 (crc32 bs). Proof. apply w32_lxor; [now apply fold_w32|done]. Qed.
(** The same bytes keep different states different. *)
Lemma fold_inj bs s s' : w32 s -> w32 s' -> fold_left crc_byte bs s = fold_left crc_byte bs s' -> s = s'.
Proof.
  revert s s'. induction bs as [|b bs IH]; intros s s' H H' E; [done|]. cbn [fold_left] in E. apply IH in E; [|now apply crc_byte_w32..]. unfold crc_byte in E. assert (Z0 : crc_bits 8 (N.lxor s s') = 0%N).
  { replace (N.lxor s s') with (N.lxor (N.lxor s (Byte.to_N b)) (N.lxor s' (Byte.to_N b))); [rewrite crc_bits_linear, E; apply N.lxor_nilpotent|]. rewrite N.lxor_assoc, (N.lxor_comm (Byte.to_N b)), N.lxor_assoc, N.lxor_nilpotent, N.lxor_0_r. done. }
  apply crc_bits_zero in Z0; [|now apply w32_lxor]. now apply N.lxor_eq.
Qed.
(** A run of up to four bytes as one number, as it enters the register. *)
Definition word (bs : list byte) : N := fold_right (fun b x => N.lxor (Byte.to_N b) (N.shiftl x 8)) 0%N bs.
Lemma fold_word bs s : fold_left crc_byte bs s = crc_bits (8 * length bs) (N.lxor s (word bs)).
Proof.
  revert s. induction bs as [|b bs IH]; intros s; [cbn; now rewrite N.lxor_0_r|]. cbn [fold_left word fold_right length]. rewrite IH. fold (word bs). replace (8 * S (length bs)) with (8 * length bs + 8) by lia. rewrite <- crc_bits_add. f_equal.
  unfold crc_byte. rewrite <- N.lxor_assoc, (crc_bits_linear 8 _ (N.shiftl (word bs) 8)). f_equal. symmetry. apply (crc_bits_shift 8).
Qed.
Lemma word_bound bs : (word bs < 2 ^ (8 * N.of_nat (length bs)))%N.
Proof.
  induction bs as [|b bs IH]; [done|]. cbn [word fold_right length]. fold (word bs). pose proof (to_N_lt b) as B. rewrite N.shiftl_mul_pow2. change (2 ^ 8)%N with 256%N.
  assert (E : N.lxor (Byte.to_N b) (word bs * 256) = (word bs * 256 + Byte.to_N b)%N).
  { change 256%N with (2 ^ 8)%N. rewrite <- N.shiftl_mul_pow2, N.lxor_comm. symmetry. apply N.add_nocarry_lxor. apply N.bits_inj_0. intros i. rewrite N.land_spec. destruct (N.lt_ge_cases i 8) as [L|G]; [now rewrite N.shiftl_spec_low|]. rewrite (N.bits_above_log2 (Byte.to_N b)), andb_false_r; [done|]. destruct (Byte.to_N b) eqn:Eb; [cbn; lia|]. rewrite <- Eb in *. apply N.log2_lt_pow2; [lia|]. apply (N.lt_le_trans _ (2 ^ 8)); [exact B|]. apply N.pow_le_mono_r; [done|exact G]. }
  rewrite E. rewrite Nat2N.inj_succ. replace (8 * N.succ (N.of_nat (length bs)))%N with (8 * N.of_nat (length bs) + 8)%N by lia. rewrite N.pow_add_r. change (2 ^ 8)%N with 256%N. nia.
Qed.
Lemma word_inj bs cs : length bs = length cs -> word bs = word cs -> bs = cs.
Proof.
  revert cs. induction bs as [|b bs IH]; intros [|c cs] L E; try done. cbn [word fold_right] in E. fold (word bs) (word cs) in E.
  assert (K : forall d x, N.lxor (Byte.to_N d) (N.shiftl x 8) = (x * 256 + Byte.to_N d)%N).
  { intros d x. pose proof (to_N_lt d) as B. rewrite N.shiftl_mul_pow2. change (2 ^ 8)%N with 256%N. rewrite N.lxor_comm. symmetry. apply N.add_nocarry_lxor. apply N.bits_inj_0. intros i. rewrite N.land_spec. change 256%N with (2 ^ 8)%N. rewrite <- N.shiftl_mul_pow2. destruct (N.lt_ge_cases i 8) as [Li|G]; [now rewrite N.shiftl_spec_low|]. rewrite (N.bits_above_log2 (Byte.to_N d)), andb_false_r; [done|]. destruct (Byte.to_N d) eqn:Eb; [cbn; lia|]. rewrite <- Eb in *. apply N.log2_lt_pow2; [lia|]. apply (N.lt_le_trans _ (2 ^ 8)); [exact B|]. apply N.pow_le_mono_r; [done|exact G]. }
  rewrite !K in E. pose proof (to_N_lt b). pose proof (to_N_lt c). assert (word bs = word cs /\ Byte.to_N b = Byte.to_N c) as [E1 E2] by lia. f_equal; [now apply to_N_inj|]. apply IH; [cbn in L; lia|done].
Qed.
(** Changing at most four neighbouring bytes changes the checksum. *)
Lemma crc_burst a b b' c : length b = length b' -> length b <= 4 -> b <> b' -> crc32 (a ++ b ++ c) <> crc32 (a ++ b' ++ c).
Proof.
  intros L L4 N E. unfold crc32 in E. assert (E' : fold_left crc_byte (a ++ b ++ c) 4294967295%N = fold_left crc_byte (a ++ b' ++ c) 4294967295%N).
  { rewrite <- (N.lxor_0_r (fold_left crc_byte (a ++ b ++ c) _)), <- (N.lxor_0_r (fold_left crc_byte (a ++ b' ++ c) _)), <- (N.lxor_nilpotent 4294967295), <- !N.lxor_assoc. now rewrite E. }
  rewrite !fold_left_app in E'. set (s := fold_left crc_byte a _) in *. assert (Hs : w32 s) by now apply fold_w32. apply fold_inj in E'; [|now apply fold_w32..]. rewrite !fold_word, <- L in E'.
  assert (B : forall d, length d = length b -> w32 (word d)). { intros d Ld. pose proof (word_bound d) as Bd. unfold w32. apply (N.lt_le_trans _ _ _ Bd). apply N.pow_le_mono_r; [done|]. lia. }
  assert (Z0 : crc_bits (8 * length b) (N.lxor (word b) (word b')) = 0%N).
  { replace (N.lxor (word b) (word b')) with (N.lxor (N.lxor s (word b)) (N.lxor s (word b'))); [rewrite crc_bits_linear, E'; apply N.lxor_nilpotent|]. rewrite (N.lxor_comm s (word b)), N.lxor_assoc, <- (N.lxor_assoc s s), N.lxor_nilpotent, N.lxor_0_l. done. }
  apply crc_bits_zero in Z0; [|apply w32_lxor; apply B; congruence]. apply N.lxor_eq in Z0. now apply N, word_inj.
Qed.

Opaque crc_bits crc32.
(** ** Replay *)
Section Replay.
Context {T : Type} (J : journalled T).
Definition faithful : Prop := forall o, jde J (jser J o) = Some o.
Definition fits (o : op T) : Prop := (N.of_nat (length (jser J o)) < 2 ^ 32)%N.
Lemma header_length p : length (header p) = 8. Proof. unfold header. now rewrite app_length, !le_length. Qed.
Lemma decode_header_spec p rest : (N.of_nat (length p) < 2 ^ 32)%N -> decode_header (take 8 (header p ++ rest)) = (length p, crc32 p).
Proof.
  intros H. rewrite take_app_alt by (now rewrite header_length). unfold decode_header, header. rewrite take_app_alt, drop_app_alt by (now rewrite le_length). rewrite !unle_le. change (256 ^ N.of_nat 4)%N with (2 ^ 32)%N. rewrite !N.mod_small by (first [exact H|apply crc32_w32]). now rewrite Nat2N.id.
Qed.
(** More steps than bytes make no difference: the loop ends because it reaches its exit. *)
Lemma replay_steps n m data s k : length data < n -> length data < m -> replay_loop J n data s k = replay_loop J m data s k.
Proof.
  revert m data s k. induction n as [|n IH]; intros m data s k Hn Hm; [lia|]. destruct m as [|m]; [lia|]. cbn [replay_loop]. destruct (Nat.ltb_spec (length data) 8); [done|]. destruct (decode_header (take 8 data)) as [len sum]. destruct (length (drop 8 data) <? len); [done|]. destruct (negb _); [done|]. destruct (jde J _); [|done]. apply IH; rewrite !drop_length; lia.
Qed.
Definition R (data : list byte) (s : T) (k : nat) : outcome T := replay_loop J (S (length data)) data s k.
Lemma R_entry o rest s k : faithful -> fits o -> R (entry J o ++ rest) s k = R rest (apply_op J s o) (S k).
Proof.
  intros Fa Fi. unfold R. cbn [replay_loop]. assert (L : 8 <= length (entry J o ++ rest)) by (unfold entry; rewrite !app_length, header_length; lia). rewrite (proj2 (Nat.ltb_ge _ _) L).
  assert (E1 : take 8 (entry J o ++ rest) = take 8 (header (jser J o) ++ jser J o ++ rest)) by (unfold entry; now rewrite <- app_assoc). assert (E2 : drop 8 (entry J o ++ rest) = jser J o ++ rest) by (unfold entry; rewrite <- app_assoc; apply drop_app_alt; now rewrite header_length).
  rewrite E1, decode_header_spec by done. rewrite E2. assert (L2 : length (jser J o) <= length (jser J o ++ rest)) by (rewrite app_length; lia). rewrite (proj2 (Nat.ltb_ge _ _) L2). rewrite take_app, N.eqb_refl. cbn [negb]. rewrite Fa, drop_app. change (replay_loop J (length (entry J o ++ rest)) rest (apply_op J s o) (S k) = replay_loop J (S (length rest)) rest (apply_op J s o) (S k)). apply replay_steps; [|lia]. rewrite app_length. unfold entry. rewrite app_length, header_length. lia.
Qed.
Lemma R_entries ops rest s k : faithful -> Forall fits ops -> R (concat (map (entry J) ops) ++ rest) s k = R rest (fold_left (apply_op J) ops s) (k + length ops).
Proof.
  intros Fa. revert s k. induction ops as [|o ops IH]; intros s k H; cbn [map concat fold_left length]; [now rewrite Nat.add_0_r|]. pose proof (Forall_inv H) as H1. apply Forall_inv_tail in H. rewrite <- app_assoc, R_entry by done. rewrite IH by done. now rewrite Nat.add_succ_r.
Qed.
Lemma R_nil s k : R [] s k = Ok s k. Proof. reflexivity. Qed.
(** An entry cut anywhere but at its end is ignored. *)
Lemma R_torn o t u s k : fits o -> entry J o = t ++ u -> u <> [] -> R t s k = Ok s k.
Proof.
  intros Fi E Hu. unfold R. cbn [replay_loop]. destruct (Nat.ltb_spec (length t) 8) as [|G]; [done|]. unfold entry in E. assert (Et : t = header (jser J o) ++ drop 8 t).
  { rewrite <- (take_drop 8 t) at 1. f_equal. assert (X : take 8 (t ++ u) = header (jser J o)) by (rewrite <- E; apply take_app_alt; now rewrite header_length). rewrite take_app_le in X by done. done. }
  assert (Er : jser J o = drop 8 t ++ u). { rewrite Et, <- app_assoc in E. now apply app_inv_head in E. }
  rewrite Et at 1. rewrite decode_header_spec by done. destruct (Nat.ltb_spec (length (drop 8 t)) (length (jser J o))) as [|L]; [done|]. rewrite Er, app_length in L. destruct u; [done|]. cbn in L. lia.
Qed.
(** A damaged entry stops recovery with an error. *)
Lemma R_damaged o p rest s k : fits o -> length p = length (jser J o) -> crc32 p <> crc32 (jser J o) -> R (header (jser J o) ++ p ++ rest) s k = Corrupted k.
Proof.
  intros Fi L N. unfold R. cbn [replay_loop]. assert (L8 : 8 <= length (header (jser J o) ++ p ++ rest)) by (rewrite app_length, header_length; lia). rewrite (proj2 (Nat.ltb_ge _ _) L8), decode_header_spec by done. rewrite drop_app_alt by (now rewrite header_length). assert (L2 : length (jser J o) <= length (p ++ rest)) by (rewrite app_length; lia). rewrite (proj2 (Nat.ltb_ge _ _) L2), <- L, take_app. apply N.eqb_neq in N. now rewrite N.
Qed.
Lemma find_cut (ops : list (op T)) cut : exists i, i <= length ops /\ length (concat (map (entry J) (take i ops))) <= cut /\ (i < length ops -> cut < length (concat (map (entry J) (take (S i) ops)))).
Proof.
  revert cut. induction ops as [|o ops IH]; intros cut; [exists 0; cbn; lia|]. destruct (Nat.lt_ge_cases cut (length (entry J o))) as [L|G].
  - exists 0. split; [lia|]. split; [cbn; lia|]. intros _. change (take 1 (o :: ops)) with [o]. cbn [map concat]. rewrite app_nil_r. exact L.
  - destruct (IH (cut - length (entry J o))) as (i & A & B & C). exists (S i). split; [cbn [length]; lia|]. split.
    + change (take (S i) (o :: ops)) with (o :: take i ops). cbn [map concat]. rewrite app_length. lia.
    + intros H. cbn [length] in H. specialize (C ltac:(lia)). change (take (S (S i)) (o :: ops)) with (o :: take (S i) ops). cbn [map concat]. rewrite app_length. lia.
Qed.
Lemma entry_length o : 8 <= length (entry J o). Proof. unfold entry. rewrite app_length, header_length. lia. Qed.
End Replay.
Opaque entry.
Arguments faithful {T}. Arguments fits {T}.

(** ** C13 *)
(** A journal cut at any byte recovers exactly the entries that are wholly there, in order, and
    never fails. *)
Theorem C13_prefix {T} (J : journalled T) (ops : list (op T)) (d0 : T) (cut : nat) : faithful J -> Forall (fits J) ops ->
  exists i, i <= length ops /\ length (concat (map (entry J) (take i ops))) <= cut /\ (i < length ops -> cut < length (concat (map (entry J) (take (S i) ops)))) /\
  replay J d0 (take cut (concat (map (entry J) ops))) = Ok (fold_left (apply_op J) (take i ops) d0) i.
Proof.
  intros Fa Fi. destruct (find_cut J ops cut) as (i & A & B & C). exists i. split; [done|]. split; [done|]. split; [done|]. change (R J (take cut (concat (map (entry J) ops))) d0 0 = Ok (fold_left (apply_op J) (take i ops) d0) i).
  rewrite <- (take_drop i ops) at 1. rewrite map_app, concat_app, take_app_ge by done. assert (F1 : Forall (fits J) (take i ops)) by now apply Forall_take. rewrite R_entries by done. rewrite take_length, Nat.min_l, Nat.add_0_l by lia.
  destruct (drop i ops) as [|o rest] eqn:E; [cbn [map concat]; rewrite take_nil; reflexivity|]. assert (Li : i < length ops) by (apply (f_equal length) in E; rewrite drop_length in E; cbn in E; lia). specialize (C Li).
  assert (Fo : fits J o) by (apply (Forall_drop _ i) in Fi; rewrite E in Fi; now inversion Fi). assert (Es : take (S i) ops = take i ops ++ [o]).
  { rewrite <- (take_drop i ops) at 1. rewrite E. rewrite take_app_ge by (rewrite take_length; lia). rewrite take_length, Nat.min_l by lia. now replace (S i - i) with 1 by lia. }
  rewrite Es, map_app, concat_app, app_length in C. cbn [map concat] in C |- *. rewrite app_nil_r in C. set (c := cut - _). assert (Hc : c < length (entry J o)) by (unfold c; lia). rewrite take_app_le by lia.
  apply (R_torn J o _ (drop c (entry J o))); [done|now rewrite take_drop|]. intros Z0. apply (f_equal length) in Z0. rewrite drop_length in Z0. change (length (@nil byte)) with 0 in Z0. lia.
Qed.
(** Uncut, everything comes back. *)
Theorem C13_whole {T} (J : journalled T) (ops : list (op T)) (d0 : T) : faithful J -> Forall (fits J) ops ->
  replay J d0 (concat (map (entry J) ops)) = Ok (fold_left (apply_op J) ops d0) (length ops).
Proof. intros Fa Fi. rewrite <- (app_nil_r (concat _)). exact (R_entries J ops [] d0 0 Fa Fi). Qed.
(** Damage confined to four neighbouring bytes of a payload is always noticed, at that entry. *)
Theorem C13_damage {T} (J : journalled T) (ops : list (op T)) (o : op T) a b b' c rest (d0 : T) : faithful J -> Forall (fits J) ops -> fits J o ->
  jser J o = a ++ b ++ c -> length b' = length b -> length b <= 4 -> b' <> b ->
  replay J d0 (concat (map (entry J) ops) ++ header (a ++ b ++ c) ++ (a ++ b' ++ c) ++ rest) = Corrupted (length ops).
Proof.
  intros Fa Fi Fo E L L4 N. change (R J (concat (map (entry J) ops) ++ header (a ++ b ++ c) ++ (a ++ b' ++ c) ++ rest) d0 0 = Corrupted (length ops)). rewrite R_entries by done. rewrite <- E. apply R_damaged; [done|rewrite E, !app_length, L; done|]. rewrite E. apply crc_burst; [done|lia|done].
Qed.

(** *** The object *)
(** What can be observed of a value: a replica's own number may differ after a restart, since
    [T::default()] draws a new one. *)
Record content {T O} (J : journalled T) (obs : T -> O) (join : O -> O -> O) (bot : O) : Prop := Content {
  obs_merge : forall a b, obs (jmerge J a b) = join (obs a) (obs b);
  join_bot : forall x, join bot x = x;
  join_idem : forall x, join x x = x;
  join_assoc : forall x y z, join x (join y z) = join (join x y) z;
  join_comm : forall x y, join x y = join y x }.
Inductive call (T : Type) := Mutate (g : T -> T) | Compact | MaybeCompact (threshold : N) | DistMutate (g : T -> T) | Receive (d : T).
Arguments Mutate {T}. Arguments Compact {T}. Arguments MaybeCompact {T}. Arguments DistMutate {T}. Arguments Receive {T}.
Definition exec {T} (J : journalled T) (p : persistent T) (c : call T) : persistent T :=
  match c with
  | Mutate g => mutate J g p
  | Compact => compact J p
  | MaybeCompact n => fst (maybe_compact J n p)
  | DistMutate g => dist_mutate J g p
  | Receive d => dist_receive J d p
  end.
(** A mutation that only adds. *)
Definition grows {T O} (obs : T -> O) (join : O -> O -> O) (s s' : T) : Prop := join (obs s) (obs s') = obs s'.
Fixpoint calls_ok {T O} (J : journalled T) (obs : T -> O) (join : O -> O -> O) (p : persistent T) (cs : list (call T)) : Prop :=
  match cs with
  | [] => True
  | c :: cs =>
      (match c with Mutate g | DistMutate g => grows obs join (inner p) (g (inner p)) | _ => True end) /\
      fits J (Snapshot (inner (exec J p c))) /\ fits J (Delta (inner (exec J p c))) /\ match c with Receive d => fits J (Delta d) | _ => True end /\
      calls_ok J obs join (exec J p c) cs
  end.
(** The journal of the object replays to its content. *)
Definition synced {T O} (J : journalled T) (obs : T -> O) (bot : O) (p : persistent T) : Prop :=
  exists ops, Forall (fits J) ops /\ default [] (file p) = concat (map (entry J) ops) /\ count p = N.of_nat (length ops) /\ forall d0, obs d0 = bot -> obs (fold_left (apply_op J) ops d0) = obs (inner p).
Lemma synced_mount {T O} (J : journalled T) (obs : T -> O) bot p d0 : faithful J -> synced J obs bot p -> obs d0 = bot -> file p <> None \/ obs (inner p) = bot ->
  exists s, mount J d0 (file p) = inl (P s (file p) (count p)) /\ obs s = obs (inner p).
Proof.
  intros Fa (ops & Fi & Ef & Ec & Ob) H0 Hn. destruct p as [s f n]. cbn in *. destruct f as [data|].
  - cbn in Ef. subst data. cbn [mount]. rewrite C13_whole by done. eexists. split; [now rewrite Ec|]. now apply Ob.
  - destruct Hn as [|Hn]; [done|]. cbn. assert (ops = []) as ->. { destruct ops as [|o ops]; [done|]. cbn in Ef. apply (f_equal length) in Ef. rewrite app_length in Ef. cbn in Ef. pose proof (entry_length J o). lia. } cbn in Ec. subst n. exists d0. split; [done|]. now rewrite H0, Hn.
Qed.
Lemma synced_append {T O} (J : journalled T) (obs : T -> O) join bot p s' d : content J obs join bot -> synced J obs bot p -> fits J (Delta d) -> join (obs (inner p)) (obs d) = obs s' -> synced J obs bot (P s' (append (file p) (entry J (Delta d))) (count p + 1)).
Proof.
  intros C (ops & Fi & Ef & Ec & Ob) Fd G. exists (ops ++ [Delta d]). cbn [file count inner append default from_option]. split; [apply Forall_app; split; [done|now constructor]|]. split; [rewrite Ef, map_app, concat_app; cbn; now rewrite app_nil_r|]. split; [rewrite Ec, app_length; cbn; lia|]. intros d0 H0. rewrite fold_left_app. cbn. rewrite (obs_merge _ _ _ _ C), Ob by done. done.
Qed.
Lemma synced_compact {T O} (J : journalled T) (obs : T -> O) bot p : fits J (Snapshot (inner p)) -> synced J obs bot (compact J p).
Proof. intros F. exists [Snapshot (inner p)]. split; [now constructor|]. split; [cbn; now rewrite app_nil_r|]. split; [done|]. intros d0 _. done. Qed.
Lemma exec_synced {T O} (J : journalled T) (obs : T -> O) join bot p c cs : content J obs join bot -> synced J obs bot p -> calls_ok J obs join p (c :: cs) -> synced J obs bot (exec J p c).
Proof.
  intros C S (G & F1 & F2 & F3 & _). destruct c as [g| |n|g|d]; cbn [exec] in *.
  - apply (synced_append J obs join); try done.
  - now apply synced_compact.
  - unfold maybe_compact in *. destruct (n <? count p)%N; [now apply synced_compact|done].
  - unfold dist_mutate in *. assert (S' : synced J obs bot (mutate J g p)). { apply (synced_append J obs join); try done. destruct (COMPACT_THRESHOLD <=? count (mutate J g p))%N; exact F2. } destruct (COMPACT_THRESHOLD <=? count (mutate J g p))%N; [|done]. now apply synced_compact.
  - apply (synced_append J obs join); [done|done|done|]. symmetry. apply (obs_merge _ _ _ _ C).
Qed.
Lemma run_synced {T O} (J : journalled T) (obs : T -> O) join bot p cs : content J obs join bot -> synced J obs bot p -> calls_ok J obs join p cs -> synced J obs bot (fold_left (exec J) cs p).
Proof. intros C. revert p. induction cs as [|c cs IH]; intros p S H; [done|]. cbn. apply IH; [now apply (exec_synced J obs join bot p c cs)|apply H]. Qed.
Lemma exec_file {T} (J : journalled T) p c : file (exec J p c) <> None \/ (file (exec J p c) = file p /\ inner (exec J p c) = inner p).
Proof. destruct c as [g| |n|g|d]; cbn; [now left|now left| |left|now left]. - unfold maybe_compact. destruct (n <? count p)%N; [now left|now right]. - unfold dist_mutate. destruct (_ <=? _)%N; done. Qed.
Lemma run_file {T} (J : journalled T) p cs : file p <> None -> file (fold_left (exec J) cs p) <> None.
Proof. revert p. induction cs as [|c cs IH]; intros p H; [done|]. cbn. apply IH. destruct (exec_file J p c) as [|[-> _]]; done. Qed.
Lemma run_inner {T O} (J : journalled T) (obs : T -> O) p cs : file p <> None \/ file (fold_left (exec J) cs p) <> None \/ inner (fold_left (exec J) cs p) = inner p.
Proof.
  revert p. induction cs as [|c cs IH]; intros p; [tauto|]. cbn [fold_left]. destruct (exec_file J p c) as [H|[H1 H2]]; [right; left; now apply run_file|]. destruct (IH (exec J p c)) as [K|[K|K]]; [left; congruence|tauto|right; right; congruence].
Qed.
Lemma fresh_synced {T O} (J : journalled T) (obs : T -> O) bot d0 : obs d0 = bot -> synced J obs bot (P d0 None 0).
Proof. intros H. exists []. split; [constructor|]. split; [done|]. split; [done|]. intros d1 H1. cbn. congruence. Qed.
(** After any sequence of calls on a new journal, mounting it again gives the content and the
    number of entries the object had. *)
Theorem C13_restart {T O} (J : journalled T) (obs : T -> O) join bot (d0 d1 : T) (cs : list (call T)) :
  faithful J -> content J obs join bot -> obs d0 = bot -> obs d1 = bot -> calls_ok J obs join (P d0 None 0) cs ->
  let p := fold_left (exec J) cs (P d0 None 0) in
  exists s, mount J d1 (file p) = inl (P s (file p) (count p)) /\ obs s = obs (inner p).
Proof.
  intros Fa C H0 H1 Hc p. apply (synced_mount J obs bot); [done|apply (run_synced J obs join); [done|now apply fresh_synced|done]|done|]. destruct (run_inner J obs (P d0 None 0) cs) as [K|[K|K]]; [done|now left|right]. unfold p. now rewrite K.
Qed.
(** A crash while a mutation is being appended: the next mount succeeds and sees the state before
    or after it, nothing else. *)
Theorem C13_crash {T O} (J : journalled T) (obs : T -> O) join bot (d0 d1 : T) (cs : list (call T)) (g : T -> T) f' :
  faithful J -> content J obs join bot -> obs d0 = bot -> obs d1 = bot -> calls_ok J obs join (P d0 None 0) (cs ++ [Mutate g]) ->
  let p := fold_left (exec J) cs (P d0 None 0) in
  crash_append (file p) (entry J (Delta (g (inner p)))) f' ->
  exists s n, mount J d1 f' = inl (P s f' n) /\ (obs s = obs (inner p) /\ n = count p \/ obs s = obs (g (inner p)) /\ n = (count p + 1)%N).
Proof.
  intros Fa C H0 H1 Hc p Cr. assert (K : calls_ok J obs join (P d0 None 0) cs /\ grows obs join (inner p) (g (inner p)) /\ fits J (Delta (g (inner p)))).
  { unfold p. clear Cr p. revert Hc. generalize (P d0 None 0 : persistent T). induction cs as [|c cs IH]; intros q Hc; cbn in Hc |- *; [tauto|]. destruct Hc as (A & B & D & E & F). destruct (IH _ F) as (X & Y & Z0). tauto. }
  destruct K as (Hcs & Gr & Fd). assert (S : synced J obs bot p) by (apply (run_synced J obs join); [done|now apply fresh_synced|done]).
  destruct Cr as [->|(t & u & E & ->)].
  - destruct (synced_mount J obs bot p d1 Fa S H1) as (s & Em & Eo); [destruct (run_inner J obs (P d0 None 0) cs) as [X|[X|X]]; [done|now left|right; unfold p; now rewrite X]|]. exists s, (count p). split; [done|tauto].
  - destruct S as (ops & Fi & Ef & Ec & Ob). unfold append. cbn [mount]. rewrite Ef. change (replay J d1 ?x) with (R J x d1 0). rewrite R_entries by done. rewrite Nat.add_0_l. destruct u as [|x u].
    + rewrite app_nil_r in E. subst t. rewrite <- (app_nil_r (entry J _)), R_entry, R_nil by done. eexists _, _. split; [reflexivity|]. right. split; [|lia]. cbn. rewrite (obs_merge _ _ _ _ C), Ob by done. exact Gr.
    + rewrite (R_torn J (Delta (g (inner p))) t (x :: u)) by done. eexists _, _. split; [reflexivity|]. left. split; [now apply Ob|done].
Qed.
(** The closure given to [mutate] may do anything to the value. A change that does not only add is
    acknowledged, visible, and gone after a restart: its delta is merged into what was there. *)
Definition max_reg : journalled N := Journalled N N.max (fun o => match o with Snapshot s => [x00; x00; x00; x00] ++ le 8 s | Delta s => [x01; x00; x00; x00] ++ le 8 s end)
  (fun bs => match bs with a :: x00 :: x00 :: x00 :: r => if length r =? 8 then (if Byte.eqb a x00 then Some (Snapshot (unle r)) else if Byte.eqb a x01 then Some (Delta (unle r)) else None) else None | _ => None end).
Theorem C13_any_mutation_refuted : exists (J : journalled N) (d0 : N) (cs : list (call N)) s n, let p := fold_left (exec J) cs (P d0 None 0) in
  mount J d0 (file p) = inl (P s (file p) n) /\ s <> inner p.
Proof. exists max_reg, 0%N, [Mutate (fun _ => 7%N); Mutate (fun _ => 3%N)]. eexists _, _. cbn zeta. split; [vm_compute; reflexivity|vm_compute; discriminate]. Qed.
(** The instance for the grow-only counter of the library; mutations are increments. *)
Theorem C13_gcounter_content (ser : op gcounter -> list byte) (de : list byte -> option (op gcounter)) :
  content (Journalled gcounter gc_merge ser de) gc_counts max_merge ∅ /\ forall c n, grows gc_counts max_merge c (gc_increment n c).
Proof.
  split.
  - split; [done| |apply max_merge_idemp|apply max_merge_assoc|apply max_merge_comm]. intros x. apply map_eq. intros i. rewrite max_merge_lookup, lookup_empty. destruct (x !! i); cbn; [f_equal; lia|done].
  - intros c n. unfold grows, gc_increment. cbn. apply map_eq. intros i. rewrite max_merge_lookup. destruct (decide (i = gc_id c)) as [->|N]; [rewrite lookup_insert; destruct (gc_counts c !! gc_id c) as [m|]; cbn; f_equal; lia|]. rewrite lookup_insert_ne by done. destruct (gc_counts c !! i); cbn; [f_equal; lia|done].
Qed.

(** ** C14 *)
(** A journal whose tail was torn accepts writes and acknowledges them, but the next mount either
    does not see them or fails. *)
Definition after_torn_tail (tail : nat) (g : N -> N) : option (persistent N + outcome N) :=
  let p := mutate max_reg (fun _ => 5%N) (P 0%N None 0) in
  match mount max_reg 0%N (append (file p) (take tail (entry max_reg (Delta 6%N)))) with
  | inl q => Some (mount max_reg 0%N (file (mutate max_reg g q)))
  | inr _ => None
  end.
Theorem C14_refuted : (exists tail g p, after_torn_tail tail g = Some (inl p) /\ (inner p < g 5)%N) /\ (exists tail g, after_torn_tail tail g = Some (inr (Corrupted 1))).
Proof. split; [exists 1, (fun _ => 9%N); eexists; split; [vm_compute; reflexivity|vm_compute; reflexivity]|exists 9, (fun _ => 9%N); vm_compute; reflexivity]. Qed.
(** Whatever is appended behind a torn entry is lost, until it has filled the missing bytes. *)
Theorem C14_behind_torn_lost {T} (J : journalled T) (ops : list (op T)) (o : op T) t u more (d0 : T) : faithful J -> Forall (fits J) ops -> fits J o -> entry J o = t ++ u -> 8 <= length t -> length more < length u ->
  replay J d0 (concat (map (entry J) ops) ++ t ++ more) = Ok (fold_left (apply_op J) ops d0) (length ops).
Proof.
  intros Fa Fi Fo E L8 L. change (R J (concat (map (entry J) ops) ++ t ++ more) d0 0 = Ok (fold_left (apply_op J) ops d0) (length ops)). rewrite R_entries by done. rewrite Nat.add_0_l. set (s := fold_left _ _ _). set (k := length ops).
  unfold R. cbn [replay_loop]. destruct (Nat.ltb_spec (length (t ++ more)) 8) as [|_]; [done|]. Transparent entry. unfold entry in E. Opaque entry.
  assert (X : take 8 t = header (jser J o)). { assert (Y : take 8 (t ++ u) = header (jser J o)) by (rewrite <- E; apply take_app_alt; now rewrite header_length). rewrite take_app_le in Y by done. exact Y. }
  assert (Et : t = header (jser J o) ++ drop 8 t) by (rewrite <- X; symmetry; apply take_drop).
  assert (Er : jser J o = drop 8 t ++ u). { rewrite Et, <- app_assoc in E. now apply app_inv_head in E. }
  rewrite Et, <- app_assoc at 1. rewrite decode_header_spec by done. rewrite (drop_app_le t) by done. destruct (Nat.ltb_spec (length (drop 8 t ++ more)) (length (jser J o))) as [|G]; [done|]. rewrite Er, !app_length in G. lia.
Qed.
(** Writes do survive when the journal is compacted first, or when it was cut between entries.
    What is missing: every other torn tail ([C14_refuted]). *)
Theorem C14_compacted_partial {T O} (J : journalled T) (obs : T -> O) join bot (ops : list (op T)) cut (d0 d1 : T) p (cs : list (call T)) :
  faithful J -> content J obs join bot -> obs d1 = bot -> Forall (fits J) ops -> mount J d0 (Some (take cut (concat (map (entry J) ops)))) = inl p ->
  fits J (Snapshot (inner p)) -> calls_ok J obs join (compact J p) cs ->
  let q := fold_left (exec J) cs (compact J p) in exists s, mount J d1 (file q) = inl (P s (file q) (count q)) /\ obs s = obs (inner q).
Proof. intros Fa C H1 Fi Em F Hc q. apply (synced_mount J obs bot); [done|apply (run_synced J obs join); [done|now apply synced_compact|done]|done|left; now apply run_file]. Qed.
Lemma obs_fold {T O} (J : journalled T) (obs : T -> O) join bot ops d d' : content J obs join bot -> obs d = obs d' -> obs (fold_left (apply_op J) ops d) = obs (fold_left (apply_op J) ops d').
Proof. intros C. revert d d'. induction ops as [|o ops IH]; intros d d' E; [done|]. cbn. apply IH. destruct o; cbn; [done|]. now rewrite !(obs_merge _ _ _ _ C), E. Qed.
Theorem C14_clean_partial {T O} (J : journalled T) (obs : T -> O) join bot (ops : list (op T)) n (d0 d1 : T) p (cs : list (call T)) :
  faithful J -> content J obs join bot -> obs d0 = bot -> obs d1 = bot -> Forall (fits J) ops ->
  mount J d0 (Some (concat (map (entry J) (take n ops)))) = inl p -> calls_ok J obs join p cs ->
  let q := fold_left (exec J) cs p in exists s, mount J d1 (file q) = inl (P s (file q) (count q)) /\ obs s = obs (inner q).
Proof.
  intros Fa C H0 H1 Fi Em Hc q. assert (F' : Forall (fits J) (take n ops)) by now apply Forall_take. cbn [mount] in Em. rewrite C13_whole in Em by done. injection Em as <-. apply (synced_mount J obs bot); [done|apply (run_synced J obs join); [done| |done]|done|left; now apply run_file]. exists (take n ops). split; [done|]. split; [done|]. split; [done|]. intros d Hd'. cbn. apply (obs_fold J obs join bot); [done|congruence].
Qed.

(** ** C15 *)
(** A compacted journal has one entry and gives the value back exactly. *)
Theorem C15_compact {T} (J : journalled T) (p : persistent T) (d1 : T) : faithful J -> fits J (Snapshot (inner p)) ->
  mount J d1 (file (compact J p)) = inl (P (inner p) (file (compact J p)) 1).
Proof. intros Fa F. cbn [compact file mount]. rewrite <- (app_nil_r (entry J _)). change (replay J d1 ?x) with (R J x d1 0). rewrite R_entry by done. done. Qed.
(** A crash in the middle of it leaves a journal with the same content. *)
Theorem C15_crash {T O} (J : journalled T) (obs : T -> O) join bot (d0 d1 : T) (cs : list (call T)) f' :
  faithful J -> content J obs join bot -> obs d0 = bot -> obs d1 = bot -> calls_ok J obs join (P d0 None 0) cs ->
  let p := fold_left (exec J) cs (P d0 None 0) in fits J (Snapshot (inner p)) -> crash_write (file p) (entry J (Snapshot (inner p))) f' ->
  exists s n, mount J d1 f' = inl (P s f' n) /\ obs s = obs (inner p).
Proof.
  intros Fa C H0 H1 Hc p F [->| ->].
  - destruct (C13_restart J obs join bot d0 d1 cs Fa C H0 H1 Hc) as (s & E & Eo). eexists _, _. split; [exact E|exact Eo].
  - exists (inner p), 1%N. split; [exact (C15_compact J p d1 Fa F)|done].
Qed.
(** [maybe_compact] tells whether it did, and keeps the journal within the threshold. *)
Theorem C15_maybe {T} (J : journalled T) (n : N) (p : persistent T) :
  (snd (maybe_compact J n p) = true <-> (n < count p)%N) /\ (count (fst (maybe_compact J n p)) <= N.max n 1)%N /\ inner (fst (maybe_compact J n p)) = inner p.
Proof. unfold maybe_compact. destruct (N.ltb_spec n (count p)); cbn; (split; [split; intros; [lia|done] || (split; [done|lia])|split; [lia|done]]). Qed.
Theorem C15_distributed_bounded {T} (J : journalled T) (gs : list (T -> T)) (d0 : T) : (count (fold_left (fun p g => dist_mutate J g p) gs (P d0 None 0)) < 1000)%N.
Proof.
  assert (K : forall p : persistent T, (count p < 1000)%N -> (count (fold_left (fun p g => dist_mutate J g p) gs p) < 1000)%N); [|now apply K]. induction gs as [|g gs IH]; intros p H; [done|]. cbn [fold_left]. apply IH. unfold dist_mutate, COMPACT_THRESHOLD. destruct (N.leb_spec 1000 (count (mutate J g p))); [cbn; lia|done].
Qed.

(** *** Several tasks *)
Definition init {T} (d0 : T) : shared T := Sh d0 None None 0 (fun _ => None).
(** The changes whose append has returned. *)
Fixpoint acked {T} (J : journalled T) (sh : shared T) (es : list (step T)) : list T :=
  match es with
  | [] => []
  | e :: es => (match e with SAppend t => match local sh t with Some d => [d] | None => [] end | _ => [] end) ++ acked J (do_step J sh e) es
  end.
(** Compaction copies the value, then replaces the file. An append that gets in between is gone. *)
Theorem C15_concurrent_refuted : exists (es : list (step N)) p d, let sh := fold_left (do_step max_reg) es (init 0%N) in
  d ∈ acked max_reg (init 0%N) es /\ mount max_reg 0%N (disk sh) = inl p /\ (inner p < d)%N.
Proof.
  exists [SApply 1 (fun _ => 5%N); SAppend 1; SClone 2; SApply 1 (fun _ => 8%N); SAppend 1; SWriteTmp 2; SRename 2]. eexists _, 8%N. cbn zeta. split; [|split].
  - cbn. right. left.
  - vm_compute. reflexivity.
  - done.
Qed.
(** Without that overlap nothing is lost. [pend] are the tasks in the middle of a compaction. *)
Fixpoint no_overlap {T O} (J : journalled T) (obs : T -> O) (join : O -> O -> O) (sh : shared T) (pend : list nat) (es : list (step T)) : Prop :=
  match es with
  | [] => True
  | e :: es =>
      let sh' := do_step J sh e in
      match e with
      | SApply t g => t ∉ pend /\ grows obs join (ram sh) (g (ram sh)) /\ fits J (Delta (g (ram sh))) /\ fits J (Snapshot (g (ram sh))) /\ no_overlap J obs join sh' pend es
      | SMerge t d => t ∉ pend /\ fits J (Delta d) /\ fits J (Snapshot d) /\ no_overlap J obs join sh' pend es
      | SAppend t => pend = [] /\ no_overlap J obs join sh' pend es
      | SClone t => t ∉ pend /\ fits J (Delta (ram sh)) /\ fits J (Snapshot (ram sh)) /\ no_overlap J obs join sh' (t :: pend) es
      | SWriteTmp t => t ∈ pend /\ no_overlap J obs join sh' pend es
      | SRename t => t ∈ pend /\ no_overlap J obs join sh' (List.filter (fun u => negb (u =? t)) pend) es
      end
  end.
Section Concurrent.
Context {T O : Type} (J : journalled T) (obs : T -> O) (join : O -> O -> O) (bot : O) (Fa : faithful J) (C : content J obs join bot).
Definition below (d s : T) : Prop := join (obs d) (obs s) = obs s.
Lemma below_trans a b c : below a b -> below b c -> below a c.
Proof. unfold below. intros H1 H2. now rewrite <- H2, (join_assoc _ _ _ _ C), H1. Qed.
Lemma below_refl a : below a a. Proof. apply (join_idem _ _ _ _ C). Qed.
Lemma below_merge_l a b : below a (jmerge J a b). Proof. unfold below. now rewrite (obs_merge _ _ _ _ C), (join_assoc _ _ _ _ C), (join_idem _ _ _ _ C). Qed.
Lemma below_merge_r a b : below b (jmerge J a b). Proof. unfold below. now rewrite (obs_merge _ _ _ _ C), (join_comm _ _ _ _ C (obs a)), (join_assoc _ _ _ _ C), (join_idem _ _ _ _ C). Qed.
Record inv (sh : shared T) (pend : list nat) (ack : list T) : Prop := Inv {
  i_disk : exists ops, Forall (fits J) ops /\ default [] (disk sh) = concat (map (entry J) ops) /\ forall d0 d, obs d0 = bot -> d ∈ ack -> below d (fold_left (apply_op J) ops d0);
  i_ram : forall d, d ∈ ack -> below d (ram sh);
  i_local : forall t s, local sh t = Some s -> below s (ram sh) /\ fits J (Delta s) /\ fits J (Snapshot s);
  i_pend : forall t s d, t ∈ pend -> local sh t = Some s -> d ∈ ack -> below d s;
  i_tmp : forall bs, tmp sh = Some bs -> pend <> [] /\ exists s, bs = entry J (Snapshot s) /\ fits J (Snapshot s) /\ forall d, d ∈ ack -> below d s }.
Lemma set_local_eq (l : nat -> option T) t x u : set_local l t x u = if decide (u = t) then x else l u.
Proof. unfold set_local. destruct (Nat.eqb_spec u t), (decide (u = t)); done. Qed.
Lemma run_inv es sh pend ack : inv sh pend ack -> no_overlap J obs join sh pend es -> exists pend', inv (fold_left (do_step J) es sh) pend' (ack ++ acked J sh es).
Proof.
  revert sh pend ack. induction es as [|e es IH]; intros sh pend ack I H; [exists pend; cbn; now rewrite app_nil_r|]. cbn [fold_left acked]. destruct I as [Id Ir Il Ip It]. destruct e as [t g|t d|t|t|t|t]; cbn [no_overlap] in H.
  - destruct H as (Hp & G & F1 & F2 & H). apply (IH _ pend ack); [|exact H]. split; cbn.
    + exact Id.
    + intros d Hd. apply (below_trans d (ram sh)); [now apply Ir|exact G].
    + intros u s. rewrite set_local_eq. case_decide as E; [intros [= <-]; split; [apply below_refl|done]|]. intros Hs. destruct (Il u s Hs) as (A & B). split; [|exact B]. apply (below_trans s (ram sh)); [exact A|exact G].
    + intros u s d Hu. rewrite set_local_eq. case_decide as E; [subst; done|]. intros Hs Hd. now apply (Ip u).
    + exact It.
  - destruct H as (Hp & F1 & F2 & H). apply (IH _ pend ack); [|exact H]. split; cbn.
    + exact Id.
    + intros x Hx. apply (below_trans x (ram sh)); [now apply Ir|apply below_merge_l].
    + intros u s. rewrite set_local_eq. case_decide as E; [intros [= <-]; split; [apply below_merge_r|done]|]. intros Hs. destruct (Il u s Hs) as (A & B). split; [|exact B]. apply (below_trans s (ram sh)); [exact A|apply below_merge_l].
    + intros u s x Hu. rewrite set_local_eq. case_decide as E; [subst; done|]. intros Hs Hx. now apply (Ip u).
    + exact It.
  - destruct H as (-> & H). cbn [do_step] in H |- *. destruct (local sh t) as [s|] eqn:El; [|apply (IH _ [] ack); [now split|exact H]]. destruct (Il t s El) as (A & F1 & F2). rewrite (app_assoc ack [s]). apply (IH _ [] (ack ++ [s])); [|exact H]. split; cbn.
    + destruct Id as (ops & Fi & Ed & Hb). exists (ops ++ [Delta s]). split; [apply Forall_app; split; [done|now constructor]|]. split; [rewrite Ed, map_app, concat_app; cbn; now rewrite app_nil_r|]. intros d0 d H0 Hd. rewrite fold_left_app. cbn. apply elem_of_app in Hd. destruct Hd as [Hd|Hd]; [|apply elem_of_list_singleton in Hd; subst d; apply below_merge_r]. apply (below_trans d (fold_left (apply_op J) ops d0)); [now apply Hb|apply below_merge_l].
    + intros d Hd. apply elem_of_app in Hd. destruct Hd as [Hd|Hd]; [now apply Ir|apply elem_of_list_singleton in Hd; now subst d].
    + intros u s'. rewrite set_local_eq. case_decide; [done|]. apply Il.
    + intros u s' d Hu. now apply elem_of_nil in Hu.
    + intros bs Hbs. destruct (It bs Hbs) as [N _]. done.
  - destruct H as (Hp & F1 & F2 & H). apply (IH _ (t :: pend) ack); [|exact H]. split; cbn.
    + exact Id.
    + exact Ir.
    + intros u s. rewrite set_local_eq. case_decide as E; [intros [= <-]; split; [apply below_refl|done]|]. apply Il.
    + intros u s d Hu. rewrite set_local_eq. case_decide as E; [intros [= <-]; apply Ir|]. intros Hs Hd. apply elem_of_cons in Hu. destruct Hu as [Hu|Hu]; [done|]. now apply (Ip u).
    + intros bs Hbs. split; [done|]. apply (It bs Hbs).
  - destruct H as (Hp & H). cbn [do_step] in H |- *. destruct (local sh t) as [s|] eqn:El; [|apply (IH _ pend ack); [now split|exact H]]. destruct (Il t s El) as (A & F1 & F2). apply (IH _ pend ack); [|exact H]. split; cbn; [exact Id|exact Ir|exact Il|exact Ip|]. intros bs [= <-]. split; [intros ->; now apply elem_of_nil in Hp|]. exists s. split; [done|]. split; [done|]. intros d Hd. now apply (Ip t).
  - destruct H as (Hp & H). assert (Sub : forall u, u ∈ List.filter (fun u => negb (u =? t)) pend -> u ∈ pend /\ u <> t). { intros u Hu. apply elem_of_list_In, filter_In in Hu. destruct Hu as [Hu1 Hu2]. split; [now apply elem_of_list_In|]. intros ->. rewrite Nat.eqb_refl in Hu2. done. }
    cbn [do_step] in H |- *. destruct (tmp sh) as [bs|] eqn:Et.
    + destruct (It bs eq_refl) as (_ & s & -> & F & Hb). apply (IH _ (List.filter (fun u => negb (u =? t)) pend) ack); [|exact H]. split; cbn.
      * exists [Snapshot s]. split; [now constructor|]. split; [cbn; now rewrite app_nil_r|]. intros d0 d _ Hd. cbn. now apply Hb.
      * exact Ir.
      * intros u s'. rewrite set_local_eq. case_decide; [done|]. apply Il.
      * intros u s' d Hu. rewrite set_local_eq. case_decide; [done|]. apply Ip. now apply Sub.
      * done.
    + apply (IH _ (List.filter (fun u => negb (u =? t)) pend) ack); [|exact H]. split; [exact Id|exact Ir|exact Il| |rewrite Et; done]. intros u s' d Hu. apply Ip. now apply Sub.
Qed.
End Concurrent.
(** What is missing: runs in which an append falls between the copy and the rename
    ([C15_concurrent_refuted]). *)
Theorem C15_concurrent_partial {T O} (J : journalled T) (obs : T -> O) join bot (d0 d1 : T) (es : list (step T)) :
  faithful J -> content J obs join bot -> obs d0 = bot -> obs d1 = bot -> no_overlap J obs join (init d0) [] es ->
  exists p, mount J d1 (disk (fold_left (do_step J) es (init d0))) = inl p /\ forall d, d ∈ acked J (init d0) es -> join (obs d) (obs (inner p)) = obs (inner p).
Proof.
  intros Fa C H0 H1 H. destruct (run_inv J obs join bot C es (init d0) [] []) as (pend & I); [|exact H|].
  - split; cbn; [|intros d Hd; now apply elem_of_nil in Hd|done|done|done]. exists []. split; [constructor|]. split; [done|]. intros x d _ Hd. now apply elem_of_nil in Hd.
  - destruct I as [(ops & Fi & Ed & Hb) _ _ _ _]. cbn [app] in Hb. destruct (disk (fold_left (do_step J) es (init d0))) as [data|].
    + cbn in Ed. subst data. cbn [mount]. rewrite C13_whole by done. eexists. split; [done|]. intros d Hd. now apply Hb.
    + cbn in Ed. assert (ops = []) as ->. { destruct ops as [|o ops]; [done|]. cbn in Ed. apply (f_equal length) in Ed. rewrite app_length in Ed. cbn in Ed. pose proof (entry_length J o). lia. } eexists. split; [done|]. intros d Hd. cbn. now apply (Hb d1 d H1).
Qed.

(** ** Examples *)
Lemma max_reg_fits o : fits max_reg o. Proof. unfold fits. destruct o; cbn [jser max_reg]; rewrite app_length, le_length; done. Qed.
Lemma max_reg_content : content max_reg (fun x => x) N.max 0%N. Proof. split; [done|intros; apply N.max_0_l|intros; apply N.max_id|intros; apply N.max_assoc|intros; apply N.max_comm]. Qed.
(* The checksum of "123456789" is the standard check value. *)
Example ex_crc32 : crc32 [x31; x32; x33; x34; x35; x36; x37; x38; x39] = 3421780262%N. Proof. vm_compute. reflexivity. Qed.
Example ex_entry : entry max_reg (Delta 300%N) = [x0c; x00; x00; x00] ++ le 4 (crc32 ([x01; x00; x00; x00; x2c; x01] ++ repeat x00 6)) ++ [x01; x00; x00; x00; x2c; x01] ++ repeat x00 6. Proof. vm_compute. reflexivity. Qed.
Example ex_C13_prefix : let ops := [Delta 4%N; Delta 9%N; Snapshot 2%N; Delta 5%N] in
  replay max_reg 0%N (take 45 (concat (map (entry max_reg) ops))) = Ok 9%N 2 /\ replay max_reg 0%N (concat (map (entry max_reg) ops)) = Ok 5%N 4. Proof. vm_compute. done. Qed.
Example ex_C13_damage : let f := concat (map (entry max_reg) [Delta 4%N; Delta 9%N]) in replay max_reg 0%N (take 33 f ++ [x07] ++ drop 34 f) = Corrupted 1. Proof. vm_compute. reflexivity. Qed.
Example ex_calls : let cs := [Mutate (N.add 5); DistMutate (N.add 2); Receive 30%N; Compact; Mutate (N.add 1); MaybeCompact 1; Mutate (N.add 3)] in
  calls_ok max_reg (fun x => x) N.max (P 0%N None 0) cs /\ let p := fold_left (exec max_reg) cs (P 0%N None 0) in inner p = 34%N /\ count p = 2%N /\ mount max_reg 0%N (file p) = inl p.
Proof. cbn zeta. split; [cbn [calls_ok]; repeat split; try apply max_reg_fits; vm_compute; done|vm_compute; done]. Qed.
Example ex_C14_behind : let e := entry max_reg (Delta 6%N) in replay max_reg 0%N (entry max_reg (Delta 4%N) ++ take 9 e ++ [x0c; x00; x00; x00; x01; x02; x03; x04]) = Ok 4%N 1. Proof. vm_compute. reflexivity. Qed.
Example ex_C14_compacted : exists p, mount max_reg 0%N (Some (take 31 (concat (map (entry max_reg) [Delta 4%N; Delta 9%N])))) = inl p /\ inner p = 4%N /\
  let q := mutate max_reg (N.add 3) (compact max_reg p) in mount max_reg 0%N (file q) = inl q /\ inner q = 7%N. Proof. eexists. split; [vm_compute; reflexivity|]. vm_compute. done. Qed.
Example ex_C15_concurrent : let es := [SApply 1 (fun _ => 5%N); SAppend 1; SClone 2; SApply 1 (fun _ => 8%N); SWriteTmp 2; SRename 2; SAppend 1; SMerge 3 4%N; SAppend 3] in
  no_overlap max_reg (fun x => x) N.max (init 0%N) [] es /\ acked max_reg (init 0%N) es = [5; 8; 4]%N /\ exists p, mount max_reg 0%N (disk (fold_left (do_step max_reg) es (init 0%N))) = inl p /\ inner p = 8%N.
Proof.
  cbn zeta. split; [|split; [reflexivity|eexists; split; [vm_compute; reflexivity|done]]].
  cbn [no_overlap]. repeat split; try apply max_reg_fits; try (apply not_elem_of_nil); try (apply elem_of_list_singleton; done); try (vm_compute; done); try (intros Hx; apply elem_of_list_singleton in Hx; discriminate).
Qed.
