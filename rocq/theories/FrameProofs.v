(** Lemmas for [FrameProps]: the checksum, profiles and the stream deframer. *)
From Coq Require Import ZArith List Lia.
From stdpp Require Import list.
From Verif Require Import MachInt Utf8 WireModel WireProofs FrameModel.
Open Scope Z_scope.

(** ** The checksum *)
Definition FNV_INV : Z := 14886173955864302971.
Lemma mul_inj a a' : is_u64 a -> is_u64 a' -> wrap64 (a * FNV_PRIME) = wrap64 (a' * FNV_PRIME) -> a = a'.
Proof.
  intros Ha Ha' H. unfold wrap64 in H.
  assert (I : forall x, is_u64 x -> (((x * FNV_PRIME) mod two64) * FNV_INV) mod two64 = x).
  { intros x Hx. rewrite Z.mul_mod_idemp_l by (unfold two64; lia). rewrite <- Z.mul_assoc.
    rewrite <- Z.mul_mod_idemp_r by (unfold two64; lia). replace ((FNV_PRIME * FNV_INV) mod two64) with 1 by reflexivity.
    rewrite Z.mul_1_r. now apply Z.mod_small. }
  rewrite <- (I a Ha), <- (I a' Ha'). now rewrite H.
Qed.
Lemma lxor_u64 h b : is_u64 h -> is_byte b -> is_u64 (Z.lxor h b).
Proof.
  intros Hh Hb. unfold is_u64, is_byte, two64 in *. split; [apply Z.lxor_nonneg; lia|].
  destruct (Z.eq_dec (Z.lxor h b) 0) as [->|N]; [lia|]. assert (0 <= Z.lxor h b) by (apply Z.lxor_nonneg; lia).
  apply Z.log2_lt_pow2; [lia|]. eapply Z.le_lt_trans; [apply Z.log2_lxor; lia|].
  apply Z.max_lub_lt; [destruct (Z.eq_dec h 0) as [->|]|destruct (Z.eq_dec b 0) as [->|]]; try (apply Z.log2_lt_pow2; lia); cbn; lia.
Qed.
Lemma lxor_inj_l a b c : Z.lxor a c = Z.lxor b c -> a = b.
Proof. intros H. rewrite <- (Z.lxor_0_r a), <- (Z.lxor_0_r b), <- (Z.lxor_nilpotent c), <- !Z.lxor_assoc. now rewrite H. Qed.
Lemma lxor_inj_r a b c : Z.lxor c a = Z.lxor c b -> a = b.
Proof. rewrite !(Z.lxor_comm c). apply lxor_inj_l. Qed.
Lemma step_u64 h b : is_u64 (fnv_step h b).
Proof. apply wrap64_range. Qed.
Lemma step_inj_state h h' b : is_u64 h -> is_u64 h' -> is_byte b -> fnv_step h b = fnv_step h' b -> h = h'.
Proof. intros Hh Hh' Hb H. apply mul_inj in H; [|now apply lxor_u64..]. now apply lxor_inj_l in H. Qed.
Lemma step_inj_byte h b b' : is_u64 h -> is_byte b -> is_byte b' -> fnv_step h b = fnv_step h b' -> b = b'.
Proof. intros Hh Hb Hb' H. apply mul_inj in H; [|now apply lxor_u64..]. now apply lxor_inj_r in H. Qed.
Lemma fold_u64 bs h : is_u64 h -> is_u64 (fold_left fnv_step bs h).
Proof. revert h. induction bs as [|b bs IH]; intros h H; cbn [fold_left]; [done|]. apply IH, step_u64. Qed.
Lemma fold_inj bs h h' : Forall is_byte bs -> is_u64 h -> is_u64 h' -> fold_left fnv_step bs h = fold_left fnv_step bs h' -> h = h'.
Proof.
  revert h h'. induction bs as [|b bs IH]; intros h h' F Hh Hh' H; cbn [fold_left] in H; [done|]. inversion F as [|? ? Hb F']; subst.
  apply IH in H; [|done|apply step_u64..]. now apply step_inj_state in H.
Qed.
Lemma base_u64 : is_u64 FNV_BASE.
Proof. unfold is_u64, FNV_BASE, two64. lia. Qed.
Lemma fnv_u64 bs : is_u64 (fnv1a_64 bs).
Proof. apply fold_u64, base_u64. Qed.

(** Numbers that agree after an exclusive or with a byte are less than 256 apart. *)
Lemma lxor_byte_close y y' b b' : 0 <= y -> 0 <= y' -> is_byte b -> is_byte b' -> Z.lxor y b = Z.lxor y' b' -> Z.abs (y - y') < 256.
Proof.
  intros Hy Hy' Hb Hb' H. unfold is_byte in *.
  assert (D : y / 256 = y' / 256).
  { change 256 with (2 ^ 8). rewrite <- !Z.shiftr_div_pow2 by lia.
    apply (f_equal (fun x => Z.shiftr x 8)) in H. rewrite !Z.shiftr_lxor in H.
    rewrite (Z.shiftr_div_pow2 b 8), (Z.shiftr_div_pow2 b' 8) in H by lia. change (2 ^ 8) with 256 in H. rewrite (Z.div_small b), (Z.div_small b') in H by lia. now rewrite !Z.lxor_0_r in H. }
  pose proof (Z.div_mod y 256 ltac:(lia)). pose proof (Z.div_mod y' 256 ltac:(lia)).
  pose proof (Z.mod_pos_bound y 256 ltac:(lia)). pose proof (Z.mod_pos_bound y' 256 ltac:(lia)). lia.
Qed.
Lemma two_steps h a b a' b' : is_u64 h -> is_byte a -> is_byte b -> is_byte a' -> is_byte b' ->
  fnv_step (fnv_step h a) b = fnv_step (fnv_step h a') b' -> a = a' /\ b = b'.
Proof.
  intros Hh Ha Hb Ha' Hb' H. destruct (Z.eq_dec a a') as [<-|N].
  - split; [done|]. eapply step_inj_byte in H; eauto using step_u64.
  - exfalso. apply mul_inj in H; [|apply lxor_u64; auto using step_u64..].
    apply lxor_byte_close in H; [|apply step_u64|apply step_u64|done|done]. unfold fnv_step, wrap64 in H.
    set (x := Z.lxor h a) in *. set (x' := Z.lxor h a') in *.
    assert (X : Z.abs (x - x') < 256).
    { apply (lxor_byte_close _ _ a a'); [apply lxor_u64; done|apply lxor_u64; done|done|done|].
      unfold x, x'. now rewrite !Z.lxor_assoc, !Z.lxor_nilpotent. }
    assert (NX : x <> x') by (intros E; apply N; now apply lxor_inj_r in E).
    pose proof (Z.div_mod (x * FNV_PRIME) two64 ltac:(unfold two64; lia)).
    pose proof (Z.div_mod (x' * FNV_PRIME) two64 ltac:(unfold two64; lia)).
    set (q := x * FNV_PRIME / two64) in *. set (q' := x' * FNV_PRIME / two64) in *.
    set (r := (x * FNV_PRIME) mod two64) in *. set (r' := (x' * FNV_PRIME) mod two64) in *. clearbody q q' r r' x x'.
    unfold FNV_PRIME, two64 in *. assert (q = q' \/ q < q' \/ q' < q) by lia. lia.
Qed.

(** ** Lists that differ in a window *)
Lemma agree_take (l l' : list Z) i : (forall j, (j < i)%nat -> l' !! j = l !! j) -> take i l' = take i l.
Proof. intros H. apply list_eq. intros j. destruct (decide (j < i)%nat). { rewrite !lookup_take by done. auto. } rewrite !lookup_take_ge by lia. done. Qed.
Lemma agree_drop (l l' : list Z) i : (forall j, (i <= j)%nat -> l' !! j = l !! j) -> drop i l' = drop i l.
Proof. intros H. apply list_eq. intros j. rewrite !lookup_drop. apply H. lia. Qed.

Lemma window_split (l : list Z) k : l = take k l ++ take 2 (drop k l) ++ drop (k + 2) l.
Proof. rewrite <- drop_drop. now rewrite !take_drop. Qed.
Lemma forall_take (P : Z -> Prop) k l : Forall P l -> Forall P (take k l).
Proof. apply Forall_take. Qed.
Lemma window_hash (l l' : list Z) k : Forall is_byte l -> Forall is_byte l' -> length l' = length l ->
  (forall j, (j < k \/ k + 2 <= j)%nat -> l' !! j = l !! j) -> fnv1a_64 l' = fnv1a_64 l -> l' = l.
Proof.
  intros Hl Hl' Len A H. assert (T : take k l' = take k l) by (apply agree_take; auto).
  assert (D : drop (k + 2) l' = drop (k + 2) l) by (apply agree_drop; auto).
  rewrite (window_split l k), (window_split l' k) in H |- *. rewrite T, D in *. f_equal. f_equal.
  unfold fnv1a_64 in H. rewrite !fold_left_app in H.
  pose proof (fold_u64 (take k l) FNV_BASE base_u64) as Hu. set (h := fold_left fnv_step (take k l) FNV_BASE) in *. clearbody h.
  apply fold_inj in H; [|now apply Forall_drop|apply fold_u64; done|apply fold_u64; done].
  assert (L2 : length (take 2 (drop k l')) = length (take 2 (drop k l))) by (rewrite !take_length, !drop_length; lia).
  assert (M : Forall is_byte (take 2 (drop k l))) by (apply Forall_take, Forall_drop; done).
  assert (M' : Forall is_byte (take 2 (drop k l'))) by (apply Forall_take, Forall_drop; done).
  assert (L3 : (length (take 2 (drop k l)) <= 2)%nat) by (rewrite take_length; lia).
  destruct (take 2 (drop k l)) as [|a [|b [|]]]; cbn [length] in L3; [| | |lia];
    destruct (take 2 (drop k l')) as [|a' [|b' [|]]]; cbn [length] in L2; try lia.
  - done.
  - cbn [fold_left] in H. apply step_inj_byte in H; [now rewrite H|done| |].
    { now inversion M'. } { now inversion M. }
  - cbn [fold_left] in H. inversion M as [|? ? ? M1]; subst. inversion M1; subst. inversion M' as [|? ? ? M1']; subst. inversion M1'; subst.
    apply two_steps in H as [-> ->]; done.
Qed.

(** ** Frames *)
Lemma unframe_checked c z sum body : length sum = 8%nat -> unframe (header c Checked z :: sum ++ body) =
  if fnv1a_64 body =? from_le sum then Some (c, z, body) else None.
Proof.
  intros L. unfold unframe, unframe_with.
  assert (E : (length (sum ++ body) <? 8)%nat = false) by (rewrite app_length; apply Nat.ltb_ge; lia).
  rewrite E. rewrite (take_app_alt sum body 8) by done. rewrite (drop_app_alt sum body 8) by done.
  cbn [andb]. destruct (fnv1a_64 body =? from_le sum); destruct c, z; reflexivity.
Qed.
Lemma unframe_raw c z v body : unframe_with (header c Raw z :: body) v = Some (c, z, body).
Proof. destruct c, z; done. Qed.
Lemma from_le_inj l l' : Forall is_byte l -> Forall is_byte l' -> length l = length l' -> from_le l = from_le l' -> l = l'.
Proof.
  revert l'. induction l as [|b l IH]; intros [|b' l'] F F' L H; cbn in L; try lia; [done|].
  inversion F; subst. inversion F'; subst. unfold is_byte in *. cbn [from_le] in H. assert (b = b') by lia. subst. f_equal. apply IH; auto; lia.
Qed.
Lemma le_bytes_byte n x : Forall is_byte (le_bytes n x).
Proof. revert x. induction n as [|n IH]; intros x; cbn [le_bytes]; constructor; [|auto]. unfold is_byte. apply Z.mod_pos_bound. lia. Qed.
Lemma sum_fnv body : from_le (le_bytes 8 (fnv1a_64 body)) = fnv1a_64 body.
Proof. apply from_le_bytes. exact (fnv_u64 body). Qed.

(** ** Profiles *)
Lemma decode_app bs more p rest : decode_profile_rest bs = Some (p, rest) -> decode_profile_rest (bs ++ more) = Some (p, rest ++ more).
Proof.
  unfold decode_profile_rest. destruct bs as [|v bs]; [discriminate|]. cbn [app]. destruct (negb _); [discriminate|].
  destruct (read_uvarint bs) as [[mb b1]|] eqn:E1; [|discriminate]. rewrite (uvarint_app _ more _ _ E1).
  destruct (read_uvarint b1) as [[md b2]|] eqn:E2; [|discriminate]. rewrite (uvarint_app _ more _ _ E2).
  destruct (read_uvarint b2) as [[me b3]|] eqn:E3; [|discriminate]. rewrite (uvarint_app _ more _ _ E3).
  destruct (read_uvarint b3) as [[ms b4]|] eqn:E4; [|discriminate]. rewrite (uvarint_app _ more _ _ E4).
  destruct b4 as [|a b4]; [discriminate|]. cbn [app].
  destruct (read_uvarint b4) as [[ep b5]|] eqn:E5; [|discriminate]. rewrite (uvarint_app _ more _ _ E5).
  destruct (read_uvarint b5) as [[fe b6]|] eqn:E6; [|discriminate]. rewrite (uvarint_app _ more _ _ E6).
  intros [= <- <-]. done.
Qed.
Definition profile_ok (p : profile) : Prop :=
  is_u64 (max_bytes (lims p)) /\ is_u64 (max_depth (lims p)) /\ is_u64 (max_elements (lims p)) /\ is_u64 (max_string_bytes (lims p)) /\
  is_u64 (registry_epoch p) /\ 0 <= features p < 2 ^ 32.
Lemma decode_encode p more : profile_ok p -> decode_profile_rest (encode_peer_profile p ++ more) = Some (p, more).
Proof.
  destruct p as [[mb md me ms a] ep fe]. unfold profile_ok. cbn [lims max_bytes max_depth max_elements max_string_bytes registry_epoch features].
  intros (H1 & H2 & H3 & H4 & H5 & H6). unfold encode_peer_profile, decode_profile_rest. cbn [lims max_bytes max_depth max_elements max_string_bytes registry_epoch features accept_computed].
  cbn [app]. change (negb (PEER_PROFILE_VERSION =? PEER_PROFILE_VERSION)) with false. cbv iota. rewrite <- !app_assoc. rewrite !read_write_uvarint by done.
  cbn [app]. rewrite <- !app_assoc. rewrite read_write_uvarint by done. rewrite read_write_uvarint by (unfold is_u64, two64; lia). rewrite Z.mod_small by done. now destruct a.
Qed.
Lemma decode_range bs p rest : decode_profile_rest bs = Some (p, rest) -> profile_ok p.
Proof.
  unfold decode_profile_rest. destruct bs as [|v bs]; [discriminate|]. destruct (negb _); [discriminate|].
  destruct (read_uvarint bs) as [[mb b1]|] eqn:E1; [|discriminate].
  destruct (read_uvarint b1) as [[md b2]|] eqn:E2; [|discriminate].
  destruct (read_uvarint b2) as [[me b3]|] eqn:E3; [|discriminate].
  destruct (read_uvarint b3) as [[ms b4]|] eqn:E4; [|discriminate].
  destruct b4 as [|a b4]; [discriminate|].
  destruct (read_uvarint b4) as [[ep b5]|] eqn:E5; [|discriminate].
  destruct (read_uvarint b5) as [[fe b6]|] eqn:E6; [|discriminate].
  intros [= <- <-]. unfold profile_ok. cbn [lims max_bytes max_depth max_elements max_string_bytes registry_epoch features].
  repeat (split; [eapply uvarint_range; eassumption|]). apply Z.mod_pos_bound. lia.
Qed.
Lemma prefix_none p pre more : profile_ok p -> encode_peer_profile p = pre ++ more -> more <> [] -> decode_profile_rest pre = None.
Proof.
  intros Hp E N. destruct (decode_profile_rest pre) as [[q rest]|] eqn:D; [|done]. exfalso.
  apply (decode_app _ more) in D. rewrite <- E in D. rewrite <- (app_nil_r (encode_peer_profile p)), decode_encode in D by done. injection D as _ H.
  symmetry in H. apply app_eq_nil in H as [_ ->]. done.
Qed.

(** ** The stream *)
Lemma stream_uvarint_eq v s bs : s < 64 -> stream_uvarint v s bs = read_uvarint_loop v s bs.
Proof.
  revert v s. induction bs as [|b bs IH]; intros v s Hs; cbn [stream_uvarint read_uvarint_loop]; [done|].
  rewrite (proj2 (Z.leb_gt 64 s)) by lia. cbv zeta. destruct (_ =? 0); [done|]. destruct (Z.leb_spec 64 (s + 7)); [|now apply IH].
  destruct bs; cbn [read_uvarint_loop]; [done|]. now rewrite (proj2 (Z.leb_le _ _)) by lia.
Qed.
Lemma stream_len_eq n x : 0 <= x < 2 ^ (7 * Z.of_nat n) -> stream_len n x = uvarint_steps n x.
Proof.
  revert x. induction n as [|n IH]; intros x H; [done|]. cbn [stream_len uvarint_steps]. cbv zeta.
  assert (L : Z.land x 127 = x mod 128) by (change 127 with (Z.ones 7); now rewrite Z.land_ones by lia).
  rewrite Z.shiftr_div_pow2 by lia. change (2 ^ 7) with 128. destruct (Z.leb_spec 128 x).
  - rewrite (proj2 (Z.eqb_neq _ _)) by (pose proof (Z.div_le_mono 128 x 128 ltac:(lia) ltac:(lia)); change (128 / 128) with 1 in *; lia).
    f_equal.
    + rewrite L. change 128 with (2 ^ 7) at 2 3. apply Z.bits_inj'. intros i Hi. rewrite !Z.lor_spec. destruct (Z.eq_dec i 7) as [->|].
      * rewrite !Z.pow2_bits_true by lia. now rewrite !orb_true_r.
      * rewrite !Z.pow2_bits_false by lia. rewrite !orb_false_r. change 128 with (2 ^ 7). change 256 with (2 ^ 8).
        destruct (Z.lt_ge_cases i 7). { rewrite !Z.mod_pow2_bits_low by lia. done. } rewrite !Z.mod_pow2_bits_high by lia. done.
    + apply IH. rewrite Nat2Z.inj_succ in H. replace (7 * Z.succ (Z.of_nat n)) with (7 + 7 * Z.of_nat n) in H by lia. rewrite Z.pow_add_r in H by lia.
      change (2 ^ 7) with 128 in H. split; [apply Z.div_pos; lia|apply Z.div_lt_upper_bound; lia].
  - rewrite Z.div_small by lia. cbn [Z.eqb]. rewrite L. now rewrite !Z.mod_small by lia.
Qed.
Lemma stream_read bs : stream_uvarint 0 0 bs = read_uvarint bs.
Proof. now apply stream_uvarint_eq. Qed.
Lemma frame_stream_eq body : Z.of_nat (length body) < two64 -> frame_for_stream body = write_uvarint (Z.of_nat (length body)) ++ body.
Proof. intros H. unfold frame_for_stream, write_uvarint. rewrite stream_len_eq; [done|]. unfold two64 in H. change (7 * Z.of_nat 10) with 70. lia. Qed.

(** [drain] does not depend on its fuel, as long as there is enough. *)
Lemma uvarint_len bs x rest : read_uvarint bs = Some (x, rest) -> (length rest < length bs)%nat.
Proof. intros H. apply uvarint_consumes in H as (e & -> & H & _). rewrite app_length. lia. Qed.
Lemma drain_fuel n m buf : (length buf <= n)%nat -> (length buf <= m)%nat -> drain n buf = drain m buf.
Proof.
  revert m buf. induction n as [|n IH]; intros m buf Hn Hm.
  - destruct buf; [|cbn in Hn; lia]. destruct m; done.
  - destruct m as [|m]; [destruct buf; [done|cbn in Hm; lia]|]. cbn [drain]. rewrite stream_read. destruct (read_uvarint buf) as [[len rest]|] eqn:E; [|done].
    destruct (_ <? len); [done|]. apply uvarint_len in E. rewrite (IH m); [done|rewrite drop_length; lia..].
Qed.
Lemma drain_step buf : drain_frames buf =
  match read_uvarint buf with
  | None => ([], buf)
  | Some (len, rest) =>
      if Z.of_nat (length rest) <? len then ([], buf)
      else let '(fs, kept) := drain_frames (drop (Z.to_nat len) rest) in (take (Z.to_nat len) rest :: fs, kept)
  end.
Proof.
  unfold drain_frames. destruct buf as [|b buf]; [done|]. set (bs := b :: buf). change (length bs) with (S (length buf)). cbn [drain]. rewrite stream_read.
  destruct (read_uvarint bs) as [[len rest]|] eqn:E; [|done]. destruct (_ <? len); [done|]. apply uvarint_len in E. change (length bs) with (S (length buf)) in E.
  rewrite (drain_fuel _ (length (drop (Z.to_nat len) rest))); [done|rewrite drop_length; lia|done].
Qed.
Lemma drain_ind (P : list Z -> Prop) :
  (forall buf, (forall len rest, read_uvarint buf = Some (len, rest) -> P (drop (Z.to_nat len) rest)) -> P buf) -> forall buf, P buf.
Proof.
  intros H buf. remember (length buf) as n eqn:En. revert buf En. induction (lt_wf n) as [n _ IH]. intros buf ->. apply H. intros len rest E.
  apply uvarint_len in E. eapply IH; [|done]. rewrite drop_length. lia.
Qed.
(** What one drain keeps, drained again with more bytes, continues as if nothing had happened. *)
Lemma drain_resume buf more fs kept : drain_frames buf = (fs, kept) ->
  drain_frames (buf ++ more) = let '(fs', kept') := drain_frames (kept ++ more) in (fs ++ fs', kept').
Proof.
  revert fs kept. induction buf as [buf IH] using drain_ind. intros fs kept H. rewrite drain_step in H.
  destruct (read_uvarint buf) as [[len rest]|] eqn:E.
  - destruct (Z.ltb_spec (Z.of_nat (length rest)) len) as [L|L].
    + injection H as <- <-. cbn [app]. now destruct (drain_frames (buf ++ more)).
    + destruct (drain_frames (drop (Z.to_nat len) rest)) as [fs1 kept1] eqn:D. injection H as <- <-. specialize (IH _ _ eq_refl _ _ D).
      rewrite drain_step, (uvarint_app _ more _ _ E). rewrite app_length. rewrite (proj2 (Z.ltb_ge _ _)) by lia.
      assert (Z.to_nat len <= length rest)%nat by (apply uvarint_range in E; unfold is_u64 in E; lia).
      rewrite drop_app_le, take_app_le by done. rewrite IH. destruct (drain_frames (kept1 ++ more)). done.
  - injection H as <- <-. cbn [app]. now destruct (drain_frames (buf ++ more)).
Qed.
Lemma drain_again buf fs kept : drain_frames buf = (fs, kept) -> drain_frames kept = ([], kept).
Proof.
  intros H. pose proof (drain_resume buf [] fs kept H) as R. rewrite !app_nil_r in R. rewrite H in R. destruct (drain_frames kept) as [fs' kept'].
  injection R as R ->. rewrite <- (app_nil_r fs) in R at 1. apply app_inv_head in R as <-. done.
Qed.
Lemma receive_all buf chunks : drain_frames buf = ([], buf) -> receive buf chunks = drain_frames (buf ++ concat chunks).
Proof.
  revert buf. induction chunks as [|chunk chunks IH]; intros buf H; cbn [receive concat]; [now rewrite app_nil_r|].
  unfold push. rewrite app_assoc. destruct (drain_frames (buf ++ chunk)) as [fs kept] eqn:D.
  rewrite (drain_resume _ (concat chunks) _ _ D). rewrite (IH kept) by (eapply drain_again; eauto). done.
Qed.
Lemma drain_frame body more : Z.of_nat (length body) < two64 ->
  drain_frames (frame_for_stream body ++ more) = let '(fs, kept) := drain_frames more in (body :: fs, kept).
Proof.
  intros H. rewrite drain_step, frame_stream_eq by done. rewrite <- app_assoc, read_write_uvarint by (unfold is_u64; lia).
  rewrite app_length. rewrite (proj2 (Z.ltb_ge _ _)) by lia. rewrite Nat2Z.id, take_app, drop_app. done.
Qed.
Lemma drain_bodies bodies more : Forall (fun b => Z.of_nat (length b) < two64) bodies ->
  drain_frames (concat (map frame_for_stream bodies) ++ more) = let '(fs, kept) := drain_frames more in (bodies ++ fs, kept).
Proof.
  induction 1 as [|body bodies Hb F IH]; cbn [map concat app]; [now destruct (drain_frames more)|].
  rewrite <- app_assoc, drain_frame by done. rewrite IH. now destruct (drain_frames more).
Qed.
Lemma drain_partial body pre more : Z.of_nat (length body) < two64 -> frame_for_stream body = pre ++ more -> more <> [] -> drain_frames pre = ([], pre).
Proof.
  intros Hb E N. destruct (drain_frames pre) as [fs kept] eqn:D. pose proof D as D0.
  pose proof (drain_resume _ more _ _ D) as R. rewrite <- E in R. rewrite <- (app_nil_r (frame_for_stream body)), drain_frame in R by done. cbn in R.
  rewrite drain_step in D. destruct (read_uvarint pre) as [[len rest]|] eqn:U; [|now injection D as <- <-].
  destruct (Z.ltb_spec (Z.of_nat (length rest)) len) as [L|L]; [now injection D as <- <-|].
  exfalso. apply (uvarint_app _ more) in U. rewrite <- E, frame_stream_eq, read_write_uvarint in U by (first [done|unfold is_u64; lia]).
  injection U as <- U. apply (f_equal length) in U. rewrite app_length in U. destruct more; [done|cbn in U; lia].
Qed.
