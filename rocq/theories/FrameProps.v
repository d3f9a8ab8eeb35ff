(** C101 (message frames and their checksum), C102 (peer profiles, handshakes, negotiation)
    and C103 (the stream deframer). *)
From Coq Require Import ZArith List Lia.
From stdpp Require Import list.
From Verif Require Import MachInt Utf8 WireModel WireProofs FrameModel FrameProofs.
Open Scope Z_scope.

(** ** C101: frames *)
Theorem C101_roundtrip c i z body verify : unframe_with (frame c i z body) verify = Some (c, z, body).
Proof.
  destruct i; [apply unframe_raw|]. unfold frame. destruct verify.
  - change (unframe_with ?b true) with (unframe b). rewrite unframe_checked by apply le_bytes_length. rewrite sum_fnv. now rewrite Z.eqb_refl.
  - unfold unframe_with. rewrite app_length, le_bytes_length. cbn [Nat.add Nat.ltb Nat.leb andb]. rewrite (drop_app_alt _ _ 8) by (symmetry; apply le_bytes_length).
    destruct c, z; reflexivity.
Qed.
Example C101_roundtrip_example : frame Json Checked Zstd [1; 2; 3] = [27; 171; 245; 44; 103; 24; 98; 170; 208; 1; 2; 3].
Proof. vm_compute. reflexivity. Qed.

(** A byte-for-byte damage of a checked frame is refused when it stays within the checksum, or
    within two adjacent bytes of the body, whatever is written there. *)
Theorem C101_damage c z body damaged i w : Forall is_byte body -> Forall is_byte damaged ->
  length damaged = length (frame c Checked z body) -> damaged <> frame c Checked z body ->
  (i = 1 /\ w = 8 \/ 9 <= i /\ w = 2)%nat ->
  (forall j, (j < i \/ i + w <= j)%nat -> damaged !! j = frame c Checked z body !! j) ->
  unframe damaged = None.
Proof.
  intros Hb Hd Len Ne W A. unfold frame in *. set (sum := le_bytes 8 (fnv1a_64 body)) in *.
  assert (Ls : length sum = 8%nat) by apply le_bytes_length.
  destruct damaged as [|h rest]; [cbn in Len; lia|]. cbn [length] in Len. rewrite app_length, Ls in Len.
  assert (h = header c Checked z) as ->. { specialize (A 0%nat). cbn in A. assert (E : Some h = Some (header c Checked z)) by (apply A; lia). now injection E. }
  assert (Ls' : length (take 8 rest) = 8%nat) by (rewrite take_length; lia).
  assert (Lb' : length (drop 8 rest) = length body) by (rewrite drop_length; lia).
  assert (Er : rest = take 8 rest ++ drop 8 rest) by now rewrite take_drop.
  set (sum' := take 8 rest) in *. set (body' := drop 8 rest) in *. clearbody sum' body'. subst rest. clear Len.
  inversion Hd as [|? ? _ Hd']; subst. apply Forall_app in Hd' as [Hs' Hb'].
  rewrite unframe_checked by done. destruct (Z.eqb_spec (fnv1a_64 body') (from_le sum')) as [E|]; [|done]. exfalso. apply Ne. f_equal.
  destruct W as [[-> ->]|[Hi ->]].
  - assert (body' = body) as ->.
    { apply list_eq. intros j. specialize (A (9 + j)%nat ltac:(lia)).
      change ((sum' ++ body') !! (8 + j)%nat = (sum ++ body) !! (8 + j)%nat) in A.
      rewrite (lookup_app_r sum'), (lookup_app_r sum) in A by lia. rewrite Ls, Ls' in A. replace (8 + j - 8)%nat with j in A by lia. done. }
    f_equal. apply from_le_inj; [done|apply le_bytes_byte|lia|]. rewrite <- E. unfold sum. now rewrite sum_fnv.
  - assert (sum' = sum) as ->.
    { apply list_eq. intros j. destruct (decide (j < 8)%nat).
      - specialize (A (S j) ltac:(lia)). change ((sum' ++ body') !! j = (sum ++ body) !! j) in A. rewrite !lookup_app_l in A by lia. done.
      - rewrite !lookup_ge_None_2 by lia. done. }
    f_equal. unfold sum in E. rewrite sum_fnv in E. apply (window_hash body body' (i - 9)%nat Hb Hb' Lb'); [|done].
    intros j Hj. specialize (A (9 + j)%nat ltac:(lia)). change ((sum ++ body') !! (8 + j)%nat = (sum ++ body) !! (8 + j)%nat) in A.
    rewrite !lookup_app_r in A by lia. rewrite Ls in A. replace (8 + j - 8)%nat with j in A by lia. done.
Qed.
Example C101_damage_example : Forall is_byte [104; 105] /\ frame Native Checked CNone [104; 105] !! 9%nat = Some 104 /\
  unframe (<[9%nat := 72]> (frame Native Checked CNone [104; 105])) = None.
Proof. split; [repeat constructor; unfold is_byte; lia|]. split; reflexivity. Qed.

(** What is accepted: a known header, and the body with its right checksum when the header
    announces one. Anything shorter than its header promises is refused. *)
Theorem C101_accepted bs c z body : unframe bs = Some (c, z, body) ->
  exists h, 0 <= Z.land h 224 <= 0 /\
    (Z.testbit h 0 = false /\ bs = h :: body \/
     Z.testbit h 0 = true /\ exists sum, length sum = 8%nat /\ bs = h :: sum ++ body /\ from_le sum = fnv1a_64 body).
Proof.
  unfold unframe, unframe_with. destruct bs as [|h rest]; [discriminate|]. change (255 - H_KNOWN) with 224.
  destruct (Z.eqb_spec (Z.land h 224) 0) as [K|]; cbn [negb]; [|discriminate].
  match goal with |- context [match ?x with Some _ => _ | None => _ end] => destruct x as [z'|]; [|discriminate] end.
  assert (B : Z.land h H_CHECKED = if Z.testbit h 0 then 1 else 0).
  { unfold H_CHECKED. change 1 with (Z.ones 1). rewrite Z.land_ones by lia. change (2 ^ 1) with 2. rewrite Z.bit0_odd, Zmod_odd. now destruct (Z.odd h). }
  rewrite B. intros H. exists h. split; [lia|]. destruct (Z.testbit h 0); cbn [Z.eqb negb] in H.
  - right. split; [done|]. destruct (Nat.ltb_spec (length rest) 8) as [|L]; [discriminate|]. cbn [andb] in H.
    destruct (Z.eqb_spec (fnv1a_64 (drop 8 rest)) (from_le (take 8 rest))) as [E|]; [|discriminate]. cbn [negb] in H. injection H as _ _ <-.
    exists (take 8 rest). rewrite take_length. split; [lia|]. now rewrite take_drop.
  - left. split; [done|]. now injection H as _ _ <-.
Qed.
Example C101_accepted_example : unframe [0; 5; 7] = Some (Native, CNone, [5; 7]) /\ unframe [1; 5; 7] = None /\ unframe [32; 5] = None /\ unframe [14; 5] = None.
Proof. repeat split. Qed.

(** The checksum does not cover the header: one flipped bit of a checked message, and it is
    accepted with another codec, with another compression, or as an unchecked message whose
    body starts with the checksum. *)
Theorem C101_header_refuted :
  (exists c z body, unframe (Z.lxor (header c Checked z) 16 :: drop 1 (frame c Checked z body)) = Some (Json, z, body) /\ c = Native) /\
  (exists c z body z', unframe (Z.lxor (header c Checked z) 2 :: drop 1 (frame c Checked z body)) = Some (c, z', body) /\ z' <> z) /\
  (exists c z body body', unframe (Z.lxor (header c Checked z) 1 :: drop 1 (frame c Checked z body)) = Some (c, z, body') /\ body' <> body).
Proof.
  split; [|split].
  - exists Native, CNone, [1; 2]. split; [vm_compute|]; reflexivity.
  - exists Native, CNone, [1; 2], Deflate. split; [vm_compute; reflexivity|discriminate].
  - exists Native, CNone, [1; 2]. eexists. split; [vm_compute; reflexivity|discriminate].
Qed.
(** The checksum does not cover the length either: this body hashes to zero, and so does every
    extension of it by zero bytes. *)
Theorem C101_length_refuted : exists body, forall c z n,
  unframe (frame c Checked z body ++ repeat 0 n) = Some (c, z, body ++ repeat 0 n).
Proof.
  exists [0xd5; 0x6b; 0xb9; 0x53; 0x42; 0x87; 0x08; 0x36]. intros c z n. set (b := [_; _; _; _; _; _; _; _]). unfold frame. cbn [app]. rewrite <- app_assoc.
  rewrite unframe_checked by apply le_bytes_length. rewrite sum_fnv. replace (fnv1a_64 (b ++ repeat 0 n)) with (fnv1a_64 b); [now rewrite Z.eqb_refl|].
  unfold fnv1a_64. rewrite fold_left_app. replace (fold_left fnv_step b FNV_BASE) with 0 by (vm_compute; reflexivity).
  induction n as [|n IH]; cbn [repeat fold_left]; [done|]. exact IH.
Qed.
(** The zero-copy view opens messages the full decoder refuses. *)
Theorem C101_view_refuted : exists c z body damaged, length damaged = length (frame c Checked z body) /\
  unframe damaged = None /\ unframe_with damaged false = Some (c, z, [9; 2]) /\ body = [1; 2].
Proof. exists Native, CNone, [1; 2], (<[9%nat := 9]> (frame Native Checked CNone [1; 2])). split; [|split; [|split]]; vm_compute; reflexivity. Qed.
(** Two different first bytes announce the same thing. *)
Theorem C101_alias_refuted : exists bs c z body, unframe bs = Some (c, z, body) /\ forall i, frame c i z body <> bs.
Proof. exists [4; 7], Native, CNone, [7]. split; [reflexivity|]. intros []; vm_compute; discriminate. Qed.

(** ** C102: profiles, handshakes and negotiation *)
Theorem C102_profile p more : profile_ok p -> decode_peer_profile (encode_peer_profile p ++ more) = Some p.
Proof. intros H. unfold decode_peer_profile. now rewrite decode_encode. Qed.
Theorem C102_profile_prefix p pre more : profile_ok p -> encode_peer_profile p = pre ++ more -> more <> [] -> decode_peer_profile pre = None.
Proof. intros H E N. unfold decode_peer_profile. now rewrite (prefix_none p pre more). Qed.
Theorem C102_profile_accepted bs p : decode_peer_profile bs = Some p -> profile_ok p /\ exists rest, bs = 1 :: rest.
Proof.
  unfold decode_peer_profile. destruct (decode_profile_rest bs) as [[q rest]|] eqn:E; [|discriminate]. intros [= <-]. split; [eapply decode_range; eauto|].
  destruct bs as [|v bs]; [discriminate|]. unfold decode_profile_rest in E. destruct (Z.eqb_spec v PEER_PROFILE_VERSION) as [->|]; [|discriminate]. now exists bs.
Qed.
Theorem C102_handshake from p : is_text from -> Z.of_nat (blen from) < two64 -> profile_ok p ->
  parse_handshake_frame (make_handshake_frame from p) = Some (from, p) /\
  forall pre more, make_handshake_frame from p = pre ++ more -> more <> [] -> parse_handshake_frame pre = None.
Proof.
  intros Ht Hl Hp. assert (R : forall more, parse_handshake_frame (make_handshake_frame from p ++ more) = Some (from, p)).
  { intros more. unfold parse_handshake_frame, make_handshake_frame, HANDSHAKE_MAGIC. cbn [app strip_prefix Z.eqb Pos.eqb]. rewrite <- app_assoc, read_write_str by done.
    unfold decode_peer_profile. now rewrite decode_encode. }
  split; [rewrite <- (app_nil_r (make_handshake_frame from p)); apply R|]. intros pre more E N.
  unfold parse_handshake_frame. unfold make_handshake_frame, HANDSHAKE_MAGIC in E.
  destruct pre as [|a [|b [|c [|d pre]]]]; cbn [app] in E |- *; unfold HANDSHAKE_MAGIC.
  - done.
  - injection E as <- E. done.
  - injection E as <- <- E. done.
  - injection E as <- <- <- E. done.
  - injection E as <- <- <- <- E. cbn [strip_prefix Z.eqb Pos.eqb]. destruct (read_str pre) as [[s rest]|] eqn:Rs; [|done].
    pose proof (read_str_app _ more _ _ Rs) as Rs'. rewrite <- E, read_write_str in Rs' by done. injection Rs' as <- Er.
    unfold decode_peer_profile. now rewrite (prefix_none p rest more).
Qed.
Example C102_handshake_example : profile_ok default_profile /\ is_text [98; 111; 98] /\
  make_handshake_frame [98; 111; 98] default_profile =
    [76; 67; 72; 83; 3; 98; 111; 98; 1; 128; 128; 128; 32; 64; 128; 128; 128; 8; 128; 128; 128; 8; 1; 0; 63].
Proof.
  split; [|split; [|vm_compute; reflexivity]].
  - vm_compute. repeat split; discriminate.
  - repeat constructor; unfold is_char; lia.
Qed.

(** The first byte tells a data frame, a handshake, a batch and a shard apart: no message is
    taken for two of them. *)
Theorem C102_kinds bs :
  let data := match unframe_with bs false with Some _ => true | None => false end in
  let hand := match parse_handshake_frame bs with Some _ => true | None => false end in
  let batch := match peek_stream_sender bs with Some _ => true | None => false end in
  (data = true -> hand = false /\ batch = false /\ is_shard bs = false) /\
  (hand = true -> batch = false /\ is_shard bs = false) /\ (batch = true -> is_shard bs = false).
Proof.
  destruct bs as [|b bs]; [cbn; repeat split; discriminate|]. cbv zeta.
  assert (Hd : unframe_with (b :: bs) false <> None -> Z.land b 224 = 0).
  { unfold unframe_with. change (255 - H_KNOWN) with 224. destruct (Z.eqb_spec (Z.land b 224) 0); cbn [negb]; done. }
  assert (Hh : parse_handshake_frame (b :: bs) <> None -> b = 76).
  { unfold parse_handshake_frame, HANDSHAKE_MAGIC. cbn [strip_prefix]. destruct (Z.eqb_spec 76 b) as [<-|]; done. }
  assert (Hb : peek_stream_sender (b :: bs) <> None -> b = 253).
  { unfold peek_stream_sender, STREAM_MAGIC. destruct (Z.eqb_spec b 253) as [->|]; done. }
  assert (Hs : is_shard (b :: bs) = true -> b = 254).
  { unfold is_shard, FEC_MAGIC. rewrite andb_true_iff, Z.eqb_eq. tauto. }
  destruct (unframe_with (b :: bs) false), (parse_handshake_frame (b :: bs)), (peek_stream_sender (b :: bs)), (is_shard (b :: bs));
    repeat split; intros; try discriminate; try reflexivity; exfalso;
    repeat match goal with H : _ <> None -> _ |- _ => first [specialize (H ltac:(discriminate))|clear H] end; try specialize (Hs eq_refl); subst; try discriminate.
Qed.
Example C102_kinds_example : unframe_with [16; 1] false = Some (Json, CNone, [1]) /\ peek_stream_sender [253; 1; 97] = Some [97] /\ is_shard (254 :: repeat 0 18) = true.
Proof. repeat split; vm_compute; reflexivity. Qed.

(** The bit that announces a compression, and its strength. *)
Definition feature_bit (z : compression) : option Z := match z with CNone => None | Deflate => Some 0 | Lz4 => Some 1 | Zstd => Some 2 end.
Definition strength (z : compression) : Z := match z with CNone => 0 | Deflate => 1 | Lz4 => 2 | Zstd => 3 end.
Definition speaks (p : profile) (z : compression) : Prop := match feature_bit z with None => True | Some i => Z.testbit (features p) i = true end.

Lemma land_bit x i : 0 <= i -> negb (Z.land x (2 ^ i) =? 0) = Z.testbit x i.
Proof.
  intros Hi. destruct (Z.testbit x i) eqn:E.
  - apply negb_true_iff, Z.eqb_neq. intros H. apply (f_equal (fun y => Z.testbit y i)) in H. rewrite Z.land_spec, E, Z.pow2_bits_true, Z.bits_0 in H by lia. discriminate.
  - apply negb_false_iff, Z.eqb_eq. apply Z.bits_inj'. intros j Hj. rewrite Z.land_spec, Z.bits_0. destruct (Z.eq_dec i j) as [<-|N]; [now rewrite E|].
    rewrite Z.pow2_bits_false by lia. apply andb_false_r.
Qed.
Lemma negotiate_bits a b : negotiate a b =
  Negotiated (Z.testbit (features a) 3 && Z.testbit (features b) 3 && negb (registry_epoch a =? 0) && (registry_epoch a =? registry_epoch b))
    (accept_computed (lims b) && (Z.testbit (features a) 4 && Z.testbit (features b) 4))
    (if Z.testbit (features a) 2 && Z.testbit (features b) 2 then Zstd
     else if Z.testbit (features a) 1 && Z.testbit (features b) 1 then Lz4
     else if Z.testbit (features a) 0 && Z.testbit (features b) 0 then Deflate else CNone) (max_bytes (lims b)).
Proof.
  unfold negotiate, FEAT_ZSTD, FEAT_LZ4, FEAT_DEFLATE, FEAT_TYPE_ID, FEAT_COMPUTED.
  rewrite <- !(land_bit _ 0), <- !(land_bit _ 1), <- !(land_bit _ 2), <- !(land_bit _ 3), <- !(land_bit _ 4) by lia. reflexivity.
Qed.

(** A sender uses what both sides announce and nothing else, and of the compressions both
    speak it takes the strongest. Both ends reach the same decision where it is a common one. *)
Theorem C102_negotiate a b : let n := negotiate a b in
  (speaks a (chosen n) /\ speaks b (chosen n) /\ forall z, speaks a z -> speaks b z -> strength z <= strength (chosen n)) /\
  (use_type_id n = true <-> Z.testbit (features a) 3 = true /\ Z.testbit (features b) 3 = true /\ registry_epoch a = registry_epoch b /\ registry_epoch b <> 0) /\
  (may_send_computed n = true <-> Z.testbit (features a) 4 = true /\ Z.testbit (features b) 4 = true /\ accept_computed (lims b) = true) /\
  chosen (negotiate b a) = chosen n /\ use_type_id (negotiate b a) = use_type_id n.
Proof.
  cbv zeta. rewrite !negotiate_bits. cbn [use_type_id may_send_computed chosen].
  split; [|split; [|split; [|split]]].
  - unfold speaks. destruct (Z.testbit (features a) 2) eqn:A2, (Z.testbit (features b) 2) eqn:B2, (Z.testbit (features a) 1) eqn:A1, (Z.testbit (features b) 1) eqn:B1,
      (Z.testbit (features a) 0) eqn:A0, (Z.testbit (features b) 0) eqn:B0; cbn [andb feature_bit]; (split; [auto|split; [auto|]]);
      intros [| | |]; cbn [feature_bit strength]; intros H1 H2; first [lia|congruence].
  - rewrite !andb_true_iff, negb_true_iff, Z.eqb_eq, Z.eqb_neq. intuition congruence.
  - rewrite !andb_true_iff. tauto.
  - rewrite (andb_comm (Z.testbit (features b) 2)), (andb_comm (Z.testbit (features b) 1)), (andb_comm (Z.testbit (features b) 0)). done.
  - rewrite (andb_comm (Z.testbit (features b) 3)), (Z.eqb_sym (registry_epoch b) (registry_epoch a)).
    destruct (Z.eqb_spec (registry_epoch a) (registry_epoch b)) as [->|]; [done|]. now rewrite !andb_false_r.
Qed.
Example C102_negotiate_example :
  negotiate (Profile default_limits 7 63) (Profile default_limits 7 11) = Negotiated true false Lz4 67108864.
Proof. reflexivity. Qed.
(** To a peer that has announced nothing, a plain message. *)
Theorem C102_conservative a : negotiate a conservative = Negotiated false false CNone (max_bytes default_limits).
Proof. rewrite negotiate_bits. cbn [conservative features lims]. rewrite !Z.bits_0, !andb_false_r. done. Qed.
(** Through the wire: what one peer announces is what the other negotiates with. *)
Theorem C102_end_to_end from p q mine : is_text from -> Z.of_nat (blen from) < two64 -> profile_ok p ->
  parse_handshake_frame (make_handshake_frame from p) = Some (from, q) -> negotiate mine q = negotiate mine p.
Proof. intros Ht Hl Hp H. destruct (C102_handshake from p Ht Hl Hp) as [E _]. rewrite E in H. now injection H as <-. Qed.

(** A profile with a feature word beyond 32 bits is accepted with the high bits dropped, and
    bytes after a profile are ignored. *)
Theorem C102_features_refuted : exists bs p, decode_peer_profile bs = Some p /\ features p = 0 /\
  bs = 1 :: write_uvarint 1 ++ write_uvarint 1 ++ write_uvarint 1 ++ write_uvarint 1 ++ 1 :: write_uvarint 0 ++ write_uvarint (2 ^ 32).
Proof. eexists _, _. split; [|split; [|reflexivity]]; vm_compute; reflexivity. Qed.

(** ** C103: the stream deframer *)
(** Whatever the chunks, the frames delivered and the bytes kept are those of the whole. *)
Theorem C103_chunking chunks : receive [] chunks = drain_frames (concat chunks).
Proof. now apply receive_all. Qed.
(** A stream of frames, cut anywhere: every body once, in order, as soon as its last byte is
    there, and what is kept is the beginning of the next frame. *)
Theorem C103_delivery bodies next pre more chunks : Forall (fun b => Z.of_nat (length b) < two64) (next :: bodies) ->
  frame_for_stream next = pre ++ more -> more <> [] -> concat chunks = concat (map frame_for_stream bodies) ++ pre ->
  receive [] chunks = (bodies, pre).
Proof.
  intros F E N C. inversion F as [|? ? Fn Fb]; subst. rewrite C103_chunking, C, drain_bodies by done. rewrite (drain_partial _ _ _ Fn E N). now rewrite app_nil_r.
Qed.
Theorem C103_complete bodies chunks : Forall (fun b => Z.of_nat (length b) < two64) bodies ->
  concat chunks = concat (map frame_for_stream bodies) -> receive [] chunks = (bodies, []).
Proof.
  intros F C. rewrite C103_chunking, C. rewrite <- (app_nil_r (concat _)), drain_bodies by done. cbn [drain_frames drain length]. now rewrite app_nil_r.
Qed.
Example C103_example : concat [[2; 104]; [105; 0]; []; [1; 33; 3; 1]] = concat (map frame_for_stream [[104; 105]; []; [33]]) ++ [3; 1] /\
  frame_for_stream [1; 2; 3] = [3; 1] ++ [2; 3] /\ receive [] [[2; 104]; [105; 0]; []; [1; 33; 3; 1]] = ([[104; 105]; []; [33]], [3; 1]).
Proof. repeat split; vm_compute; reflexivity. Qed.
(** The framing is the other module's varint followed by the bytes, and either reader reads it. *)
Theorem C103_same_varint body : Z.of_nat (length body) < two64 ->
  frame_for_stream body = write_uvarint (Z.of_nat (length body)) ++ body /\ forall bs, stream_uvarint 0 0 bs = read_uvarint bs.
Proof. intros H. split; [now apply frame_stream_eq|apply stream_read]. Qed.

(** Ten bytes of an overlong length are taken for a length that has not fully arrived: nothing
    is ever delivered again and every later byte is kept. *)
Theorem C103_stuck_refuted : exists chunk, length chunk = 10%nat /\ forall chunks, receive [] (chunk :: chunks) = ([], chunk ++ concat chunks).
Proof.
  exists (repeat 128 10). split; [done|]. intros chunks. rewrite C103_chunking. cbn [concat]. rewrite drain_step, <- stream_read. reflexivity.
Qed.
(** A length announced and never honoured holds everything back as well: there is no bound on it. *)
Theorem C103_unbounded_refuted : exists chunk, length chunk = 10%nat /\ forall chunks, Z.of_nat (length (concat chunks)) < two64 - 1 ->
  receive [] (chunk :: chunks) = ([], chunk ++ concat chunks).
Proof.
  exists (write_uvarint (two64 - 1)). split; [reflexivity|]. intros chunks H. rewrite C103_chunking. cbn [concat]. rewrite drain_step.
  rewrite read_write_uvarint by (unfold is_u64, two64; lia). now rewrite (proj2 (Z.ltb_lt _ _)) by lia.
Qed.
