(** C22 (any [k] of [n] shards rebuild the data) and C23 (framed shards rebuild the message). *)
From Coq Require Import NArith List Lia Strings.Byte Permutation.
From stdpp Require Import list.
From Verif Require Import FecModel FecField FecProofs FecCode.
Open Scope nat_scope.
Opaque gf gf_exp gf_log gf_mul gf_div xor u8.

(** ** C22 *)
(** [encode] refuses exactly the degenerate parameters; otherwise it yields [n] shards of one
    common length. *)
Theorem C22_encode data k n :
  (encode data k n = None <-> k = 0 \/ n < k \/ 256 < n) /\
  (forall len shards, encode data k n = Some (len, shards) -> len = length data /\ length shards = n /\
     exists sl, 1 <= sl /\ (forall s, In s shards -> length s = sl) /\ length data <= k * sl /\ (sl = 1 \/ k * (sl - 1) < length data)).
Proof.
  split.
  - split.
    + intros E. destruct (decide (k = 0)); [tauto|]. destruct (decide (n < k)); [tauto|]. destruct (decide (256 < n)); [tauto|]. assert (G : good k n) by (unfold good; lia). destruct (encode_good data k n G) as (e & sh & _ & Es & _). congruence.
    + intros B. apply encode_bad. unfold good. lia.
  - intros len shards E. destruct (decide (0 < k /\ k <= n /\ n <= 256)) as [G|G]; [|rewrite encode_bad in E by done; done]. destruct (encode_good data k n G) as (e & sh & _ & Es & L & S). rewrite Es in E. injection E as <- <-. split; [done|]. split; [done|].
    exists (shard_len (length data) k). split; [apply shard_len_pos|]. split; [|split; [apply shard_len_enough, G|apply shard_len_tight, G]]. intros s Hs. destruct (In_nth _ _ [] Hs) as (i & Hi & <-). apply S. lia.
Qed.
(** The first [k] shards are the data itself, padded with zeros. *)
Theorem C22_systematic data k n len shards : encode data k n = Some (len, shards) ->
  exists z, concat (take k shards) = data ++ repeat x00 z.
Proof.
  intros E. destruct (decide (0 < k /\ k <= n /\ n <= 256)) as [G|G]; [|rewrite encode_bad in E by done; done]. destruct (encode_good data k n G) as (e & sh & Ee & Es & L & S). rewrite Es in E. injection E as <- <-. eexists. apply (encode_systematic data k n e sh G Ee L S).
Qed.
Lemma genuine data k n len shards have : good k n -> encode data k n = Some (len, shards) ->
  exists e sl, encode_matrix n k = Some e /\ sl = shard_len (length data) k /\ len = length data /\ length shards = n /\ (forall i s, shards !! i = Some s -> length s = sl) /\
  ((forall i s, In (i, s) have -> i < n -> length s = sl -> shards !! i = Some s) ->
   forall p, In p have -> valid n sl p -> forall b, b < sl -> nth b (snd p) x00 = apply_mat k e (column k (padded data k) sl b) (fst p)).
Proof.
  intros G E. destruct (encode_good data k n G) as (e & sh & Ee & Es & L & S). rewrite Es in E. injection E as <- <-. exists e, (shard_len (length data) k). split; [done|]. split; [done|]. split; [done|]. split; [done|]. split.
  - intros i s Hs. assert (Hi : i < n) by (rewrite <- L; apply lookup_lt_is_Some_1; eauto). destruct (S i Hi) as [Ls _]. rewrite nth_lookup, Hs in Ls. done.
  - intros Gen [i s] Hp [V1 V2] b Hb. cbn in *. specialize (Gen i s Hp V1 V2). destruct (S i V1) as [_ V]. specialize (V b Hb). assert (En : nth i sh [] = s) by (now rewrite nth_lookup, Gen). rewrite En in V. exact V.
Qed.
(** Any list of shards, in any order and with repetitions, of which the usable entries (index
    below [n], length of the first entry) are genuine and at least [k] are different, gives the
    data back. *)
Theorem C22_any_k data k n len shards i0 s0 have :
  encode data k n = Some (len, shards) -> In (length s0) (map (@length byte) shards) ->
  (forall i s, In (i, s) ((i0, s0) :: have) -> i < n -> length s = length s0 -> shards !! i = Some s) ->
  (exists idxs, List.NoDup idxs /\ length idxs = k /\ forall i, In i idxs -> exists s, shards !! i = Some s /\ In (i, s) ((i0, s0) :: have)) ->
  decode len k n ((i0, s0) :: have) = Some data.
Proof.
  intros E Ls Gen (idxs & ND & Lk & Hi). destruct (decide (0 < k /\ k <= n /\ n <= 256)) as [G|G]; [|rewrite encode_bad in E by done; done].
  destruct (genuine data k n len shards ((i0, s0) :: have) G E) as (e & sl & Ee & Esl & -> & Ln & Lsh & Gn). assert (Es0 : length s0 = sl). { apply in_map_iff in Ls as (s & <- & Hs). destruct (In_nth _ _ [] Hs) as (i & Hil & Eq). apply (Lsh i). rewrite <- Eq. rewrite nth_lookup. destruct (lookup_lt_is_Some_2 shards i Hil) as [x Ex]. now rewrite Ex. }
  rewrite (decode_enough _ k n e _ sl (padded data k)); try done.
  - pose proof (shard_len_enough (length data) k (proj1 G)) as En. rewrite <- Esl in En. destruct (Nat.ltb_spec (k * sl) (length data)); [lia|]. f_equal. unfold padded. apply take_app.
  - exists idxs. split; [done|]. split; [lia|]. intros i Hin. destruct (Hi i Hin) as (s & Hs & Hh). exists s. split; [done|]. split; [cbn; rewrite <- Ln; apply lookup_lt_is_Some_1; eauto|apply (Lsh i s Hs)].
  - rewrite padded_length by apply G. now rewrite Esl.
  - apply Gn. intros i s Hin Hlt Hl. apply Gen; [done|done|now rewrite Es0].
Qed.
Lemma nodup_take {A} k (l : list A) : List.NoDup l -> List.NoDup (take k l).
Proof.
  revert l. induction k as [|k IH]; intros l ND; [constructor|]. destruct l as [|x l]; [constructor|]. inversion_clear ND as [|? ? N ND']. cbn. constructor; [|now apply IH]. intros H. apply N. rewrite <- (take_drop k l). apply in_app_iff. now left.
Qed.
(** In particular any choice of [k] or more of the [n] shards. *)
Theorem C22_subset data k n len shards idxs :
  encode data k n = Some (len, shards) -> List.NoDup idxs -> (forall i, In i idxs -> i < n) -> k <= length idxs ->
  decode len k n (map (fun i => (i, nth i shards [])) idxs) = Some data.
Proof.
  intros E ND B Lk. destruct (decide (0 < k /\ k <= n /\ n <= 256)) as [G|G]; [|rewrite encode_bad in E by done; done]. destruct idxs as [|i0 idxs]; [cbn in Lk; destruct G; lia|].
  destruct (proj2 (C22_encode data k n) len shards E) as (_ & Ln & _).
  assert (Look : forall i, i < n -> shards !! i = Some (nth i shards [])). { intros i Hi. rewrite <- Ln in Hi. rewrite nth_lookup. destruct (lookup_lt_is_Some_2 shards i Hi) as [x ->]. done. }
  cbn [map]. apply (C22_any_k data k n len shards); [done| | |].
  - apply in_map, nth_In. rewrite Ln. apply B. now left.
  - intros i s Hin Hlt _. apply (in_map_iff (fun i => (i, nth i shards [])) (i0 :: idxs)) in Hin as (j & [= <- <-] & _). now apply Look.
  - exists (take k (i0 :: idxs)). split; [now apply nodup_take|]. split; [rewrite take_length; lia|]. intros i Hin. exists (nth i shards []). assert (Hin' : In i (i0 :: idxs)) by (rewrite <- (take_drop k (i0 :: idxs)); apply in_app_iff; tauto).
    split; [now apply Look, B|]. apply (in_map_iff (fun i => (i, nth i shards [])) (i0 :: idxs)). now exists i.
Qed.
(** With fewer than [k] different usable entries there is no answer. *)
Theorem C22_fewer len k n i0 s0 have :
  (forall idxs, List.NoDup idxs -> (forall i, In i idxs -> i < n /\ exists s, In (i, s) ((i0, s0) :: have) /\ length s = length s0) -> length idxs < k) ->
  decode len k n ((i0, s0) :: have) = None.
Proof.
  intros F. apply decode_fewer. intros (idxs & ND & L & H). cbn in H. assert (length idxs < k); [|lia]. apply F; [done|]. intros i Hi. destruct (H i Hi) as (s & Hs & V1 & V2). split; [done|]. now exists s.
Qed.
Theorem C22_nothing len k n : decode len k n [] = None.
Proof. unfold decode. now rewrite orb_true_r. Qed.
(** A damaged shard that happens to come first decides the length: all good ones are then
    dropped, although [k] different genuine ones are present. *)
Theorem C22_short_first_refuted : exists data k n len shards (bad : nat * list byte) have,
  encode data k n = Some (len, shards) /\ (forall i s, In (i, s) have -> shards !! i = Some s) /\ List.NoDup (map fst have) /\ length have = n /\ decode len k n have = Some data /\
  decode len k n (bad :: have) = None.
Proof.
  exists [x01; x02; x03; x04], 2, 3, 4. eexists. exists (2, [x07]). eexists [(0, _); (1, _); (2, _)]. split; [vm_compute; reflexivity|].
  split; [intros i s [[= <- <-]|[[= <- <-]|[[= <- <-]|[]]]]; cbn; reflexivity|]. split; [cbn; repeat constructor; cbn; intuition lia|]. split; [reflexivity|]. split; vm_compute; reflexivity.
Qed.
Example ex_encode : encode [x01; x02; x03; x04; x05] 3 5 = Some (5, [[x01; x02]; [x03; x04]; [x05; x00]; [x07; x06]; [x09; x3e]]).
Proof. vm_compute. reflexivity. Qed.
Example ex_decode_parity : decode 5 3 5 [(4, [x09; x3e]); (3, [x07; x06]); (4, [x09; x3e]); (1, [x03; x04])] = Some [x01; x02; x03; x04; x05].
Proof. vm_compute. reflexivity. Qed.
Example ex_decode_two : decode 5 3 5 [(4, [x09; x3e]); (3, [x07; x06]); (4, [x09; x3e]); (3, [x03; x04])] = None.
Proof. vm_compute. reflexivity. Qed.

(** ** C23 *)
Record message := Msg { m_id : N; m_payload : list byte; m_k : nat; m_n : nat }.
Definition frames (m : message) : list (list byte) := default [] (frame_redundant (m_id m) (m_payload m) (m_k m) (m_n m)).
(** A message that can be sent: sensible parameters and a 64-bit number. *)
Definition sendable (m : message) : Prop := (m_id m < 2 ^ 64)%N /\ good (m_k m) (m_n m).
Definition shards_of (m : message) : list (list byte) := snd (default (0, []) (encode (m_payload m) (m_k m) (m_n m))).
Lemma frames_lookup m i : sendable m -> frames m !! i = (fun s => frame_shard (m_id m) (m_k m) (m_n m) (length (m_payload m)) i s) <$> shards_of m !! i.
Proof.
  intros [_ G]. unfold frames, shards_of, frame_redundant. destruct (encode_good (m_payload m) (m_k m) (m_n m) G) as (e & sh & _ & -> & _). cbn [default snd from_option]. apply list_lookup_imap.
Qed.
Lemma frame_parse m i f : sendable m -> frames m !! i = Some f -> exists s, shards_of m !! i = Some s /\ i < m_n m /\ parse_shard f = Some (Hdr (m_id m) (m_k m) (m_n m) (wrap_len (length (m_payload m))) i, s).
Proof.
  intros S H. rewrite frames_lookup in H by done. destruct (shards_of m !! i) as [s|] eqn:E; [|done]. cbn in H. injection H as <-. exists s. split; [done|]. destruct S as [Hid G].
  assert (Hi : i < m_n m). { unfold shards_of in E. destruct (encode_good (m_payload m) (m_k m) (m_n m) G) as (e & sh & _ & Es & L & _). rewrite Es in E. cbn in E. rewrite <- L. apply lookup_lt_is_Some_1. eauto. }
  split; [done|]. destruct G as (? & ? & ?). apply parse_frame; [exact Hid|lia|lia|lia].
Qed.
(** Every frame carries its message's number and parameters. *)
Theorem C23_header id payload k n fs : (id < 2 ^ 64)%N -> frame_redundant id payload k n = Some fs ->
  length fs = n /\ forall f, In f fs -> shard_header f = Some (id, k, n).
Proof.
  intros Hid E. set (m := Msg id payload k n). assert (G : good k n) by (destruct (decide (0 < k /\ k <= n /\ n <= 256)) as [G|G]; [exact G|]; unfold frame_redundant in E; rewrite encode_bad in E by done; done).
  assert (S : sendable m) by done. assert (Ef : frames m = fs) by (unfold frames; cbn; now rewrite E).
  split. { unfold frame_redundant in E. destruct (encode_good payload k n G) as (e & sh & _ & Es & L & _). rewrite Es in E. injection E as <-. now rewrite imap_length. }
  intros f Hf. apply elem_of_list_In, elem_of_list_lookup in Hf as [i Hi]. rewrite <- Ef in Hi. destruct (frame_parse m i f S Hi) as (s & _ & _ & P). unfold shard_header. now rewrite P.
Qed.
Theorem C23_frames_iff_encodes id payload k n : frame_redundant id payload k n = None <-> k = 0 \/ n < k \/ 256 < n.
Proof. rewrite <- (proj1 (C22_encode payload k n)). unfold frame_redundant. destruct (encode payload k n) as [[len sh]|]; done. Qed.

Lemma into_groups_cases gs h s :
  (exists gs1 g gs2, gs = gs1 ++ g :: gs2 /\ g_id g = h_id h /\ into_groups gs h s = gs1 ++ add_shard g h s :: gs2) \/
  (~ In (h_id h) (map g_id gs) /\ into_groups gs h s = gs ++ [add_shard (Grp (h_id h) (h_k h) (h_n h) (h_len h) []) h s]).
Proof.
  induction gs as [|g gs IH]; cbn [into_groups]; [right; split; [intros []|done]|]. destruct (N.eqb_spec (g_id g) (h_id h)) as [E|N].
  - left. exists [], g, gs. done.
  - destruct IH as [(gs1 & g' & gs2 & -> & E & ->)|[Ni ->]]; [left; exists (g :: gs1), g', gs2; done|right]. split; [intros [|]; done|done].
Qed.
(** What a group holds after the packets [seen]. *)
Definition group_ok (m : message) (seen : list (list byte)) (g : group) : Prop :=
  g_id g = m_id m /\ g_k g = m_k m /\ g_n g = m_n m /\ g_len g = wrap_len (length (m_payload m)) /\ g_shards g <> [] /\ List.NoDup (map fst (g_shards g)) /\
  forall i s, In (i, s) (g_shards g) -> shards_of m !! i = Some s /\ exists f, frames m !! i = Some f /\ In f seen.
Definition inv (msgs : list message) (seen : list (list byte)) (gs : list group) : Prop :=
  List.NoDup (map g_id gs) /\ (forall g, In g gs -> exists m, In m msgs /\ group_ok m seen g) /\
  (forall m i f, In m msgs -> frames m !! i = Some f -> In f seen -> exists g, In g gs /\ g_id g = m_id m /\ In i (map fst (g_shards g))).
Lemma existsb_fst (l : list (nat * list byte)) i : existsb (fun p => fst p =? i) l = true <-> In i (map fst l).
Proof. rewrite existsb_exists, in_map_iff. split; intros (s & A & B); exists s; [apply Nat.eqb_eq in B|apply Nat.eqb_eq in A]; done. Qed.
Lemma ids_inj msgs m m' : List.NoDup (map m_id msgs) -> In m msgs -> In m' msgs -> m_id m = m_id m' -> m = m'.
Proof.
  induction msgs as [|x msgs IH]; intros ND A B E; [done|]. cbn in ND. inversion_clear ND as [|? ? Ni ND']. destruct A as [->|A], B as [->|B]; [done| | |now apply IH].
  - destruct Ni. rewrite E. now apply in_map.
  - destruct Ni. rewrite <- E. now apply in_map.
Qed.
Lemma group_ok_mono m seen f g : group_ok m seen g -> group_ok m (f :: seen) g.
Proof. intros (A & B & C & D & E & F & H). do 6 (split; [done|]). intros i s Hin. destruct (H i s Hin) as (H1 & x & H2 & H3). split; [done|]. exists x. split; [done|now right]. Qed.
Lemma add_ok m seen f i s g : group_ok m seen g \/ g = Grp (m_id m) (m_k m) (m_n m) (wrap_len (length (m_payload m))) [] -> frames m !! i = Some f -> shards_of m !! i = Some s ->
  let g' := add_shard g (Hdr (m_id m) (m_k m) (m_n m) (wrap_len (length (m_payload m))) i) s in
  group_ok m (f :: seen) g' /\ In i (map fst (g_shards g')) /\ (forall j, In j (map fst (g_shards g)) -> In j (map fst (g_shards g'))).
Proof.
  intros Hg Hf Hs. unfold add_shard. cbn [h_k h_n h_len h_index].
  assert (E : g_id g = m_id m /\ g_k g = m_k m /\ g_n g = m_n m /\ g_len g = wrap_len (length (m_payload m)) /\ List.NoDup (map fst (g_shards g)) /\ forall i s, In (i, s) (g_shards g) -> shards_of m !! i = Some s /\ exists f, frames m !! i = Some f /\ In f seen).
  { destruct Hg as [(A & B & C & D & _ & F & H)| ->]; [done|]. cbn. do 4 (split; [done|]). split; [constructor|done]. }
  destruct E as (E1 & E2 & E3 & E4 & ND & H). rewrite E2, E3, E4, !Nat.eqb_refl. cbn [andb]. destruct (existsb (fun p => fst p =? i) (g_shards g)) eqn:Ex; cbn [negb].
  - apply existsb_fst in Ex. split; [|done]. destruct Hg as [Hg| ->]; [now apply group_ok_mono|done].
  - assert (Ni : ~ In i (map fst (g_shards g))) by (rewrite <- existsb_fst, Ex; done). cbn [g_shards]. split; [|rewrite map_app; split; [apply in_app_iff; right; now left|intros j Hj; apply in_app_iff; tauto]].
    split; [done|]. split; [done|]. split; [done|]. split; [done|]. cbn [g_shards]. split; [now destruct (g_shards g)|]. split; [rewrite map_app; now apply nodup_snoc|].
    intros j t Hin. apply in_app_iff in Hin as [Hin|[[= <- <-]|[]]].
    + destruct (H j t Hin) as (H1 & x & H2 & H3). split; [done|]. exists x. split; [done|now right].
    + split; [done|]. exists f. split; [done|now left].
Qed.
Lemma inv_step msgs seen gs bs : List.NoDup (map m_id msgs) -> Forall sendable msgs -> (shard_header bs = None \/ exists m, In m msgs /\ In bs (frames m)) -> inv msgs seen gs ->
  inv msgs (bs :: seen) (match parse_shard bs with None => gs | Some (h, shard) => into_groups gs h shard end).
Proof.
  intros NDm SM Hbs (ND & I1 & I2). rewrite List.Forall_forall in SM. destruct Hbs as [Hn|(m & Hm & Hf)].
  - unfold shard_header in Hn. destruct (parse_shard bs) as [[h s]|] eqn:Ep; [done|]. split; [done|]. split; [intros g Hg; destruct (I1 g Hg) as (m & A & B); exists m; split; [done|now apply group_ok_mono]|].
    intros m i f Hm Hf [<-|Hin]; [|now apply (I2 m i f)]. destruct (frame_parse m i bs (SM m Hm) Hf) as (s & _ & _ & P). congruence.
  - apply elem_of_list_In, elem_of_list_lookup in Hf as [i Hi]. pose proof (SM m Hm) as Sm. destruct (frame_parse m i bs Sm Hi) as (s & Hs & Hin & P). rewrite P. set (h := Hdr _ _ _ _ _) in *.
    assert (U : forall m' i', In m' msgs -> frames m' !! i' = Some bs -> m' = m /\ i' = i).
    { intros m' i' Hm' Hi'. destruct (frame_parse m' i' bs (SM m' Hm') Hi') as (s' & _ & _ & P'). rewrite P in P'. unfold h in P'. injection P' as A B C D E F. split; [|done]. apply (ids_inj msgs); done. }
    destruct (into_groups_cases gs h s) as [(gs1 & g & gs2 & -> & Eg & ->)|[Ni ->]].
    + assert (Hg : In g (gs1 ++ g :: gs2)) by (apply in_app_iff; right; now left). destruct (I1 g Hg) as (m' & Hm' & Ok). assert (m' = m) as -> by (apply (ids_inj msgs); try done; destruct Ok as (<- & _); done).
      destruct (add_ok m seen bs i s g (or_introl Ok) Hi Hs) as (Ok' & Ii & Mono). cbn zeta in *. fold h in Ok', Ii, Mono. set (g' := add_shard g h s) in *.
      assert (Eid : g_id g' = g_id g) by (destruct Ok' as (-> & _); now destruct Ok as (-> & _)).
      split; [rewrite map_app in ND |- *; cbn in ND |- *; now rewrite Eid|]. split.
      * intros x Hx. apply in_app_iff in Hx as [Hx|[<-|Hx]]; [|now exists m|]; (destruct (I1 x) as (mx & A & B); [apply in_app_iff; cbn; tauto|]; exists mx; split; [done|now apply group_ok_mono]).
      * intros m' i' f Hm1 Hf1 Hseen. assert (K : m' = m /\ i' = i \/ In f seen) by (destruct Hseen as [<-|]; [left; now apply U|tauto]). destruct K as [[-> ->]|Hs'].
        -- exists g'. split; [apply in_app_iff; right; now left|]. split; [now destruct Ok' as (-> & _)|done].
        -- destruct (I2 m' i' f Hm1 Hf1 Hs') as (x & Hx & Ex & Ix). apply in_app_iff in Hx as [Hx|[<-|Hx]].
           ++ exists x. split; [apply in_app_iff; tauto|done].
           ++ exists g'. split; [apply in_app_iff; right; now left|]. split; [now rewrite Eid|now apply Mono].
           ++ exists x. split; [apply in_app_iff; cbn; tauto|done].
    + destruct (add_ok m seen bs i s _ (or_intror eq_refl) Hi Hs) as (Ok' & Ii & _). cbn zeta in *. fold h in Ok', Ii. change (Grp (h_id h) (h_k h) (h_n h) (h_len h) []) with (Grp (m_id m) (m_k m) (m_n m) (wrap_len (length (m_payload m))) []). set (g' := add_shard _ h s) in *.
      split; [rewrite map_app; apply nodup_snoc; [done|]; replace (g_id g') with (h_id h) by (destruct Ok' as (-> & _); done); done|]. split.
      * intros x Hx. apply in_app_iff in Hx as [Hx|[<-|[]]]; [|now exists m]. destruct (I1 x Hx) as (mx & A & B). exists mx. split; [done|now apply group_ok_mono].
      * intros m' i' f Hm1 Hf1 Hseen. assert (K : m' = m /\ i' = i \/ In f seen) by (destruct Hseen as [<-|]; [left; now apply U|tauto]). destruct K as [[-> ->]|Hs'].
        -- exists g'. split; [apply in_app_iff; right; now left|]. split; [now destruct Ok' as (-> & _)|done].
        -- destruct (I2 m' i' f Hm1 Hf1 Hs') as (x & Hx & Ex & Ix). exists x. split; [apply in_app_iff; tauto|done].
Qed.
Lemma collect_inv msgs received seen gs : List.NoDup (map m_id msgs) -> Forall sendable msgs -> (forall bs, In bs received -> shard_header bs = None \/ exists m, In m msgs /\ In bs (frames m)) -> inv msgs seen gs ->
  inv msgs (rev received ++ seen) (collect received gs).
Proof.
  intros NDm SM. revert seen gs. induction received as [|bs received IH]; intros seen gs H I; cbn [collect rev]; [done|]. rewrite <- app_assoc. apply (IH (bs :: seen)); [intros; apply H; now right|]. apply inv_step; try done. apply H. now left.
Qed.
Lemma wrap_len_le n : wrap_len n <= n. Proof. unfold wrap_len. pose proof (N.mod_le (N.of_nat n) (256 ^ 4) ltac:(done)). lia. Qed.
Lemma group_decodes m seen g : sendable m -> group_ok m seen g -> m_k m <= length (g_shards g) -> decode (g_len g) (g_k g) (g_n g) (g_shards g) = Some (take (wrap_len (length (m_payload m))) (m_payload m)).
Proof.
  intros [_ G] (_ & Ek & En & El & Ne & ND & H) L. rewrite Ek, En, El. destruct (encode_good (m_payload m) (m_k m) (m_n m) G) as (e0 & sh & _ & Es & _). assert (Esh : shards_of m = sh) by (unfold shards_of; now rewrite Es). rewrite Esh in H.
  destruct (genuine _ _ _ _ _ (g_shards g) G Es) as (e & sl & Ee & Esl & _ & Ln & Lsh & Gn). destruct (g_shards g) as [|[i0 s0] rest] eqn:Eg; [done|]. rewrite <- Eg in *.
  assert (L0 : length (snd (nth 0 (g_shards g) (0, []))) = sl) by (rewrite Eg; cbn; apply (Lsh i0), H; rewrite Eg; now left).
  rewrite (decode_enough _ _ _ e _ sl (padded (m_payload m) (m_k m))); try done.
  - pose proof (shard_len_enough (length (m_payload m)) (m_k m) (proj1 G)) as En'. rewrite <- Esl in En'. pose proof (wrap_len_le (length (m_payload m))). destruct (Nat.ltb_spec (m_k m * sl) (wrap_len (length (m_payload m)))); [lia|]. f_equal. unfold padded. now rewrite take_app_le.
  - exists (map fst (g_shards g)). split; [done|]. split; [now rewrite map_length|]. intros i Hi. apply in_map_iff in Hi as ([i' s] & <- & Hp). exists s. destruct (H i' s Hp) as [Hs _]. split; [done|]. split; [cbn; rewrite <- Ln; apply lookup_lt_is_Some_1; eauto|apply (Lsh i' s Hs)].
  - rewrite padded_length by apply G. now rewrite Esl.
  - apply Gn. intros i s Hin _ _. now apply H.
Qed.
Lemma first_complete_some gs id data : first_complete gs = Some (id, data) -> exists g, In g gs /\ g_id g = id /\ g_k g <= length (g_shards g) /\ decode (g_len g) (g_k g) (g_n g) (g_shards g) = Some data.
Proof.
  induction gs as [|g gs IH]; [done|]. cbn [first_complete]. destruct (Nat.leb_spec (g_k g) (length (g_shards g))) as [L|].
  - destruct (decode (g_len g) (g_k g) (g_n g) (g_shards g)) as [d|] eqn:E; [intros [= <- <-]; exists g; split; [now left|done]|]. intros H. destruct (IH H) as (x & A & B). exists x. split; [now right|done].
  - intros H0. destruct (IH H0) as (x & A & B). exists x. split; [now right|done].
Qed.
Lemma first_complete_none gs g : first_complete gs = None -> In g gs -> g_k g <= length (g_shards g) -> decode (g_len g) (g_k g) (g_n g) (g_shards g) = None.
Proof.
  induction gs as [|x gs IH]; [done|]. cbn [first_complete]. destruct (Nat.leb_spec (g_k x) (length (g_shards x))) as [L|L].
  - destruct (decode (g_len x) (g_k x) (g_n x) (g_shards x)) eqn:E; [done|]. intros H [->|Hin] Lg; [done|now apply IH].
  - intros H [->|Hin] Lg; [lia|now apply IH].
Qed.
(** At least [k] different frames of the message have arrived. *)
Definition complete (m : message) (received : list (list byte)) : Prop :=
  exists idxs, List.NoDup idxs /\ length idxs = m_k m /\ forall i, In i idxs -> exists f, frames m !! i = Some f /\ In f received.
Lemma main msgs received result :
  List.NoDup (map m_id msgs) -> Forall sendable msgs ->
  (forall bs, In bs received -> shard_header bs = None \/ exists m, In m msgs /\ In bs (frames m)) -> reconstructs received result ->
  match result with
  | Some (id, payload) => exists m, In m msgs /\ m_id m = id /\ complete m received /\ payload = take (wrap_len (length (m_payload m))) (m_payload m)
  | None => forall m, In m msgs -> ~ complete m received
  end.
Proof.
  intros NDm SM H (gs & Pm & ->). assert (I0 : inv msgs [] []) by (split; [constructor|]; split; [intros ? []|intros ? ? ? _ _ []]).
  pose proof (collect_inv msgs received [] [] NDm SM H I0) as (ND & I1 & I2). rewrite app_nil_r in *. assert (InP : forall g, In g gs <-> In g (collect received [])) by (intros g; split; apply Permutation_in; [done|now symmetry]). rewrite List.Forall_forall in SM.
  destruct (first_complete gs) as [[id data]|] eqn:E.
  - apply first_complete_some in E as (g & Hg & <- & L & D). apply InP in Hg. destruct (I1 g Hg) as (m & Hm & Ok). pose proof Ok as (Eid & Ek & _ & _ & _ & NDg & Hs). exists m. split; [done|]. split; [done|]. rewrite Ek in L. split.
    + exists (take (m_k m) (map fst (g_shards g))). split; [now apply nodup_take|]. split; [rewrite take_length, map_length; lia|]. intros i Hi. assert (Hin : In i (map fst (g_shards g))) by (rewrite <- (take_drop (m_k m) (map fst (g_shards g))); apply in_app_iff; tauto). apply in_map_iff in Hin as ([i' s] & <- & Hp). destruct (Hs i' s Hp) as (_ & f & Hf & Hr). exists f. split; [done|]. now apply in_rev.
    + rewrite (group_decodes m _ g (SM m Hm) Ok L) in D. now injection D as <-.
  - intros m Hm (idxs & NDi & Li & Hi). assert (Hk : 0 < m_k m) by apply (SM m Hm). destruct idxs as [|i0 idxs']; [cbn in Li; lia|]. set (idxs := i0 :: idxs') in *.
    assert (Gi : forall i, In i idxs -> exists g, In g (collect received []) /\ g_id g = m_id m /\ In i (map fst (g_shards g))) by (intros i Hin; destruct (Hi i Hin) as (f & Hf & Hr); apply (I2 m i f Hm Hf); now apply in_rev in Hr).
    destruct (Gi i0 (or_introl eq_refl)) as (g & Hg & Eg & _). assert (All : incl idxs (map fst (g_shards g))).
    { intros i Hin. destruct (Gi i Hin) as (g' & Hg' & Eg' & Hi'). assert (g' = g) as ->; [|done]. clear -ND Hg Hg' Eg Eg'. rewrite <- Eg in Eg'. revert ND Hg Hg' Eg'. generalize (collect received []). intros l. induction l as [|x l IH]; intros ND A B E; [done|]. cbn in ND. inversion_clear ND as [|? ? Ni ND']. destruct A as [->|A], B as [->|B]; [done| | |now apply IH]; destruct Ni; [rewrite <- E|rewrite E]; now apply in_map. }
    destruct (I1 g Hg) as (m' & Hm' & Ok). assert (m' = m) as -> by (apply (ids_inj msgs); try done; destruct Ok as (<- & _); done). pose proof (List.NoDup_incl_length NDi All) as Len. rewrite map_length in Len. rewrite Li in Len.
    pose proof Ok as (_ & Ek & _). assert (X : decode (g_len g) (g_k g) (g_n g) (g_shards g) = None) by (apply (first_complete_none gs); [done|now apply InP|now rewrite Ek]). rewrite (group_decodes m _ g (SM m Hm) Ok Len) in X. done.
Qed.
(** Frames of messages with different numbers, mixed in any order, repeated, lost, with
    unreadable packets among them: whatever order the hash map is visited in, the answer is a
    message of which [k] different frames arrived, exactly as sent, and there is an answer as soon
    as one such message exists. *)
Theorem C23_reconstruct msgs received result :
  List.NoDup (map m_id msgs) -> Forall sendable msgs -> Forall (fun m => N.of_nat (length (m_payload m)) < 2 ^ 32)%N msgs ->
  (forall bs, In bs received -> shard_header bs = None \/ exists m, In m msgs /\ In bs (frames m)) -> reconstructs received result ->
  match result with
  | Some (id, payload) => exists m, In m msgs /\ m_id m = id /\ m_payload m = payload /\ complete m received
  | None => forall m, In m msgs -> ~ complete m received
  end.
Proof.
  intros NDm SM Sz H R. pose proof (main msgs received result NDm SM H R) as M. destruct result as [[id payload]|]; [|done]. destruct M as (m & Hm & Eid & C & ->). exists m. split; [done|]. split; [done|]. split; [|done]. rewrite List.Forall_forall in Sz. specialize (Sz m Hm). cbn beta in Sz. unfold wrap_len. rewrite N.mod_small by exact Sz. rewrite Nat2N.id. now rewrite firstn_all.
Qed.
(** A single message. *)
Theorem C23_one id payload k n fs received result :
  (id < 2 ^ 64)%N -> (N.of_nat (length payload) < 2 ^ 32)%N -> frame_redundant id payload k n = Some fs -> (forall bs, In bs received -> In bs fs \/ shard_header bs = None) -> reconstructs received result ->
  (exists idxs, List.NoDup idxs /\ length idxs = k /\ forall i, In i idxs -> exists f, fs !! i = Some f /\ In f received) -> result = Some (id, payload).
Proof.
  intros Hid Sz E H R C. set (m := Msg id payload k n). assert (G : good k n) by (destruct (decide (0 < k /\ k <= n /\ n <= 256)) as [G|G]; [exact G|]; unfold frame_redundant in E; rewrite encode_bad in E by done; done).
  assert (Ef : frames m = fs) by (unfold frames; cbn; now rewrite E). assert (C' : complete m received) by (destruct C as (idxs & A & B & D); exists idxs; rewrite Ef; done).
  pose proof (C23_reconstruct [m] received result) as T. assert (T' := T ltac:(constructor; [intros []|constructor]) ltac:(constructor; [done|constructor]) ltac:(constructor; [done|constructor])). clear T. assert (T := fun X => T' X R). clear T'. cbv beta in T. lapply T; clear T; [intros T|].
  2: { intros bs Hb. destruct (H bs Hb); [right; exists m; rewrite Ef; split; [now left|done]|tauto]. }
  destruct result as [[id' p]|]; [|destruct (T m (or_introl eq_refl) C')]. destruct T as (m' & [<-|[]] & <- & <- & _). done.
Qed.
(** The length field has 32 bits: a longer payload comes back cut short. *)
Lemma long_exists (n : N) : exists payload : list byte, N.of_nat (length payload) = n.
Proof. exists (repeat x00 (N.to_nat n)). rewrite repeat_length. apply N2Nat.id. Qed.
Theorem C23_long_payload_refuted : exists id payload k n fs result, (id < 2 ^ 64)%N /\ frame_redundant id payload k n = Some fs /\ reconstructs fs result /\ result <> Some (id, payload).
Proof.
  destruct (long_exists (2 ^ 32 + 1)) as [payload Lp]. set (m := Msg 0 payload 1 1).
  assert (G : good 1 1) by (unfold good; lia). destruct (frame_redundant 0 payload 1 1) as [fs|] eqn:E; [|unfold frame_redundant in E; destruct (encode_good payload 1 1 G) as (e & sh & _ & Es & _); rewrite Es in E; done].
  exists 0%N, payload, 1, 1, fs, (first_complete (collect fs [])). split; [done|]. split; [exact E|]. assert (R : reconstructs fs (first_complete (collect fs []))) by (exists (collect fs []); split; [reflexivity|done]). split; [exact R|].
  intros Eq. rewrite Eq in R. assert (Ef : frames m = fs) by (unfold frames, m; cbn [m_id m_payload m_k m_n]; now rewrite E). apply (main [m]) in R; [|constructor; [intros []|constructor]|constructor; [done|constructor]|intros bs Hb; right; exists m; rewrite Ef; split; [now left|done]].
  destruct R as (m' & [<-|[]] & _ & _ & Ep). cbn [m_payload m] in Ep. apply (f_equal (fun l : list byte => N.of_nat (length l))) in Ep. rewrite take_length, Nat2N.inj_min in Ep. unfold wrap_len in Ep. rewrite N2Nat.id, Lp in Ep. vm_compute in Ep. discriminate Ep.
Qed.
(** The first packet of a number fixes the parameters of its group: if its header is wrong, every
    good frame is dropped as "inconsistent" and the message is lost, although all [n] arrived. *)
Theorem C23_inconsistent_first_refuted : exists id payload k n fs stray result, (id < 2 ^ 64)%N /\ frame_redundant id payload k n = Some fs /\ shard_header stray <> Some (id, k, n) /\
  reconstructs (stray :: fs) result /\ result = None.
Proof.
  exists 7%N, [x01; x02], 1, 2. eexists. exists (frame_shard 7 2 2 2 0 [x01]). eexists. split; [done|]. split; [vm_compute; reflexivity|]. split; [vm_compute; discriminate|]. split; [exists (collect (frame_shard 7 2 2 2 0 [x01] :: default [] (frame_redundant 7 [x01; x02] 1 2)) []); split; [vm_compute; reflexivity|reflexivity]|]. vm_compute. reflexivity.
Qed.
(** A frame cut short in transit and arriving first has the same effect. *)
Theorem C23_truncated_first_refuted : exists id payload k n fs cut result, (id < 2 ^ 64)%N /\ frame_redundant id payload k n = Some fs /\ (exists f, In f fs /\ exists t, f = cut ++ t) /\
  reconstructs (cut :: fs) result /\ result = None.
Proof.
  exists 7%N, [x01; x02; x03; x04], 2, 3. eexists. exists (frame_shard 7 2 3 4 2 [x05]). eexists. split; [done|]. split; [vm_compute; reflexivity|]. split; [eexists; split; [right; right; left; reflexivity|]; eexists [_]; vm_compute; reflexivity|]. split; [exists (collect (frame_shard 7 2 3 4 2 [x05] :: default [] (frame_redundant 7 [x01; x02; x03; x04] 2 3)) []); split; [vm_compute; reflexivity|reflexivity]|]. vm_compute. reflexivity.
Qed.
Example ex_frames : frame_redundant 258 [x41; x42] 1 2 = Some [[xfe; x02; x01; x00; x00; x00; x00; x00; x00; x01; x00; x02; x00; x02; x00; x00; x00; x00; x00; x41; x42]; [xfe; x02; x01; x00; x00; x00; x00; x00; x00; x01; x00; x02; x00; x02; x00; x00; x00; x01; x00; x41; x42]].
Proof. vm_compute. reflexivity. Qed.
Example ex_reconstruct : first_complete (collect ([x00] :: rev (frames (Msg 9 [x01; x02; x03] 2 4)) ++ take 1 (frames (Msg 5 [x07; x08] 2 2))) []) = Some (9%N, [x01; x02; x03]).
Proof. vm_compute. reflexivity. Qed.
Example ex_sendable : sendable (Msg 9 [x01; x02; x03] 2 4) /\ complete (Msg 9 [x01; x02; x03] 2 4) (drop 2 (frames (Msg 9 [x01; x02; x03] 2 4))).
Proof.
  split; [split; [done|unfold good; cbn; lia]|]. exists [3; 2]. split; [repeat constructor; cbn; intuition lia|]. split; [done|]. intros i [<-|[<-|[]]].
  - eexists. split; [vm_compute; reflexivity|]. vm_compute. tauto.
  - eexists. split; [vm_compute; reflexivity|]. vm_compute. tauto.
Qed.
