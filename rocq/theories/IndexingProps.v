(** C34: 1-based indexing. *)
From Coq Require Import ZArith List Lia.
From stdpp Require Import list gmap.
From Verif Require Import MachInt Utf8 IndexingModel.
Open Scope Z_scope.

(** ** Specification: [addresses n i k] says that index [i] means the element with [k] elements
    before it, in a sequence of [n] elements. *)
Definition addresses (n : nat) (i : Z) (k : nat) : Prop :=
  (k < n)%nat /\ (i = Z.of_nat k + 1 \/ i = Z.of_nat k - Z.of_nat n).

(** ** C34 *)

Lemma resolve_iff i n k : resolve_logos_index i n = Some k <-> addresses n i k.
Proof.
  unfold resolve_logos_index, addresses. destruct (Z.leb_spec 1 i).
  - destruct (Nat.leb_spec n (Z.to_nat (i - 1))); split; try discriminate; try lia.
    + intros [= <-]. lia.
    + intros [? ?]. f_equal. lia.
  - destruct (Z.leb_spec i (-1)).
    + destruct (Nat.ltb_spec n (Z.to_nat (Z.abs i))); split; try discriminate; try lia.
      * intros [= <-]. lia.
      * intros [? ?]. f_equal. lia.
    + split; [discriminate|]. lia.
Qed.

(** Reading index [i] gives the element it addresses, and panics exactly if there is none. *)
Theorem C34_get {A} (l : list A) i x :
  logos_get l i = Some x <-> exists before after, l = before ++ x :: after /\ addresses (length l) i (length before).
Proof.
  unfold logos_get. split.
  - destruct (resolve_logos_index i (length l)) as [k|] eqn:E; [|discriminate]. apply resolve_iff in E. intros H.
    exists (take k l), (drop (S k) l). split; [symmetry; now apply take_drop_middle|]. rewrite take_length. destruct E as [? E]. now rewrite Nat.min_l by lia.
  - intros (b & a & E & H). rewrite (proj2 (resolve_iff _ _ _) H). subst l. now apply list_lookup_middle.
Qed.

(** Valid indices are the whole numbers from [1] to the length and from [-1] to minus the
    length; zero is never valid. *)
Theorem C34_range {A} (l : list A) i :
  is_Some (logos_get l i) <-> 1 <= i <= Z.of_nat (length l) \/ - Z.of_nat (length l) <= i <= -1.
Proof.
  unfold logos_get. destruct (resolve_logos_index i (length l)) as [k|] eqn:E.
  - apply resolve_iff in E as [Hk E]. rewrite lookup_lt_is_Some. lia.
  - split; [now intros [? [=]]|]. intros H.
    assert (X : exists k, addresses (length l) i k).
    { destruct H; [exists (Z.to_nat (i - 1))|exists (Z.to_nat (Z.of_nat (length l) + i))]; unfold addresses; lia. }
    destruct X as [k X]. apply resolve_iff in X. congruence.
Qed.

(** Writing replaces exactly the element that reading the same index gives, and panics for the
    same indices. *)
Theorem C34_set {A} (l : list A) i v l' :
  logos_set l i v = Some l' <->
  exists before x after, l = before ++ x :: after /\ addresses (length l) i (length before) /\ l' = before ++ v :: after.
Proof.
  unfold logos_set. split.
  - destruct (resolve_logos_index i (length l)) as [k|] eqn:E; [|discriminate]. apply resolve_iff in E as [Hk E]. intros [= <-].
    destruct (lookup_lt_is_Some_2 l k Hk) as [x Hx]. exists (take k l), x, (drop (S k) l).
    split; [symmetry; now apply take_drop_middle|]. rewrite take_length, Nat.min_l by lia. split; [done|].
    now apply insert_take_drop.
  - intros (b & x & a & E & H & ->). rewrite (proj2 (resolve_iff _ _ _) H). subst l. f_equal. rewrite insert_app_r_alt by lia. now rewrite Nat.sub_diag.
Qed.
Theorem C34_set_then_get {A} (l : list A) i j v l' : logos_set l i v = Some l' ->
  logos_get l' i = Some v /\
  ((forall k, addresses (length l) i k -> ~ addresses (length l) j k) -> logos_get l' j = logos_get l j).
Proof.
  unfold logos_set, logos_get. destruct (resolve_logos_index i (length l)) as [k|] eqn:E; [|discriminate]. intros [= <-].
  rewrite insert_length, E. apply resolve_iff in E. split; [apply list_lookup_insert; apply E|]. intros N.
  destruct (resolve_logos_index j (length l)) as [k'|] eqn:E'; [|done]. apply resolve_iff in E'.
  apply list_lookup_insert_ne. intros <-. exact (N k E E').
Qed.

(** Text: the unit is the character, as long as the characters before it are ASCII, ... *)
Lemma lookup_ascii_prefix p q : Forall (fun c => 0 <= c < 128) p -> bytes (p ++ q) = p ++ bytes q.
Proof.
  induction 1 as [|c p Hc Hp IH]; [done|]. cbn [app]. rewrite bytes_cons, utf8_ascii by lia. cbn. now rewrite IH.
Qed.
Lemma bytes_head c q b : is_char c -> bytes (c :: q) !! 0%nat = Some b -> b < 128 -> b = c.
Proof.
  intros Hc H Hb. rewrite bytes_cons in H. destruct (Z.lt_ge_cases c 128).
  - rewrite utf8_ascii in H by done. cbn in H. congruence.
  - destruct (utf8_other c Hc) as [L F]; [done|]. destruct (utf8 c) as [|b' bs]; [cbn in L; lia|]. cbn in H. injection H as ->.
    inversion F. lia.
Qed.
Definition text_spec (t : list Z) (i : Z) (c : Z) : Prop :=
  exists before after, t = before ++ c :: after /\ addresses (length t) i (length before).

Lemma text_get_ascii_front p q i k : is_text (p ++ q) -> Forall (fun c => 0 <= c < 128) p -> (k <= length p)%nat ->
  (forall x, addresses (length (p ++ q)) i x -> x = k) ->
  (1 <= i -> Z.to_nat (i - 1) = k) ->
  forall c, text_get (p ++ q) i = Some c <-> text_spec (p ++ q) i c.
Proof.
  intros T F Hk U Hp c.
  assert (Main : match bytes (p ++ q) !! k with Some b => if b <? 128 then Some b else (p ++ q) !! k | None => (p ++ q) !! k end = (p ++ q) !! k).
  { rewrite lookup_ascii_prefix by done. destruct (decide (k < length p)%nat) as [L|L].
    - rewrite !lookup_app_l by done. destruct (p !! k) as [b|] eqn:E; [|now apply lookup_ge_None in E; lia].
      rewrite Forall_lookup in F. specialize (F _ _ E). now rewrite (proj2 (Z.ltb_lt _ _)) by lia.
    - assert (k = length p) as -> by lia. rewrite !lookup_app_r by lia. rewrite Nat.sub_diag. destruct q as [|d q]; [done|].
      destruct (bytes (d :: q) !! 0%nat) as [b|] eqn:E; [|done]. destruct (Z.ltb_spec b 128); [|done].
      apply Forall_app in T as [_ T]. inversion T; subst. change ((d :: q) !! 0%nat) with (Some d). f_equal. apply (bytes_head d q b); assumption. }
  unfold text_get. assert (R : (if 1 <=? i then Some (Z.to_nat (i - 1)) else resolve_logos_index i (length (p ++ q))) =
            if 1 <=? i then Some k else resolve_logos_index i (length (p ++ q))).
  { destruct (Z.leb_spec 1 i); [|done]. now rewrite Hp. }
  rewrite R. clear R. destruct (Z.leb_spec 1 i) as [H|H].
  - rewrite Main. split.
    + intros E. exists (take k (p ++ q)), (drop (S k) (p ++ q)). split; [symmetry; now apply take_drop_middle|].
      apply lookup_lt_Some in E. rewrite take_length, Nat.min_l by lia. specialize (Hp H). unfold addresses. lia.
    + intros (b & a & E & Ha). assert (X : length b = k) by (apply U, Ha). rewrite E, <- X. now apply list_lookup_middle.
  - destruct (resolve_logos_index i (length (p ++ q))) as [x|] eqn:E.
    + apply resolve_iff in E. pose proof (U _ E) as ->. rewrite Main. split.
      * intros E'. exists (take k (p ++ q)), (drop (S k) (p ++ q)). split; [symmetry; now apply take_drop_middle|].
        pose proof (lookup_lt_Some _ _ _ E'). rewrite take_length, Nat.min_l by lia. done.
      * intros (b & a & E' & Ha). assert (X : length b = k) by (apply U, Ha). rewrite E', <- X. now apply list_lookup_middle.
    + split; [discriminate|]. intros (b & a & _ & Ha). apply resolve_iff in Ha. congruence.
Qed.

Lemma addresses_unique n i x y : addresses n i x -> addresses n i y -> x = y.
Proof. unfold addresses. lia. Qed.

(** The property for text, full statement:
    [forall t i c, is_text t -> text_get t i = Some c <-> text_spec t i c].
    It is false (below). What holds: all texts of ASCII characters, and in other texts all
    indices up to and including the first character that is not ASCII. *)
Theorem C34_text_partial p q i c : is_text (p ++ q) -> Forall (fun c => 0 <= c < 128) p -> q = [] \/ (exists k, (k <= length p)%nat /\ addresses (length (p ++ q)) i k) ->
  text_get (p ++ q) i = Some c <-> text_spec (p ++ q) i c.
Proof.
  intros T F [->|(k & Hk & Ha)].
  - rewrite app_nil_r in *. assert (D : (exists k, addresses (length p) i k) \/ ~ exists k, addresses (length p) i k).
    { destruct (resolve_logos_index i (length p)) as [k|] eqn:R; [left; exists k; now apply resolve_iff|right]. intros [k Hk]. apply resolve_iff in Hk. congruence. }
    destruct D as [(k & Ha)|N].
    + rewrite <- (app_nil_r p). apply (text_get_ascii_front p [] i k); rewrite ?app_nil_r; try done.
      * destruct Ha. lia.
      * intros x Hx. eapply addresses_unique; eassumption.
      * intros H. destruct Ha as [? [?|?]]; lia.
    + split.
      * intros E. exfalso. unfold text_get in E. destruct (Z.leb_spec 1 i).
        -- assert (G : (length p <= Z.to_nat (i - 1))%nat).
           { destruct (decide (length p <= Z.to_nat (i - 1))%nat); [done|]. exfalso. apply N. exists (Z.to_nat (i - 1)). unfold addresses. lia. }
           assert (B : bytes p = p) by (rewrite <- (app_nil_r p) at 1; rewrite lookup_ascii_prefix by done; cbn; apply app_nil_r).
           rewrite B in E. rewrite (proj2 (lookup_ge_None p _) G) in E. discriminate.
        -- destruct (resolve_logos_index i (length p)) eqn:R; [|discriminate]. apply resolve_iff in R. eauto.
      * intros (b & a & _ & Ha). exfalso. eauto.
  - apply (text_get_ascii_front p q i k); try done.
    + intros x Hx. eapply addresses_unique; eassumption.
    + intros H. destruct Ha as [? [?|?]]; lia.
Qed.

(** ... but after a multi-byte character the byte position is mistaken for the character
    position: "éab" has third character 'b', and index 3 gives 'a'; index 4 is out of range
    and gives 'b'; index -1 gives 'a'. *)
Theorem C34_text_refuted : exists t i c d, is_text t /\ text_get t i = Some c /\ text_spec t i d /\ c <> d.
Proof.
  exists [233; 97; 98], 3, 97, 98. split; [repeat constructor; unfold is_char; lia|]. split; [reflexivity|].
  split; [|lia]. exists [233; 97], []. split; [done|]. unfold addresses. cbn. lia.
Qed.
Theorem C34_text_range_refuted : exists t i c, is_text t /\ text_get t i = Some c /\ Z.of_nat (length t) < i.
Proof. exists [233; 97; 98], 4, 98. split; [repeat constructor; unfold is_char; lia|]. split; [reflexivity|]. cbn. lia. Qed.
Theorem C34_text_from_end_refuted : exists t c d, is_text t /\ text_get t (-1) = Some c /\ text_spec t (-1) d /\ c <> d.
Proof.
  exists [233; 97; 98], 97, 98. split; [repeat constructor; unfold is_char; lia|]. split; [reflexivity|].
  split; [|lia]. exists [233; 97], []. split; [done|]. unfold addresses. cbn. lia.
Qed.

(** Maps: reading a key gives the value last written under it and panics for other keys. *)
Theorem C34_map {K V} `{Countable K} (m : gmap K V) k k' v :
  map_get (map_set m k v) k = Some v /\ (k <> k' -> map_get (map_set m k v) k' = map_get m k').
Proof. unfold map_get, map_set. split; [apply lookup_insert|apply lookup_insert_ne]. Qed.

Example C34_example :
  logos_get [10; 20; 30] 1 = Some 10 /\ logos_get [10; 20; 30] (-1) = Some 30 /\ logos_get [10; 20; 30] 0 = None /\ logos_get [10; 20; 30] 4 = None /\
  logos_set [10; 20; 30] (-2) 5 = Some [10; 5; 30] /\ addresses 3 (-2) 1 /\
  text_get [72; 105; 233; 33] 3 = Some 233 /\ is_text [72; 105; 233; 33].
Proof. unfold addresses. repeat (split; [first [reflexivity|cbn; lia]|]). repeat constructor; unfold is_char; lia. Qed.

Print Assumptions C34_get.
Print Assumptions C34_range.
Print Assumptions C34_set.
Print Assumptions C34_set_then_get.
Print Assumptions C34_text_partial.
Print Assumptions C34_text_refuted.
Print Assumptions C34_map.
