(** Support for the integer-column properties: how long a decoded column can be, and that its
    values are [i64] values. *)
From Coq Require Import ZArith List Lia.
From stdpp Require Import list.
From Verif Require Import MachInt WireModel WireProofs WireProps IntColModel IntColProofs IntColRound IntColRound2 IntColRound3 IntColBound IntColLocal.
Open Scope Z_scope.

(** ** Lengths *)
Lemma geo_expand_length r n : forall c, length (geo_expand c r n) = n.
Proof. induction n as [|n IH]; intros c; cbn [geo_expand length]; [reflexivity|]. now rewrite IH. Qed.
Lemma read_n_length {A} (rd : list Z -> option (A * list Z)) n : forall bs v r, read_n rd n bs = Some (v, r) -> length v = n.
Proof.
  induction n as [|n IH]; intros bs v r H; cbn [read_n] in H; [now injection H as <- <-|].
  destruct (rd bs) as [[x b1]|]; [|discriminate]. cbn [mbind option_bind] in H.
  destruct (read_n rd n b1) as [[xs b2]|] eqn:E; [|discriminate]. cbn [mbind option_bind] in H. injection H as <- <-. cbn [length]. f_equal. eapply IH, E.
Qed.
Lemma uvarint_shrinks bs v r : read_uvarint bs = Some (v, r) -> (length r < length bs)%nat.
Proof.
  unfold read_uvarint. generalize 0 at 1. generalize 0 at 1.
  induction bs as [|b bs IH]; intros s res H; cbn [read_uvarint_loop] in H; [discriminate|]. cbn [length].
  repeat match type of H with context [if ?c then _ else _] => destruct c end;
    first [discriminate | injection H as <- <-; lia | apply IH in H; lia].
Qed.
Lemma zz_shrinks bs v r : read_zz bs = Some (v, r) -> (length r < length bs)%nat.
Proof. unfold read_zz. destruct (read_uvarint bs) as [[u b]|] eqn:E; [|discriminate]. cbn [mbind option_bind]. intros [= <- <-]. eapply uvarint_shrinks, E. Qed.
Lemma delta_length n : forall cur bs v r, delta_read n cur bs = Some (v, r) -> length v = n /\ (n + length r <= length bs)%nat.
Proof.
  induction n as [|n IH]; intros cur bs v r H; cbn [delta_read] in H; [injection H as <- <-; cbn; lia|].
  destruct (read_zz bs) as [[d b1]|] eqn:Z1; [|discriminate]. cbn [mbind option_bind] in H. cbv zeta in H.
  destruct (delta_read n _ b1) as [[xs b2]|] eqn:E; [|discriminate]. cbn [mbind option_bind] in H. injection H as <- <-.
  destruct (IH _ _ _ _ E). apply zz_shrinks in Z1. cbn [length]. lia.
Qed.
Lemma dod_length n : forall a d bs v r, dod_read n a d bs = Some (v, r) -> length v = n /\ (n + length r <= length bs)%nat.
Proof.
  induction n as [|n IH]; intros a d bs v r H; cbn [dod_read] in H; [injection H as <- <-; cbn; lia|].
  destruct (read_zz bs) as [[d0 b1]|] eqn:Z1; [|discriminate]. cbn [mbind option_bind] in H. cbv zeta in H.
  destruct (dod_read n _ _ b1) as [[xs b2]|] eqn:E; [|discriminate]. cbn [mbind option_bind] in H. injection H as <- <-.
  destruct (IH _ _ _ _ _ E). apply zz_shrinks in Z1. cbn [length]. lia.
Qed.
Lemma sparse_length n : forall i w bs v r, sparse_read n i w bs = Some (v, r) -> length v = length w.
Proof.
  induction n as [|n IH]; intros i w bs v r H; cbn [sparse_read] in H; [now injection H as <- <-|].
  destruct (read_uvarint bs) as [[d b1]|]; [|discriminate]. cbn [mbind option_bind] in H. cbv zeta in H.
  destruct (two64 <=? _); [discriminate|]. destruct (read_zz b1) as [[x b2]|]; [|discriminate]. cbn [mbind option_bind] in H.
  destruct (_ <? len w); [|discriminate]. apply IH in H. now rewrite insert_length in H.
Qed.
Lemma rle_length n : forall w bs v r, len w <= 2 ^ 28 -> rle_read n w bs = Some (v, r) -> len v <= 2 ^ 28.
Proof.
  induction n as [|n IH]; intros w bs v r L H; cbn [rle_read] in H; [now injection H as <- <-|].
  destruct (read_zz bs) as [[x b1]|]; [|discriminate]. cbn [mbind option_bind] in H.
  destruct (read_uvarint b1) as [[k b2]|] eqn:U; [|discriminate]. cbn [mbind option_bind] in H.
  destruct (Z.ltb_spec RLE_MAX_TOTAL (len w + k)) as [G|G]; [discriminate|]. apply IH in H; [exact H|].
  unfold len in *. rewrite app_length, repeat_length. unfold RLE_MAX_TOTAL in G. lia.
Qed.
Lemma poly_length n : forall ds, ds <> [] -> length (reconstruct_poly ds n) = n.
Proof.
  induction n as [|n IH]; intros ds N; [reflexivity|]. destruct ds as [|a ds]; [congruence|].
  cbn [reconstruct_poly length]. f_equal. apply IH. destruct ds; cbn; congruence.
Qed.
Lemma replay_length c n : forall rec, length (replay c rec n) = n.
Proof. induction n as [|n IH]; intros rec; cbn [replay length]; [reflexivity|]. cbv zeta. cbn [length]. now rewrite IH. Qed.
Lemma recur_length c s n : (length c <= length s)%nat -> length (reconstruct_recurrence c s n) = n.
Proof.
  intros L. unfold reconstruct_recurrence. destruct (Nat.ltb_spec (length s) (length c)); [lia|]. cbv zeta.
  rewrite app_length, replay_length, take_length. lia.
Qed.
Lemma shift_length t n : forall rec, length (shift_out t rec n) = n.
Proof. induction n as [|n IH]; intros rec; cbn [shift_out length]; [reflexivity|]. cbv zeta. cbn [length]. now rewrite IH. Qed.
Lemma lfsr_length t s n : length s = length t -> (length t <= n)%nat -> length (lfsr_generate t s n) = n.
Proof. intros L K. unfold lfsr_generate. cbv zeta. rewrite app_length, shift_length, take_length. lia. Qed.
Lemma fcsr_length q n : forall r, length (fcsr_generate r q n) = n.
Proof. induction n as [|n IH]; intros r; cbn [fcsr_generate length]; [reflexivity|]. cbv zeta. cbn [length]. now rewrite IH. Qed.
Lemma chunks8_length fuel : forall bits n, length bits = (8 * n)%nat -> (length bits <= fuel)%nat -> length (chunks8 fuel bits) = n.
Proof.
  induction fuel as [|fuel IH]; intros bits n L F.
  - cbn. lia.
  - destruct bits as [|b bits]; [cbn in *; lia|]. cbn [chunks8 length]. destruct n as [|n]; [cbn in L; lia|]. f_equal.
    apply IH; rewrite drop_length; lia.
Qed.
Lemma bits_to_bytes_length bits n : length bits = (8 * n)%nat -> length (bits_to_bytes bits) = n.
Proof. intros L. unfold bits_to_bytes. rewrite map_length. now apply chunks8_length. Qed.
Lemma unpack_length bytes w n : forall p, length (unpack_values n bytes w p) = n.
Proof.
  induction n as [|n IH]; intros p; cbn [unpack_values]; [reflexivity|]. destruct (unpack_bits _ _ _ _ _ _). cbn [length]. now rewrite IH.
Qed.
Lemma bitunpack_length bytes n w vs : bitunpack bytes n w = Some vs -> length vs = Z.to_nat n /\ 1 <= w <= 64 \/ w < 0.
Proof.
  unfold bitunpack. destruct (Z.eqb_spec w 0) as [|N]; [discriminate|]. destruct (Z.ltb_spec 64 w); [discriminate|]. cbn [orb]. cbv zeta.
  destruct (two64 <=? _); [discriminate|]. destruct (len bytes <? _); [discriminate|]. intros [= <-]. rewrite unpack_length.
  destruct (Z.ltb_spec w 0); [right; lia|left; lia].
Qed.
Lemma bounded_spec n max k : bounded n max = Some k -> k = Z.to_nat n /\ n <= max.
Proof. unfold bounded. destruct (Z.leb_spec n max); [|discriminate]. intros [= <-]. now split. Qed.

(** The readers' results lie in the machine ranges. *)
Lemma uvarint_range bs v r : read_uvarint bs = Some (v, r) -> is_u64 v.
Proof.
  unfold read_uvarint. generalize 0 at 2. assert (R0 : is_u64 0) by (split; reflexivity || lia). revert R0. generalize 0 at 1 2.
  induction bs as [|b bs IH]; intros res R0 s H; cbn [read_uvarint_loop] in H; [discriminate|].
  destruct (64 <=? s); [discriminate|]. cbv zeta in H.
  assert (R1 : is_u64 (Z.lor res (wrap64 (Z.shiftl (Z.land b 127) s)))) by (apply lor_u64; [exact R0|apply wrap64_range]).
  destruct (Z.land b 128 =? 0); [injection H as <- <-; exact R1|]. eapply IH; [exact R1|exact H].
Qed.
Lemma zz_range bs v r : read_zz bs = Some (v, r) -> is_i64 v.
Proof.
  unfold read_zz. destruct (read_uvarint bs) as [[u b]|] eqn:E; [|discriminate]. cbn [mbind option_bind]. intros [= <- <-].
  eapply unzigzag_range, uvarint_range, E.
Qed.
Lemma read_n_zz_range n : forall bs v r, read_n read_zz n bs = Some (v, r) -> i64s v.
Proof.
  induction n as [|n IH]; intros bs v r H; cbn [read_n] in H; [injection H as <- <-; constructor|].
  destruct (read_zz bs) as [[x b1]|] eqn:E1; [|discriminate]. cbn [mbind option_bind] in H.
  destruct (read_n read_zz n b1) as [[xs b2]|] eqn:E; [|discriminate]. cbn [mbind option_bind] in H. injection H as <- <-.
  constructor; [eapply zz_range, E1|eapply IH, E].
Qed.
Lemma read_n_uv_range n : forall bs v r, read_n read_uvarint n bs = Some (v, r) -> Forall is_u64 v.
Proof.
  induction n as [|n IH]; intros bs v r H; cbn [read_n] in H; [injection H as <- <-; constructor|].
  destruct (read_uvarint bs) as [[x b1]|] eqn:E1; [|discriminate]. cbn [mbind option_bind] in H.
  destruct (read_n read_uvarint n b1) as [[xs b2]|] eqn:E; [|discriminate]. cbn [mbind option_bind] in H. injection H as <- <-.
  constructor; [eapply uvarint_range, E1|eapply IH, E].
Qed.
Lemma read_n_shrinks {A} (rd : list Z -> option (A * list Z)) : (forall bs v r, rd bs = Some (v, r) -> (length r < length bs)%nat) ->
  forall n bs v r, read_n rd n bs = Some (v, r) -> (n + length r <= length bs)%nat.
Proof.
  intros R. induction n as [|n IH]; intros bs v r H; cbn [read_n] in H; [injection H as <- <-; lia|].
  destruct (rd bs) as [[x b1]|] eqn:E1; [|discriminate]. cbn [mbind option_bind] in H.
  destruct (read_n rd n b1) as [[xs b2]|] eqn:E; [|discriminate]. cbn [mbind option_bind] in H. injection H as <- <-.
  apply R in E1. apply IH in E. lia.
Qed.
Lemma take_bytes_spec n bs v r : take_bytes n bs = Some (v, r) -> bs = v ++ r /\ length v = Z.to_nat n.
Proof.
  unfold take_bytes. destruct (Z.ltb_spec (len bs) n) as [|L]; [discriminate|]. intros [= <- <-]. split; [now rewrite take_drop|].
  unfold len in L. rewrite take_length. lia.
Qed.

(** One case of the decoder. *)
Ltac step_in H :=
  match type of H with
  | mbind _ (?f) = Some _ => let E := fresh "E" in destruct f as [?p|] eqn:E; [|discriminate H]; cbn [mbind option_bind] in H
  | (match ?p with (_, _) => _ end) = Some _ => is_var p; destruct p as [? ?]
  | (if ?c then None else _) = Some _ => let E := fresh "C" in destruct c eqn:E; [discriminate H|]
  | (if ?c then _ else None) = Some _ => let E := fresh "C" in destruct c eqn:E; [|discriminate H]
  | (if ?c then _ else _) = Some _ => let E := fresh "C" in destruct c eqn:E
  end.

(** The wire column kinds whose element count the caller's cap covers. *)
Definition capped (tag : Z) : Prop := ~ In tag [T_BYTES; T_INTS_DELTA; T_INTS_DOD; T_INTS_FOR; T_INTS_RLE; T_INTS_DICT].
Lemma decode_capped levels tag max bs v r : decode_body levels tag max bs = Some (v, r) -> capped tag -> 0 <= max -> len v <= max.
Proof.
  intros H C M.
  assert (NB : forall n k, bounded n max = Some k -> Z.of_nat k <= max) by (intros n k B; apply bounded_spec in B as [-> B]; lia).
  destruct levels as [|levels]; cbn [decode_body] in H; cbv zeta in H.
  all: repeat match type of H with (if ?a =? ?t then _ else _) = _ => is_var a; destruct (Z.eqb_spec a t) as [->|?] end;
    try discriminate; try (exfalso; apply C; cbn; tauto).
  all: repeat step_in H; try discriminate; try (injection H as <- <-); unfold len.
  all: rewrite ?map_length, ?expand_length, ?geo_expand_length; try (eapply NB; eassumption).
  all: try (match goal with E : read_n read_uvarint _ _ = Some _ |- _ => apply read_n_length in E; rewrite E; eapply NB; eassumption end).
  all: try (apply sparse_length in H; rewrite H, repeat_length; eapply NB; eassumption).
  all: try (rewrite poly_length; [eapply NB; eassumption|match goal with E : read_n _ (S _) _ = Some (?l, _) |- _ => apply read_n_length in E; destruct l; cbn in E; congruence end]).
  all: try (rewrite recur_length; [eapply NB; eassumption|repeat match goal with E : read_n _ _ _ = Some _ |- _ => apply read_n_length in E end; lia]).
  all: try (rewrite (bits_to_bytes_length _ p); [eapply NB; eassumption|rewrite fcsr_length; lia]).
  all: rewrite (bits_to_bytes_length _ p); [eapply NB; eassumption|].
  all: repeat match goal with E : bitunpack _ _ 1 = Some _ |- _ => apply bitunpack_length in E as [[E _]|E]; [|lia] end.
  all: match goal with E : read_uvarint _ = Some (?z, _), F : (_ <? ?z) = false |- _ => apply Z.ltb_ge in F; apply uvarint_range in E; destruct E as [E _] end.
  all: rewrite lfsr_length; rewrite ?map_length; lia.
Qed.
Lemma decode_inline levels tag max bs v r : decode_body levels tag max bs = Some (v, r) -> In tag [T_BYTES; T_INTS_DELTA; T_INTS_DOD] ->
  (length v + length r <= length bs)%nat.
Proof.
  intros H [<-|[<-|[<-|[]]]]; (destruct levels as [|levels]; cbn [decode_body] in H; cbv zeta in H;
    repeat match type of H with (if ?a =? ?t then _ else _) = _ => let r := eval compute in (a =? t) in change (a =? t) with r in H; cbv iota in H end).
  all: repeat step_in H; try discriminate; try (injection H as <- <-); try (apply take_bytes_spec in H as [-> H]; rewrite ?app_length in *).
  all: repeat match goal with
    | E : read_uvarint _ = Some _ |- _ => apply uvarint_shrinks in E
    | E : read_zz _ = Some _ |- _ => apply zz_shrinks in E
    | E : delta_read _ _ _ = Some _ |- _ => apply delta_length in E as [? ?]
    | E : dod_read _ _ _ _ = Some _ |- _ => apply dod_length in E as [? ?]
    end; rewrite ?app_length in *; cbn [length] in *; try lia.
Qed.
Lemma decode_runs levels max bs v r : decode_body levels T_INTS_RLE max bs = Some (v, r) -> len v <= 2 ^ 28.
Proof.
  intros H. destruct levels as [|levels]; cbn [decode_body] in H; cbv zeta in H;
    repeat match type of H with (if ?a =? ?t then _ else _) = _ => let r := eval compute in (a =? t) in change (a =? t) with r in H; cbv iota in H end.
  all: repeat step_in H; apply rle_length in H; [exact H|unfold len; cbn; lia].
Qed.
Lemma packed_count n w (bytes : list Z) : 0 <= n -> 1 <= w -> len bytes = Z.of_nat (Z.to_nat ((n * w + 7) / 8)) -> n <= 8 * len bytes.
Proof.
  intros N W L. assert (0 <= (n * w + 7) / 8) by (apply Z.div_pos; nia). rewrite Z2Nat.id in L by assumption.
  pose proof (Z.div_mod (n * w + 7) 8 ltac:(lia)). pose proof (Z.mod_pos_bound (n * w + 7) 8 ltac:(lia)). nia.
Qed.
Lemma mapM_length_o {A B} (f : A -> option B) l : forall k, mapM f l = Some k -> length k = length l.
Proof. intros k H. apply mapM_Some in H. symmetry. apply (Forall2_length _ _ _ H). Qed.
Lemma decode_packed levels tag max bs v r : decode_body levels tag max bs = Some (v, r) -> In tag [T_INTS_FOR; T_INTS_DICT] -> Forall is_byte bs ->
  len v <= 8 * len bs \/ exists x, v = repeat x (length v).
Proof.
  intros H [<-|[<-|[]]] FB; (destruct levels as [|levels]; cbn [decode_body] in H; cbv zeta in H;
    repeat match type of H with (if ?a =? ?t then _ else _) = _ => let r := eval compute in (a =? t) in change (a =? t) with r in H; cbv iota in H end).
  all: repeat step_in H; try discriminate; try (injection H as <- <-).
  all: try (right; eexists; rewrite repeat_length; reflexivity).
  all: try (left; unfold len; cbn; lia).
  all: left.
  all: match goal with E : read_n read_zz _ _ = Some _ |- _ => pose proof (read_n_shrinks _ zz_shrinks _ _ _ _ E) | _ => idtac end.
  all: repeat match goal with
    | E : read_uvarint ?b = Some (_, ?r), F : Forall is_byte ?b |- _ =>
        lazymatch goal with K : Forall is_byte r |- _ => fail | _ =>
          assert (Forall is_byte r) by (destruct (local_uvarint _ _ _ E) as (? & -> & _); apply Forall_app in F; tauto);
          pose proof (uvarint_shrinks _ _ _ E); pose proof (proj1 (uvarint_range _ _ _ E)) end
    | E : read_zz ?b = Some (_, ?r), F : Forall is_byte ?b |- _ =>
        lazymatch goal with K : Forall is_byte r |- _ => fail | _ =>
          assert (Forall is_byte r) by (destruct (local_zz _ _ _ E) as (? & -> & _); apply Forall_app in F; tauto);
          pose proof (zz_shrinks _ _ _ E) end
    | E : read_n read_zz ?n ?b = Some (_, ?r), F : Forall is_byte ?b |- _ =>
        lazymatch goal with K : Forall is_byte r |- _ => fail | _ =>
          assert (Forall is_byte r) by (destruct (local_read_n _ _ local_zz _ _ _ E) as (? & -> & _); apply Forall_app in F; tauto) end
    | E : read_byte ?b = Some (_, ?r), F : Forall is_byte ?b |- _ =>
        destruct b as [|? ?]; [discriminate E|]; cbn [read_byte] in E; injection E as -> ->; inversion F; subst; clear F
    | E : take_bytes _ _ = Some _ |- _ => apply take_bytes_spec in E as [-> E]
    | E : bitunpack _ _ _ = Some _ |- _ => apply bitunpack_length in E
    | E : mapM _ _ = Some _ |- _ => apply mapM_length_o in E
    | E : (_ =? 0) = false |- _ => apply Z.eqb_neq in E
    end.
  all: unfold is_byte in *; rewrite ?app_length in *; cbn [length] in *.
  all: match goal with E : length ?b = Z.to_nat ((?n * ?w + 7) / 8) |- _ =>
    pose proof (packed_count n w b ltac:(lia) ltac:(lia) ltac:(unfold len; lia)) end.
  all: unfold len in *; rewrite ?map_length in *; rewrite ?app_length in *; lia.
Qed.

(** ** Values *)
Lemma expand_i64 f n : (forall i, is_i64 (f i)) -> forall i, i64s (expand f i n).
Proof. intros F. induction n as [|n IH]; intros i; cbn [expand]; constructor; [apply F|apply IH]. Qed.
Lemma geo_expand_i64 r n : forall c, is_i64 c -> i64s (geo_expand c r n).
Proof. induction n as [|n IH]; intros c C; cbn [geo_expand]; constructor; [exact C|]. apply IH, wrap_i64_range. Qed.
Lemma repeat_i64 x n : is_i64 x -> i64s (repeat x n).
Proof. intros X. induction n; cbn [repeat]; constructor; assumption. Qed.
Lemma wrap_map_i64 {A} (f : A -> Z) (l : list A) : (forall a, is_i64 (f a)) -> i64s (map f l).
Proof. intros F. induction l; cbn [map]; constructor; [apply F|assumption]. Qed.
Lemma poly_i64 n : forall ds, i64s ds -> ds <> [] -> i64s (reconstruct_poly ds n).
Proof.
  assert (ES : forall ds, i64s ds -> i64s (engine_step ds)).
  { induction ds as [|a ds IH]; intros H; [constructor|]. inversion H; subst. destruct ds as [|b ds]; [exact H|].
    change (engine_step (a :: b :: ds)) with (wrap_i64 (a + b) :: engine_step (b :: ds)). constructor; [apply wrap_i64_range|]. apply IH. assumption. }
  induction n as [|n IH]; intros ds H N; [constructor|]. destruct ds as [|a ds]; [congruence|]. cbn [reconstruct_poly]. constructor.
  - now inversion H.
  - apply IH; [apply ES, H|destruct ds; cbn; congruence].
Qed.
Lemma dot_i64 c : forall acc rec, is_i64 acc -> is_i64 (dot acc c rec).
Proof. induction c as [|x c IH]; intros acc rec A; cbn [dot]; [exact A|]. destruct rec; [exact A|]. apply IH, wrap_i64_range. Qed.
Lemma i64_0 : is_i64 0. Proof. split; reflexivity || (cbn; lia). Qed.
Lemma replay_i64 c n : forall rec, i64s (replay c rec n).
Proof. induction n as [|n IH]; intros rec; cbn [replay]; [constructor|]. cbv zeta. constructor; [apply dot_i64, i64_0|apply IH]. Qed.
Lemma recur_i64 c s n : i64s s -> i64s (reconstruct_recurrence c s n).
Proof.
  intros H. unfold reconstruct_recurrence. destruct (_ <? _)%nat; [now apply Forall_take|]. cbv zeta. apply Forall_app. split; [now apply Forall_take|apply replay_i64].
Qed.
Lemma byte_i64 b : is_byte b -> is_i64 b.
Proof. unfold is_byte, is_i64. change (2 ^ 63) with 9223372036854775808. lia. Qed.
Lemma byte_of_bits_bound l : 0 <= byte_of_bits l < 2 ^ len l.
Proof.
  unfold byte_of_bits, len. induction l as [|b l IH]; [cbn; lia|]. cbn [fold_right length]. rewrite Nat2Z.inj_succ, Z.pow_succ_r by lia. destruct b; cbn [Z.b2z]; lia.
Qed.
Lemma chunks8_small fuel : forall bits, Forall (fun c => (length c <= 8)%nat) (chunks8 fuel bits).
Proof.
  induction fuel as [|fuel IH]; intros bits; [constructor|]. destruct bits as [|b bits]; [constructor|].
  change (chunks8 (S fuel) (b :: bits)) with (take 8 (b :: bits) :: chunks8 fuel (drop 8 (b :: bits))). constructor; [rewrite take_length; lia|apply IH].
Qed.
Lemma bits_to_bytes_bytes bits : Forall is_byte (bits_to_bytes bits).
Proof.
  unfold bits_to_bytes. apply List.Forall_map. eapply Forall_impl; [apply chunks8_small|]. intros c L. cbv beta in L. unfold is_byte.
  pose proof (byte_of_bits_bound c). assert (2 ^ len c <= 2 ^ 8) by (apply Z.pow_le_mono_r; unfold len; lia). change (2 ^ 8) with 256 in *. lia.
Qed.
Lemma delta_i64 n : forall cur bs v r, delta_read n cur bs = Some (v, r) -> i64s v.
Proof.
  induction n as [|n IH]; intros cur bs v r H; cbn [delta_read] in H; [injection H as <- <-; constructor|].
  destruct (read_zz bs) as [[d b1]|] eqn:Z1; [|discriminate]. cbn [mbind option_bind] in H. cbv zeta in H.
  destruct (delta_read n _ b1) as [[xs b2]|] eqn:E; [|discriminate]. cbn [mbind option_bind] in H. injection H as <- <-.
  constructor; [apply wrap_i64_range|eapply IH, E].
Qed.
Lemma dod_i64 n : forall a d bs v r, dod_read n a d bs = Some (v, r) -> i64s v.
Proof.
  induction n as [|n IH]; intros a d bs v r H; cbn [dod_read] in H; [injection H as <- <-; constructor|].
  destruct (read_zz bs) as [[d0 b1]|] eqn:Z1; [|discriminate]. cbn [mbind option_bind] in H. cbv zeta in H.
  destruct (dod_read n _ _ b1) as [[xs b2]|] eqn:E; [|discriminate]. cbn [mbind option_bind] in H. injection H as <- <-.
  constructor; [apply wrap_i64_range|eapply IH, E].
Qed.
Lemma sparse_i64 n : forall i w bs v r, i64s w -> sparse_read n i w bs = Some (v, r) -> i64s v.
Proof.
  induction n as [|n IH]; intros i w bs v r W H; cbn [sparse_read] in H; [now injection H as <- <-|].
  destruct (read_uvarint bs) as [[d b1]|]; [|discriminate]. cbn [mbind option_bind] in H. cbv zeta in H.
  destruct (two64 <=? _); [discriminate|]. destruct (read_zz b1) as [[x b2]|] eqn:X; [|discriminate]. cbn [mbind option_bind] in H.
  destruct (_ <? len w); [|discriminate]. eapply IH; [|exact H]. apply Forall_insert; [exact W|eapply zz_range, X].
Qed.
Lemma rle_i64 n : forall w bs v r, i64s w -> rle_read n w bs = Some (v, r) -> i64s v.
Proof.
  induction n as [|n IH]; intros w bs v r W H; cbn [rle_read] in H; [now injection H as <- <-|].
  destruct (read_zz bs) as [[x b1]|] eqn:X; [|discriminate]. cbn [mbind option_bind] in H.
  destruct (read_uvarint b1) as [[k b2]|]; [|discriminate]. cbn [mbind option_bind] in H.
  destruct (_ <? _); [discriminate|]. eapply IH; [|exact H]. apply Forall_app. split; [exact W|]. apply repeat_i64. eapply zz_range, X.
Qed.
Lemma gen_eval_i64 e i : gen_consts e -> is_i64 i -> is_i64 (gen_eval e i).
Proof.
  intros C I. induction e as [|c|op a IHa b IHb|op l IHl r IHr t IHt f IHf]; cbn [gen_consts] in C; cbn [gen_eval].
  - exact I.
  - exact C.
  - destruct op; try apply wrap_i64_range; cbv zeta; destruct (_ =? 0); try apply i64_0; apply wrap_i64_range.
  - destruct (cmp_holds _ _ _); tauto.
Qed.
Lemma deserialize_consts levels : forall budget bs e r b, deserialize_gen levels bs budget = Some (e, r, b) -> gen_consts e.
Proof.
  induction levels as [|levels IH]; intros budget bs e r b H; [discriminate|].
  destruct budget as [|budget]; [discriminate|]. destruct bs as [|tag bs]; [discriminate|]. rewrite deserialize_node in H.
  destruct (tag =? 0). { injection H as <- <- <-. exact I. }
  destruct (tag =? 1).
  { destruct (read_uvarint bs) as [[u bs1]|] eqn:U; [|discriminate]. cbn [mbind option_bind] in H. injection H as <- <- <-.
    cbn [gen_consts]. eapply unzigzag_range, uvarint_range, U. }
  destruct (gop_of tag) as [op|].
  { destruct (deserialize_gen levels bs budget) as [[[a bs1] b1]|] eqn:A; [|discriminate]. cbn [mbind option_bind] in H.
    destruct (deserialize_gen levels bs1 b1) as [[[a2 bs2] b2]|] eqn:B; [|discriminate]. cbn [mbind option_bind] in H. injection H as <- <- <-.
    cbn [gen_consts]. split; eapply IH; eassumption. }
  destruct (tag =? 7); [|discriminate]. destruct bs as [|t bs]; [discriminate|].
  destruct (gcmp_of t) as [op|]; [|discriminate]. cbn [mbind option_bind] in H.
  destruct (deserialize_gen levels bs budget) as [[[a1 bs1] b1]|] eqn:A; [|discriminate]. cbn [mbind option_bind] in H.
  destruct (deserialize_gen levels bs1 b1) as [[[a2 bs2] b2]|] eqn:B; [|discriminate]. cbn [mbind option_bind] in H.
  destruct (deserialize_gen levels bs2 b2) as [[[a3 bs3] b3]|] eqn:C; [|discriminate]. cbn [mbind option_bind] in H.
  destruct (deserialize_gen levels bs3 b3) as [[[a4 bs4] b4]|] eqn:D; [|discriminate]. cbn [mbind option_bind] in H. injection H as <- <- <-.
  cbn [gen_consts]. repeat split; eapply IH; eassumption.
Qed.
Lemma expand_i64_on f n : forall i, (forall j, i <= j < i + Z.of_nat n -> is_i64 (f j)) -> i64s (expand f i n).
Proof. induction n as [|n IH]; intros i F; cbn [expand]; constructor; [apply F; lia|]. apply IH. intros j J. apply F. lia. Qed.
Lemma forall2_lookup_i64 (dict : list Z) ixs v : i64s dict -> mapM (fun ix => dict !! Z.to_nat ix) ixs = Some v -> i64s v.
Proof.
  intros D. revert v. induction ixs as [|i ixs IH]; intros v H; cbn [mapM] in H; [injection H as <-; constructor|].
  destruct (dict !! Z.to_nat i) as [x|] eqn:E; [|discriminate]. cbn [mbind option_bind] in H.
  destruct (mapM _ ixs) as [w|]; [|discriminate]. cbn [mbind option_bind] in H. injection H as <-. constructor; [|now apply IH].
  eapply Forall_lookup_1; eassumption.
Qed.

Lemma decode_values levels : forall tag max bs v r, decode_body levels tag max bs = Some (v, r) -> Forall is_byte bs -> max <= 2 ^ 63 -> i64s v.
Proof.
  assert (STEP : forall lv tag max bs v r, (forall l', lv = S l' -> forall tag bs v r, decode_body l' tag max bs = Some (v, r) -> Forall is_byte bs -> i64s v) ->
    decode_body lv tag max bs = Some (v, r) -> Forall is_byte bs -> max <= 2 ^ 63 -> i64s v).
  2:{ induction levels as [|levels IH]; intros tag max bs v r H F M; eapply STEP; try eassumption; [discriminate|]. intros l' [= <-] tag' bs' v' r' H' F'. eapply IH; eassumption. }
  intros lv tag max bs v r REC H FB MX.
  destruct lv as [|lv]; cbn [decode_body] in H; cbv zeta in H.
  all: repeat match type of H with (if ?a =? ?t then _ else _) = _ => is_var a; destruct (Z.eqb_spec a t) as [->|?] end; try discriminate.
  all: repeat step_in H; try discriminate; try (injection H as <- <-).
  all: repeat match goal with
    | E : read_zz _ = Some (?z, _) |- _ => lazymatch goal with K : is_i64 z |- _ => fail | _ => pose proof (zz_range _ _ _ E) end
    | E : read_n read_zz _ _ = Some (?z, _) |- _ => lazymatch goal with K : i64s z |- _ => fail | _ => pose proof (read_n_zz_range _ _ _ _ E) end
    end.
  all: try solve [constructor | apply expand_i64; intros ?; apply wrap_i64_range | apply geo_expand_i64; assumption | apply recur_i64; assumption
    | apply repeat_i64; assumption | apply wrap_map_i64; intros ?; apply wrap_i64_range
    | eapply Forall_impl; [apply bits_to_bytes_bytes|apply byte_i64]
    | eapply rle_i64; [|eassumption]; constructor
    | eapply sparse_i64; [|eassumption]; apply repeat_i64; assumption
    | constructor; [assumption|eapply delta_i64; eassumption]
    | constructor; [assumption|constructor; [apply wrap_i64_range|eapply dod_i64; eassumption]]
    | eapply forall2_lookup_i64; [|eassumption]; assumption ].
  all: try (match goal with |- i64s (map (if ?c then _ else _) _) => destruct c end;
    [|apply wrap_map_i64; intros ?; apply wrap_i64_range];
    match goal with E : read_n read_uvarint _ _ = Some _ |- _ => apply read_n_uv_range in E; apply List.Forall_map; eapply Forall_impl; [exact E|apply unzigzag_range] end).
  all: try (apply poly_i64; [assumption|match goal with E : read_n _ (S _) _ = Some (?l, _) |- _ => apply read_n_length in E; destruct l; cbn in E; congruence end]).
  all: try (apply expand_i64_on; intros j J; apply gen_eval_i64; [eapply deserialize_consts; eassumption|];
    match goal with E : bounded _ _ = Some _ |- _ => apply bounded_spec in E as [-> ?] end; unfold is_i64; lia).
  all: try (constructor; [assumption|constructor]).
  all: try (match goal with E : head ?l = Some _, F : i64s ?l |- _ => destruct l; [discriminate E|]; injection E as ->; inversion F; subst; apply repeat_i64; assumption end).
  all: try (match goal with E : take_bytes _ _ = Some (?v, _), U : read_uvarint ?b = Some _, F : Forall is_byte ?b |- i64s ?v =>
    apply take_bytes_spec in E as [-> _]; destruct (local_uvarint _ _ _ U) as (? & -> & _); rewrite !Forall_app in F; eapply Forall_impl; [apply F|apply byte_i64] end).
  apply expand_i64. intros i. apply nth_i64. eapply (REC _ eq_refl); [eassumption|].
  destruct (local_uvarint _ _ _ E) as (? & -> & _). apply Forall_app in FB as [_ FB]. destruct l as [|b l]; [discriminate|]. injection E1 as -> ->. now inversion FB.
Qed.
