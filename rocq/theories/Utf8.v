(** Text as Rust's [str]: a list of scalar values, encoded in UTF-8. A [str] is always valid
    UTF-8, so a text is a list of scalar values and its bytes are the concatenated encodings.
    Offsets and lengths are in bytes. This is the specification of the standard library
    functions [bytes], [chars], [len], [encode_utf16], slicing and [char_indices] that the
    modelled code calls. *)
From Coq Require Import ZArith List Lia.
From stdpp Require Import list.
Open Scope Z_scope.

(** [char]: a Unicode scalar value. *)
Definition is_char (c : Z) : Prop := 0 <= c < 55296 \/ 57344 <= c <= 1114111.
Definition is_text (t : list Z) : Prop := Forall is_char t.

(** UTF-8 encoding of one character (RFC 3629). *)
Definition utf8 (c : Z) : list Z :=
  if c <? 128 then [c]
  else if c <? 2048 then [192 + c / 64; 128 + c mod 64]
  else if c <? 65536 then [224 + c / 4096; 128 + (c / 64) mod 64; 128 + c mod 64]
  else [240 + c / 262144; 128 + (c / 4096) mod 64; 128 + (c / 64) mod 64; 128 + c mod 64].
Definition len_utf8 (c : Z) : nat := length (utf8 c).
Definition bytes (t : list Z) : list Z := concat (map utf8 t).
(** [str::len]. *)
Definition blen (t : list Z) : nat := length (bytes t).

(** [char::len_utf16] and the length of [encode_utf16]. *)
Definition len_utf16 (c : Z) : nat := if c <? 65536 then 1 else 2.
Definition utf16_count (t : list Z) : nat := list_sum (map len_utf16 t).

(** [&s[..n]] and [&s[n..]]; [None] is the panic for an offset that is past the end or inside a
    character. *)
Fixpoint split_at (t : list Z) (n : nat) : option (list Z * list Z) :=
  match n with
  | O => Some ([], t)
  | _ => match t with
         | [] => None
         | c :: t => if Nat.ltb n (len_utf8 c) then None
                     else match split_at t (n - len_utf8 c) with
                          | Some (a, b) => Some (c :: a, b)
                          | None => None
                          end
         end
  end.
(** [&s[a..b]]. *)
Definition str_slice (t : list Z) (a b : nat) : option (list Z) :=
  if Nat.leb a b then
    match split_at t b with
    | Some (p, _) => match split_at p a with Some (_, m) => Some m | None => None end
    | None => None
    end
  else None.

Lemma utf8_ascii c : c < 128 -> utf8 c = [c].
Proof. intros H. unfold utf8. now rewrite (proj2 (Z.ltb_lt _ _) H). Qed.
Lemma utf8_other c : is_char c -> 128 <= c -> (2 <= length (utf8 c) <= 4)%nat /\ Forall (fun b => 128 <= b < 256) (utf8 c).
Proof.
  intros Hc H. unfold utf8, is_char in *. rewrite (proj2 (Z.ltb_ge c 128)) by lia.
  pose proof (Z.mod_pos_bound c 64 ltac:(lia)). pose proof (Z.mod_pos_bound (c / 64) 64 ltac:(lia)). pose proof (Z.mod_pos_bound (c / 4096) 64 ltac:(lia)).
  destruct (Z.ltb_spec c 2048); [|destruct (Z.ltb_spec c 65536)]; (split; [cbn; lia|]); repeat constructor; try lia.
  - pose proof (Z.div_pos c 64). lia.
  - apply (Z.le_lt_trans _ (192 + 2047 / 64)); [|vm_compute; done]. apply Z.add_le_mono_l, Z.div_le_mono; lia.
  - pose proof (Z.div_pos c 4096). lia.
  - apply (Z.le_lt_trans _ (224 + 65535 / 4096)); [|vm_compute; done]. apply Z.add_le_mono_l, Z.div_le_mono; lia.
  - pose proof (Z.div_pos c 262144). lia.
  - apply (Z.le_lt_trans _ (240 + 1114111 / 262144)); [|vm_compute; done]. apply Z.add_le_mono_l, Z.div_le_mono; lia.
Qed.
Lemma len_utf8_pos c : (0 < len_utf8 c)%nat.
Proof. unfold len_utf8, utf8. repeat case_match; cbn; lia. Qed.
Lemma len_utf16_le c : (len_utf16 c <= len_utf8 c)%nat.
Proof.
  unfold len_utf16, len_utf8, utf8. destruct (Z.ltb_spec c 65536), (Z.ltb_spec c 128), (Z.ltb_spec c 2048); cbn; lia.
Qed.
Lemma len_utf16_pos c : (1 <= len_utf16 c <= 2)%nat.
Proof. unfold len_utf16. destruct (c <? 65536); lia. Qed.
Lemma bytes_app a b : bytes (a ++ b) = bytes a ++ bytes b.
Proof. unfold bytes. now rewrite map_app, concat_app. Qed.
Lemma bytes_cons c t : bytes (c :: t) = utf8 c ++ bytes t.
Proof. done. Qed.
Lemma blen_app a b : blen (a ++ b) = (blen a + blen b)%nat.
Proof. unfold blen. now rewrite bytes_app, app_length. Qed.
Lemma blen_cons c t : blen (c :: t) = (len_utf8 c + blen t)%nat.
Proof. unfold blen. now rewrite bytes_cons, app_length. Qed.
Lemma utf16_app a b : utf16_count (a ++ b) = (utf16_count a + utf16_count b)%nat.
Proof. unfold utf16_count. now rewrite map_app, list_sum_app. Qed.
Lemma utf16_le t : (utf16_count t <= blen t)%nat.
Proof.
  induction t as [|c t IH]; [done|]. rewrite blen_cons. unfold utf16_count in *. cbn [map list_sum fold_right].
  change (fold_right Nat.add 0%nat (map len_utf16 t)) with (list_sum (map len_utf16 t)). pose proof (len_utf16_le c). lia.
Qed.
Lemma split_at_app a b : split_at (a ++ b) (blen a) = Some (a, b).
Proof.
  induction a as [|c a IH]; cbn [app]; [now destruct b|]. rewrite blen_cons. pose proof (len_utf8_pos c).
  destruct (len_utf8 c + blen a)%nat as [|n] eqn:E; [lia|]. cbn [split_at]. rewrite <- E.
  rewrite (proj2 (Nat.ltb_ge _ _)) by lia. replace (len_utf8 c + blen a - len_utf8 c)%nat with (blen a) by lia. now rewrite IH.
Qed.
Lemma split_at_some t n a b : split_at t n = Some (a, b) -> t = a ++ b /\ n = blen a.
Proof.
  revert n a b. induction t as [|c t IH]; intros n a b; destruct n as [|n]; cbn [split_at].
  - intros [= <- <-]. done.
  - discriminate.
  - intros [= <- <-]. done.
  - destruct (Nat.ltb_spec (S n) (len_utf8 c)); [discriminate|]. destruct (split_at t (S n - len_utf8 c)) as [[a' b']|] eqn:E; [|discriminate].
    intros [= <- <-]. destruct (IH _ _ _ E) as [-> Hn]. split; [done|]. rewrite blen_cons. lia.
Qed.
Lemma str_slice_app a m b : str_slice (a ++ m ++ b) (blen a) (blen a + blen m) = Some m.
Proof.
  unfold str_slice. rewrite (proj2 (Nat.leb_le _ _)) by lia. rewrite <- blen_app, app_assoc, split_at_app, split_at_app. done.
Qed.
Lemma blen_prefix_inj t p q : (exists r, t = p ++ r) -> (exists r, t = q ++ r) -> blen p = blen q -> p = q.
Proof.
  intros [r E] [r' E'] H. assert (S1 := split_at_app p r). assert (S2 := split_at_app q r'). rewrite <- E, H in S1. rewrite <- E' in S2. congruence.
Qed.
(** A character boundary: the byte length of some prefix. *)
Definition boundary (t : list Z) (n : nat) : Prop := exists p q, t = p ++ q /\ n = blen p.

(** [String::from_utf8]: accepts exactly the encodings of texts. The character at the front is
    read from its leading byte and accepted if it is a scalar value with this encoding. *)
Definition is_charb (c : Z) : bool := ((0 <=? c) && (c <? 55296)) || ((57344 <=? c) && (c <=? 1114111)).
Definition front_char (bs : list Z) : option Z :=
  match bs with
  | b0 :: r =>
      if b0 <? 128 then Some b0
      else if b0 <? 224 then match r with b1 :: _ => Some ((b0 - 192) * 64 + (b1 - 128)) | _ => None end
      else if b0 <? 240 then match r with b1 :: b2 :: _ => Some ((b0 - 224) * 4096 + (b1 - 128) * 64 + (b2 - 128)) | _ => None end
      else match r with b1 :: b2 :: b3 :: _ => Some ((b0 - 240) * 262144 + (b1 - 128) * 4096 + (b2 - 128) * 64 + (b3 - 128)) | _ => None end
  | [] => None
  end.
Fixpoint from_utf8_steps (n : nat) (bs : list Z) : option (list Z) :=
  match bs with
  | [] => Some []
  | _ =>
      match n with
      | O => None
      | S n =>
          match front_char bs with
          | Some c =>
              if is_charb c && bool_decide (take (len_utf8 c) bs = utf8 c)
              then match from_utf8_steps n (drop (len_utf8 c) bs) with Some t => Some (c :: t) | None => None end
              else None
          | None => None
          end
      end
  end.
Definition from_utf8 (bs : list Z) : option (list Z) := from_utf8_steps (length bs) bs.

Lemma is_charb_iff c : is_charb c = true <-> is_char c.
Proof. unfold is_charb, is_char. rewrite orb_true_iff, !andb_true_iff, !Z.leb_le, !Z.ltb_lt. tauto. Qed.
Lemma front_char_utf8 c r : is_char c -> front_char (utf8 c ++ r) = Some c.
Proof.
  intros H. assert (B : 0 <= c <= 1114111) by (unfold is_char in H; lia). clear H. unfold utf8.
  pose proof (Z.mod_pos_bound c 64 ltac:(lia)). pose proof (Z.div_mod c 64 ltac:(lia)).
  pose proof (Z.mod_pos_bound (c / 64) 64 ltac:(lia)). pose proof (Z.div_mod (c / 64) 64 ltac:(lia)).
  pose proof (Z.mod_pos_bound (c / 4096) 64 ltac:(lia)). pose proof (Z.div_mod (c / 4096) 64 ltac:(lia)).
  assert (D1 : c / 64 / 64 = c / 4096) by (rewrite Z.div_div by lia; done). assert (D2 : c / 4096 / 64 = c / 262144) by (rewrite Z.div_div by lia; done).
  destruct (Z.ltb_spec c 128); [|destruct (Z.ltb_spec c 2048); [|destruct (Z.ltb_spec c 65536)]]; cbn [app front_char].
  - now rewrite (proj2 (Z.ltb_lt c 128)) by done.
  - rewrite (proj2 (Z.ltb_ge _ 128)) by lia. rewrite (proj2 (Z.ltb_lt _ 224)) by lia. f_equal. lia.
  - rewrite (proj2 (Z.ltb_ge _ 128)) by lia. rewrite (proj2 (Z.ltb_ge _ 224)) by lia. rewrite (proj2 (Z.ltb_lt _ 240)) by lia. f_equal. lia.
  - rewrite (proj2 (Z.ltb_ge _ 128)) by lia. rewrite (proj2 (Z.ltb_ge _ 224)) by lia. rewrite (proj2 (Z.ltb_ge _ 240)) by lia. f_equal. lia.
Qed.
Lemma from_utf8_steps_ok t n : is_text t -> (blen t <= n)%nat -> from_utf8_steps n (bytes t) = Some t.
Proof.
  intros H. revert n. induction H as [|c t Hc Ht IH]; intros n Hn; [now destruct n|]. rewrite blen_cons in Hn. pose proof (len_utf8_pos c).
  destruct n as [|n]; [lia|]. rewrite bytes_cons. destruct (utf8 c ++ bytes t) as [|b bs] eqn:E.
  { apply app_eq_nil in E as [E _]. unfold len_utf8 in *. rewrite E in *. cbn in *. lia. }
  rewrite <- E. cbn [from_utf8_steps]. rewrite E at 1. rewrite front_char_utf8 by done. rewrite (proj2 (is_charb_iff c) Hc). cbn [andb].
  assert (T : take (len_utf8 c) (utf8 c ++ bytes t) = utf8 c) by (unfold len_utf8; apply take_app).
  assert (D : drop (len_utf8 c) (utf8 c ++ bytes t) = bytes t) by (unfold len_utf8; apply drop_app).
  rewrite T, D. rewrite bool_decide_eq_true_2 by done. rewrite IH by lia. done.
Qed.
Lemma from_utf8_bytes t : is_text t -> from_utf8 (bytes t) = Some t.
Proof. intros H. now apply from_utf8_steps_ok. Qed.
Lemma from_utf8_some bs t : from_utf8 bs = Some t -> is_text t /\ bytes t = bs.
Proof.
  unfold from_utf8. generalize (length bs). intros n. revert bs t. induction n as [|n IH]; intros bs t; destruct bs as [|b bs]; cbn [from_utf8_steps].
  - intros [= <-]. split; [constructor|done].
  - discriminate.
  - intros [= <-]. split; [constructor|done].
  - destruct (front_char (b :: bs)) as [c|]; [|discriminate]. destruct (is_charb c) eqn:Hc; [|discriminate]. cbn [andb].
    case_bool_decide as T; [|discriminate]. destruct (from_utf8_steps n (drop (len_utf8 c) (b :: bs))) as [u|] eqn:E; [|discriminate].
    intros [= <-]. apply IH in E as [H1 H2]. split; [constructor; [now apply is_charb_iff|done]|]. rewrite bytes_cons, H2, <- T. apply take_drop.
Qed.
