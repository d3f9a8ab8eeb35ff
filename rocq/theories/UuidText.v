(** The text form: the SSSE3 code against the portable code. *)
From Coq Require Import ZArith List Bool Lia.
From Verif Require Import UuidModel UuidProofs.
Import ListNotations.
Local Open Scope Z_scope.
Local Ltac dlia := Z.div_mod_to_equations; lia.
Local Ltac split16 l E := do 16 (destruct l as [|? l]; [discriminate E|]); destruct l; [|discriminate E]; clear E.
Local Ltac bytes_of H := repeat match type of H with Forall _ (_ :: _) => let H0 := fresh "Hb" in apply Forall_cons_iff in H as [H0 H] | Forall _ [] => clear H end.

(** ** Encoding *)
Lemma hi_nibble1 : forall a b, byte a -> byte b -> Z.land ((a + 256 * b) / 2 ^ 4 mod 256) 15 = a / 2 ^ 4.
Proof. intros a b Ha Hb. apply (hi_nibble a b Ha Hb). Qed.
Lemma hi_nibble2 : forall a b, byte a -> byte b -> Z.land ((a + 256 * b) / 2 ^ 4 / 256) 15 = b / 2 ^ 4.
Proof. intros a b Ha Hb. apply (hi_nibble a b Ha Hb). Qed.
Lemma hi_list : forall u, length u = 16%nat -> Forall byte u -> and_si128 (srli_epi16 u 4) (set1 15) = map (fun b => Z.shiftr b 4) u.
Proof.
  intros u E H. split16 u E. bytes_of H. unfold and_si128, srli_epi16, set1. cbn [lanes16 repeat zip_with map]. cbv zeta.
  rewrite !(Z.shiftr_div_pow2 _ 4) by lia.
  rewrite !hi_nibble1, !hi_nibble2 by assumption. reflexivity.
Qed.
Lemma lut : forall n, 0 <= n < 16 -> (if 128 <=? n then 0 else nth (Z.to_nat (n mod 16)) [48; 49; 50; 51; 52; 53; 54; 55; 56; 57; 97; 98; 99; 100; 101; 102] 0) = hex_digit n.
Proof. intros n H. rewrite (proj2 (Z.leb_gt 128 n)) by lia. rewrite Z.mod_small by lia. reflexivity. Qed.
Definition scatter (hi_hex lo_hex : list Z) : list Z :=
  let h0 := unpacklo_epi8 hi_hex lo_hex in
  let h1 := unpackhi_epi8 hi_hex lo_hex in
  let out_lo := or_si128 (shuffle_epi8 h0 [0; 1; 2; 3; 4; 5; 6; 7; 128; 8; 9; 10; 11; 128; 12; 13]) [0; 0; 0; 0; 0; 0; 0; 0; 45; 0; 0; 0; 0; 45; 0; 0] in
  let mid := alignr_epi8 h1 h0 14 in
  let out_mid := or_si128 (shuffle_epi8 mid [0; 1; 128; 2; 3; 4; 5; 128; 6; 7; 8; 9; 10; 11; 12; 13]) [0; 0; 45; 0; 0; 0; 0; 45; 0; 0; 0; 0; 0; 0; 0; 0] in
  out_lo ++ out_mid ++ skipn 12 h1.
Lemma scatter_spec : forall (f g : Z -> Z) u, length u = 16%nat ->
  let p b := [f b; g b] in
  scatter (map f u) (map g u) = flat_map p (range 0 4 u) ++ [dash] ++ flat_map p (range 4 6 u) ++ [dash] ++ flat_map p (range 6 8 u) ++ [dash] ++ flat_map p (range 8 10 u) ++ [dash] ++ flat_map p (range 10 16 u).
Proof.
  intros f g u E. split16 u E. cbv -[Z.lor]. rewrite !Z.lor_0_r. change (Z.lor 0 45) with 45. reflexivity.
Qed.
Lemma encode_agree : forall u, length u = 16%nat -> Forall byte u -> encode_simd u = encode_scalar u.
Proof.
  intros u E H.
  assert (A : forall f, (forall b, byte b -> 0 <= f b < 16) -> shuffle_epi8 [48; 49; 50; 51; 52; 53; 54; 55; 56; 57; 97; 98; 99; 100; 101; 102] (map f u) = map (fun b => hex_digit (f b)) u).
  { intros f Hf. unfold shuffle_epi8. rewrite map_map. apply map_ext_in. intros b Hb. apply lut. apply Hf. rewrite Forall_forall in H. auto. }
  assert (L : and_si128 u (set1 15) = map (fun b => Z.land b 15) u).
  { clear -E. split16 u E. reflexivity. }
  change (encode_simd u) with (scatter (shuffle_epi8 [48; 49; 50; 51; 52; 53; 54; 55; 56; 57; 97; 98; 99; 100; 101; 102] (and_si128 (srli_epi16 u 4) (set1 15)))
    (shuffle_epi8 [48; 49; 50; 51; 52; 53; 54; 55; 56; 57; 97; 98; 99; 100; 101; 102] (and_si128 u (set1 15)))).
  rewrite hi_list, L by assumption. rewrite !A.
  - apply scatter_spec. exact E.
  - intros b Hb. change 15 with (2 ^ 4 - 1). rewrite land_ones' by lia. dlia.
  - intros b Hb. unfold byte in Hb. rewrite Z.shiftr_div_pow2 by lia. dlia.
Qed.

(** ** Decoding: the 32 digits of a record, and the bytes they make *)
Definition strip (b : list Z) : list Z := range 0 8 b ++ range 9 13 b ++ range 14 18 b ++ range 19 23 b ++ range 24 36 b.
Fixpoint join (f : Z -> Z -> Z) (h : list Z) : list Z := match h with a :: b :: r => f a b :: join f r | _ => [] end.
Definition plain (a b : Z) : Z := 16 * hex_decode a + hex_decode b.
Definition ok (c : Z) : bool := is_hex c || control c.
Lemma lor_nibbles : forall h l, small h -> small l -> Z.lor (Z.shiftl h 4) l = 16 * h + l.
Proof.
  intros h l Hh Hl. unfold small in *. assert (T : forall v, byte v -> (Z.lor (Z.shiftl (v / 16) 4) (v mod 16) =? v) = true) by (apply byte_cases; vm_compute; reflexivity).
  specialize (T (16 * h + l)). replace ((16 * h + l) / 16) with h in T by dlia. replace ((16 * h + l) mod 16) with l in T by dlia. apply Z.eqb_eq. apply T. unfold byte. lia.
Qed.
Lemma bad_spec : forall b ps a, entry a ->
  entry (fold_left (fun a p => Z.lor a (Z.lor (hex_decode (nth p b 0)) (hex_decode (nth (S p) b 0)))) ps a) /\
  (fold_left (fun a p => Z.lor a (Z.lor (hex_decode (nth p b 0)) (hex_decode (nth (S p) b 0)))) ps a <? 16) = (a <? 16) && forallb (fun p => is_hex (nth p b 0) && is_hex (nth (S p) b 0)) ps.
Proof.
  intros b. induction ps as [|p ps IH]; intros a Ha; [cbn; rewrite andb_true_r; auto|]. cbn [fold_left forallb].
  destruct (entry_decode (nth p b 0)) as [E1 S1]. destruct (entry_decode (nth (S p) b 0)) as [E2 S2].
  destruct (entry_lor _ _ E1 E2) as [E3 S3]. destruct (entry_lor _ _ Ha E3) as [E4 S4]. destruct (IH _ E4) as [I1 I2]. split; [exact I1|].
  rewrite I2, S4, S3, S1, S2. rewrite !andb_assoc. reflexivity.
Qed.
Local Ltac split36 l E := do 36 (destruct l as [|? l]; [discriminate E|]); destruct l; [|discriminate E]; clear E.
Lemma positions : forall b (P : Z -> bool), length b = 36%nat -> forallb (fun p => P (nth p b 0) && P (nth (S p) b 0)) pairs = forallb P (strip b).
Proof. intros b P E. split36 b E. cbv [pairs strip range forallb nth firstn skipn app Nat.sub]. rewrite !andb_assoc. rewrite !andb_true_r. reflexivity. Qed.
Lemma outs : forall b f, length b = 36%nat -> map (fun p => f (nth p b 0) (nth (S p) b 0)) pairs = join f (strip b).
Proof. intros b f E. split36 b E. reflexivity. Qed.
Lemma join_ext : forall f g (P : Z -> bool) h, (forall a b, P a = true -> P b = true -> f a b = g a b) -> forallb P h = true -> join f h = join g h.
Proof.
  intros f g P. fix IH 1. intros [|a [|b r]] E H; [reflexivity|reflexivity|]. cbn [forallb] in H. apply andb_true_iff in H as [Ha H]. apply andb_true_iff in H as [Hb H].
  cbn [join]. rewrite E by assumption. f_equal. apply IH; assumption.
Qed.
Lemma hex_small : forall c, is_hex c = true -> small (hex_decode c).
Proof. intros c H. destruct (hex_decode_cases c) as [[_ E] | [E _]]; [congruence|exact E]. Qed.
Lemma decode_scalar_spec : forall b, length b = 36%nat -> decode_scalar b = if forallb is_hex (strip b) then Some (join plain (strip b)) else None.
Proof.
  intros b E. unfold decode_scalar. rewrite (proj2 (bad_spec b pairs 0 (or_introl (conj (Z.le_refl 0) eq_refl)))). rewrite positions by exact E. cbn [andb Z.ltb Z.compare].
  destruct (forallb is_hex (strip b)) eqn:F; [|reflexivity]. f_equal.
  rewrite (outs b (fun x y => Z.lor (Z.shiftl (hex_decode x) 4 mod 256) (Z.land (hex_decode y) 15)) E). apply (join_ext _ _ is_hex); [|exact F].
  intros x y Hx Hy. apply hex_small in Hx. apply hex_small in Hy. unfold plain. rewrite <- lor_nibbles by assumption. unfold small in *. f_equal.
  - rewrite Z.shiftl_mul_pow2 by lia. apply Z.mod_small. lia.
  - change 15 with (2 ^ 4 - 1). rewrite land_ones' by lia. apply Z.mod_small. lia.
Qed.
Lemma nibbles_pair1 : forall a b, byte a -> byte b ->
  ((Z.land a 15 + ((Z.land a 64 + 256 * Z.land b 64) / 2 ^ 6 mod 256 + 256 * ((Z.land a 64 + 256 * Z.land b 64) / 2 ^ 6 / 256)) * 2 ^ 3 mod 65536 mod 256) mod 256 + (Z.land a 64 + 256 * Z.land b 64) / 2 ^ 6 mod 256) mod 256 = nibble8 a.
Proof. intros a b Ha Hb. apply (nibbles_pair a b Ha Hb). Qed.
Lemma nibbles_pair2 : forall a b, byte a -> byte b ->
  ((Z.land b 15 + ((Z.land a 64 + 256 * Z.land b 64) / 2 ^ 6 mod 256 + 256 * ((Z.land a 64 + 256 * Z.land b 64) / 2 ^ 6 / 256)) * 2 ^ 3 mod 65536 / 256) mod 256 + (Z.land a 64 + 256 * Z.land b 64) / 2 ^ 6 / 256) mod 256 = nibble8 b.
Proof. intros a b Ha Hb. apply (nibbles_pair a b Ha Hb). Qed.
Lemma nibbles_map : forall l, length l = 16%nat -> Forall byte l -> nibbles l = map nibble8 l.
Proof.
  intros l E H. split16 l E. bytes_of H. unfold nibbles, and_si128, srli_epi16, slli_epi16, add_epi8, set1. cbn [lanes16 repeat zip_with map]. cbv zeta.
  rewrite !nibbles_pair1, !nibbles_pair2 by assumption. reflexivity.
Qed.
Lemma hex_ok_map : forall l, length l = 16%nat -> hex_ok l = map lane_ok l.
Proof. intros l E. split16 l E. reflexivity. Qed.
Definition fused (a b : Z) : Z := Z.max 0 (Z.min 255 (Z.max (-32768) (Z.min 32767 (nibble8 a * 16 + nibble8 b * 1)))).
Definition tail2 (a b : Z) : Z := Z.lor (Z.shiftl (nib a) 4) (nib b).
Definition gather_a : list Z := [0; 1; 2; 3; 4; 5; 6; 7; 9; 10; 11; 12; 14; 15; 0; 0].
Definition gather_b : list Z := [0; 1; 3; 4; 5; 6; 8; 9; 10; 11; 12; 13; 14; 15; 0; 0].
Lemma shuffle_byte : forall a m, Forall byte a -> Forall byte (shuffle_epi8 a m).
Proof.
  intros a m H. unfold shuffle_epi8. apply Forall_map. apply Forall_forall. intros i _. destruct (128 <=? i); [split; lia|].
  destruct (nth_in_or_default (Z.to_nat (i mod 16)) a 0) as [I | ->]; [rewrite Forall_forall in H; auto|split; lia].
Qed.
Lemma Forall_range : forall {A} (P : A -> Prop) a b l, Forall P l -> Forall P (range a b l).
Proof.
  intros A P a b l H. unfold range. apply Forall_forall. intros x Hx. rewrite Forall_forall in H. apply H.
  rewrite <- (firstn_skipn a l). apply in_or_app. right. rewrite <- (firstn_skipn (b - a) (skipn a l)). apply in_or_app. left. exact Hx.
Qed.
Lemma decode_core_spec : forall b, length b = 36%nat -> Forall byte b ->
  decode_core b = (join fused (firstn 28 (strip b)) ++ join tail2 (skipn 28 (strip b)),
                   zip_with Z.land (map lane_ok (shuffle_epi8 (range 0 16 b) gather_a)) (map lane_ok (shuffle_epi8 (range 16 32 b) gather_b))).
Proof.
  intros b E H. unfold decode_core. fold gather_a gather_b. cbv zeta.
  assert (LA : length (shuffle_epi8 (range 0 16 b) gather_a) = 16%nat) by (unfold shuffle_epi8; rewrite map_length; reflexivity).
  assert (LB : length (shuffle_epi8 (range 16 32 b) gather_b) = 16%nat) by (unfold shuffle_epi8; rewrite map_length; reflexivity).
  rewrite !hex_ok_map by assumption. rewrite !nibbles_map by (auto; apply shuffle_byte; apply Forall_range; exact H).
  f_equal. clear H LA LB. split36 b E. reflexivity.
Qed.
Lemma mask_spec : forall l k, Forall byte l -> Forall byte k -> length l = length k ->
  movemask_full (zip_with Z.land (map lane_ok l) (map lane_ok k)) = forallb ok l && forallb ok k.
Proof.
  induction l as [|x l IH]; intros [|y k] Hl Hk L; try discriminate; [reflexivity|]. injection L as L.
  apply Forall_cons_iff in Hl as [Hx Hl]. apply Forall_cons_iff in Hk as [Hy Hk]. unfold movemask_full in *. cbn [map zip_with forallb]. rewrite IH by assumption.
  rewrite !lane_ok_spec by assumption. fold (ok x) (ok y). destruct (ok x), (ok y); cbn; rewrite ?andb_false_r; reflexivity.
Qed.
Lemma tail_spec : forall b, length b = 36%nat -> entry (tail_bits b) /\ (tail_bits b <? 16) = forallb is_hex (skipn 28 (strip b)).
Proof.
  intros b E. unfold tail_bits.
  destruct (entry_decode (nth 32 b 0)) as [E1 S1]. destruct (entry_decode (nth 33 b 0)) as [E2 S2]. destruct (entry_decode (nth 34 b 0)) as [E3 S3]. destruct (entry_decode (nth 35 b 0)) as [E4 S4].
  destruct (entry_lor _ _ E1 E2) as [F1 T1]. destruct (entry_lor _ _ F1 E3) as [F2 T2]. destruct (entry_lor _ _ F2 E4) as [F3 T3]. split; [exact F3|].
  rewrite T3, T2, T1, S1, S2, S3, S4. split36 b E. cbv [strip range forallb nth firstn skipn app Nat.sub]. rewrite !andb_assoc, andb_true_r. reflexivity.
Qed.
Definition fine (h : list Z) : bool := forallb ok (firstn 28 h) && forallb is_hex (skipn 28 h).
Definition simd_bytes (h : list Z) : list Z := join fused (firstn 28 h) ++ join tail2 (skipn 28 h).
Lemma mask_core : forall b, length b = 36%nat -> Forall byte b -> movemask_full (snd (decode_core b)) = forallb ok (firstn 28 (strip b)).
Proof.
  intros b E H. rewrite decode_core_spec by assumption. cbn [snd]. rewrite mask_spec.
  - clear H. split36 b E. cbv [gather_a gather_b shuffle_epi8 map strip range forallb nth firstn skipn app Nat.sub Z.leb Z.compare Pos.compare Pos.compare_cont Z.modulo Z.div_eucl Z.pos_div_eucl Z.leb Z.ltb Z.add Z.mul Z.sub Z.opp Z.pos_sub Pos.mul Pos.add Pos.sub Pos.sub_mask Pos.succ Pos.pred_double Z.succ_double Z.pred_double Z.double Pos.double_mask Pos.succ_double_mask Pos.double_pred_mask Z.to_nat Pos.to_nat Pos.iter_op Nat.add snd].
    repeat match goal with |- context [ok ?x] => let v := fresh "o" in generalize (ok x); intros v end.
    repeat match goal with o : bool |- _ => destruct o; cbn [andb]; [|rewrite ?andb_false_r; reflexivity] end. reflexivity.
  - apply shuffle_byte, Forall_range, H.
  - apply shuffle_byte, Forall_range, H.
  - unfold shuffle_epi8. rewrite !map_length. reflexivity.
Qed.
Lemma decode_simd_spec : forall b, length b = 36%nat -> Forall byte b -> decode_simd b = if fine (strip b) then Some (simd_bytes (strip b)) else None.
Proof.
  intros b E H. unfold decode_simd. pose proof (mask_core b E H) as M. rewrite decode_core_spec in * by assumption. cbn [snd] in M. rewrite M. rewrite (proj2 (tail_spec b E)). reflexivity.
Qed.
Lemma fused_plain : forall a b, byte a -> byte b -> is_hex a = true -> is_hex b = true -> fused a b = plain a b.
Proof.
  intros a b Ba Bb Ha Hb. unfold fused, plain. destruct (hex_value a Ba Ha) as (-> & _ & Ra). destruct (hex_value b Bb Hb) as (-> & _ & Rb). lia.
Qed.
Lemma tail2_plain : forall a b, byte a -> byte b -> is_hex a = true -> is_hex b = true -> tail2 a b = plain a b.
Proof.
  intros a b Ba Bb Ha Hb. unfold tail2, plain. destruct (hex_value a Ba Ha) as (_ & -> & Ra). destruct (hex_value b Bb Hb) as (_ & -> & Rb). apply lor_nibbles; assumption.
Qed.
Lemma join_app : forall f a b, Nat.even (length a) = true -> join f (a ++ b) = join f a ++ join f b.
Proof. intros f. fix IH 1. intros [|x [|y a]] b E; [reflexivity|discriminate|]. cbn [app join]. f_equal. apply IH. exact E. Qed.
Definition hexb (c : Z) : bool := is_hex c && (0 <=? c) && (c <? 256).
Lemma simd_bytes_plain : forall h, length h = 32%nat -> Forall byte h -> forallb is_hex h = true -> simd_bytes h = join plain h.
Proof.
  intros h E H F. unfold simd_bytes. assert (G : forallb hexb h = true).
  { rewrite forallb_forall in F |- *. intros c Hc. rewrite Forall_forall in H. unfold hexb. rewrite (F c Hc). specialize (H c Hc). unfold byte in H. lia. }
  assert (U : forall x, hexb x = true -> byte x /\ is_hex x = true) by (intros x Hx; unfold hexb in Hx; unfold byte; destruct (is_hex x); cbn in Hx; [lia|discriminate]).
  rewrite <- (firstn_skipn 28 h) in G. rewrite forallb_app in G. apply andb_true_iff in G as [G1 G2].
  rewrite (join_ext fused plain hexb (firstn 28 h)), (join_ext tail2 plain hexb (skipn 28 h)); auto.
  - rewrite <- join_app by (rewrite firstn_length, E; reflexivity). rewrite firstn_skipn. reflexivity.
  - intros a b Ha Hb. apply U in Ha as [? ?]. apply U in Hb as [? ?]. apply tail2_plain; assumption.
  - intros a b Ha Hb. apply U in Ha as [? ?]. apply U in Hb as [? ?]. apply fused_plain; assumption.
Qed.
Lemma strip_length : forall b, length b = 36%nat -> length (strip b) = 32%nat.
Proof. intros b E. split36 b E. reflexivity. Qed.
Lemma strip_Forall : forall (P : Z -> Prop) b, Forall P b -> Forall P (strip b).
Proof. intros P b H. unfold strip. repeat (apply Forall_app; split); apply Forall_range; exact H. Qed.
Lemma fine_hex : forall h, forallb (fun c => negb (control c)) h = true -> fine h = forallb is_hex h.
Proof.
  intros h H. unfold fine. rewrite <- (firstn_skipn 28 h) at 3. rewrite forallb_app. f_equal.
  assert (G : forallb (fun c => negb (control c)) (firstn 28 h) = true).
  { rewrite <- (firstn_skipn 28 h) in H. rewrite forallb_app in H. apply andb_true_iff in H as [H _]. exact H. }
  revert G. generalize (firstn 28 h). induction l as [|c l IH]; intros G; [reflexivity|]. cbn [forallb] in *. apply andb_true_iff in G as [Gc G]. rewrite IH by exact G.
  unfold ok. apply negb_true_iff in Gc. rewrite Gc, orb_false_r. reflexivity.
Qed.
Lemma hex_fine : forall h, forallb is_hex h = true -> fine h = true.
Proof.
  intros h H. rewrite <- (firstn_skipn 28 h) in H. rewrite forallb_app in H. apply andb_true_iff in H as [H1 H2]. unfold fine. rewrite H2, andb_true_r.
  rewrite forallb_forall in H1 |- *. intros c Hc. unfold ok. rewrite (H1 c Hc). reflexivity.
Qed.
(** What parse_canonical does in each implementation. *)
Definition accepts (simd : bool) (h : list Z) : bool := if simd then fine h else forallb is_hex h.
Definition made (simd : bool) (h : list Z) : list Z := if simd then simd_bytes h else join plain h.
Lemma canonical_spec : forall simd b, length b = 36%nat -> Forall byte b -> parse_canonical simd b = if dashes b && accepts simd (strip b) then Some (made simd (strip b)) else None.
Proof.
  intros simd b E H. unfold parse_canonical, accepts, made. destruct (dashes b); [|reflexivity]. cbn [andb].
  destruct simd; [apply decode_simd_spec; assumption|apply decode_scalar_spec; assumption].
Qed.
