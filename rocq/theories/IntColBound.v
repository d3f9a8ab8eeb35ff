(** Support for the integer-column properties: sizes of the candidates, absence of the panic on
    small values, locality and bounds of the decoder. *)
From Coq Require Import ZArith List Lia.
From stdpp Require Import list.
From Verif Require Import MachInt WireModel WireProofs WireProps IntColModel IntColProofs IntColRound IntColRound2 IntColRound3.
Open Scope Z_scope.

(** ** Sizes *)
Lemma uv_size x : is_u64 x -> (1 <= length (write_uvarint x) <= 10)%nat.
Proof. intros H. apply (C24_size x H). Qed.
Lemma zw_size x : is_i64 x -> (1 <= length (zw x) <= 10)%nat.
Proof. intros H. apply uv_size, zigzag_range, H. Qed.
Lemma uv_bytes x : is_u64 x -> Forall is_byte (write_uvarint x).
Proof. intros H. apply (C24_size x H). Qed.
Lemma zw_bytes x : is_i64 x -> Forall is_byte (zw x).
Proof. intros H. apply uv_bytes, zigzag_range, H. Qed.
Lemma consider_le best cand : (length (consider best cand) <= length best)%nat.
Proof. destruct cand as [c|]; unfold consider; [|lia]. destruct (Nat.ltb_spec (length c) (length best)); lia. Qed.
Lemma consider_cand best c : (length (consider best (Some c)) <= length c)%nat.
Proof. unfold consider. destruct (Nat.ltb_spec (length c) (length best)); lia. Qed.

Lemma emit_sizes fuel v e : emit fuel v = Some e ->
  (length e <= length (plain v))%nat /\ (forall c, affine_cand v = Some c -> length e <= length c)%nat /\
  (forall c, bytes_cand v = Some c -> length e <= length c)%nat /\
  (length e <= length (for_encode v))%nat /\ (length e <= length (rle_encode v))%nat /\ (length e <= length (dict_encode v))%nat /\
  (length e <= length (delta_encode v))%nat /\ (forall c, gen_cand v = Some c -> length e <= length c)%nat.
Proof.
  rewrite emit_unfold. cbv zeta.
  set (a1 := consider (plain v) (affine_cand v)). set (a2 := consider a1 (geometric_cand v)).
  match goal with |- context [mbind _ ?m = _] => destruct m as [b1|] eqn:P; [|discriminate] end. cbn [mbind option_bind].
  destruct (detect_linear_recurrence v) as [found|]; [|discriminate]. cbn [mbind option_bind].
  set (b2 := consider b1 (sparse_cand v)). set (b3 := consider b2 (poly_cand v)). set (b4 := consider b3 (recur_cand v found)).
  set (b5 := consider b4 (gen_cand v)). set (b6 := consider b5 (Some (delta_encode v))). set (b7 := consider b6 (Some (dod_encode v))).
  set (b8 := consider b7 (bytes_cand v)). set (b9 := consider b8 (Some (for_encode v))). set (b10 := consider b9 (Some (rle_encode v))).
  set (b11 := consider b10 (Some (dict_encode v))). set (b12 := consider b11 (lfsr_cand b11 v)). set (b13 := consider b12 (fcsr_cand b12 v)).
  intros E. apply (inj Some) in E. subst e.
  assert (H1 : (length b1 <= length a2)%nat).
  { destruct (detect_period v) as [p|]; [|apply (inj Some) in P; rewrite <- P; lia].
    destruct fuel as [|fuel]; [apply (inj Some) in P; rewrite <- P; lia|].
    destruct (emit fuel (take p v)) as [bl|]; [|discriminate]. cbn [mbind option_bind] in P. apply (inj Some) in P. rewrite <- P. apply consider_le. }
  pose proof (consider_le (plain v) (affine_cand v) : (length a1 <= _)%nat).
  pose proof (consider_le a1 (geometric_cand v) : (length a2 <= _)%nat).
  pose proof (consider_le b1 (sparse_cand v) : (length b2 <= _)%nat).
  pose proof (consider_le b2 (poly_cand v) : (length b3 <= _)%nat).
  pose proof (consider_le b3 (recur_cand v found) : (length b4 <= _)%nat).
  pose proof (consider_le b4 (gen_cand v) : (length b5 <= _)%nat).
  pose proof (consider_le b5 (Some (delta_encode v)) : (length b6 <= _)%nat).
  pose proof (consider_le b6 (Some (dod_encode v)) : (length b7 <= _)%nat).
  pose proof (consider_le b7 (bytes_cand v) : (length b8 <= _)%nat).
  pose proof (consider_le b8 (Some (for_encode v)) : (length b9 <= _)%nat).
  pose proof (consider_le b9 (Some (rle_encode v)) : (length b10 <= _)%nat).
  pose proof (consider_le b10 (Some (dict_encode v)) : (length b11 <= _)%nat).
  pose proof (consider_le b11 (lfsr_cand b11 v) : (length b12 <= _)%nat).
  pose proof (consider_le b12 (fcsr_cand b12 v) : (length b13 <= _)%nat).
  pose proof (consider_cand b8 (for_encode v) : (length b9 <= _)%nat).
  pose proof (consider_cand b9 (rle_encode v) : (length b10 <= _)%nat).
  pose proof (consider_cand b10 (dict_encode v) : (length b11 <= _)%nat).
  pose proof (consider_cand b5 (delta_encode v) : (length b6 <= _)%nat).
  repeat split.
  - lia.
  - intros c C. assert ((length a1 <= length c)%nat) by (unfold a1; rewrite C; apply consider_cand). lia.
  - intros c C. assert ((length b8 <= length c)%nat) by (unfold b8; rewrite C; apply consider_cand). lia.
  - lia.
  - lia.
  - lia.
  - lia.
  - intros c C. assert ((length b5 <= length c)%nat) by (unfold b5; rewrite C; apply consider_cand). lia.
Qed.

(** The fuel of the model never runs out: more of it changes nothing. *)
Lemma emit_fuel fuel : forall fuel' v, (length v <= fuel)%nat -> (length v <= fuel')%nat -> emit fuel v = emit fuel' v.
Proof.
  induction fuel as [|fuel IH]; intros fuel' v L L'.
  - destruct v; [|cbn in L; lia]. rewrite !emit_unfold. destruct fuel'; reflexivity.
  - rewrite !emit_unfold. cbv zeta. destruct (detect_period v) as [p|] eqn:D; [|reflexivity].
    destruct (detect_period_spec v p D) as (PB & _ & _). assert ((length v / 2 < length v)%nat) by (apply Nat.div_lt; [destruct v; cbn in *; lia|lia]).
    destruct fuel' as [|fuel']; [lia|]. rewrite (IH fuel' (take p v)); [reflexivity| |]; rewrite take_length; lia.
Qed.


(** ** The encoder does not panic on small values *)
Definition entries_below (B : Z) (m : list (list Z)) : Prop := Forall (Forall (fun x => Z.abs x <= B)) m.
Lemma entry_below B m r c : 0 <= B -> entries_below B m -> Z.abs (entry m r c) <= B.
Proof.
  intros HB H. unfold entry. destruct (nth_in_or_default r m []) as [I|E]; [|rewrite E; destruct c; cbn; lia].
  assert (R : Forall (fun x => Z.abs x <= B) (nth r m [])) by (eapply List.Forall_forall in H; [exact H|exact I]).
  destruct (nth_in_or_default c (nth r m []) 0) as [J|E]; [|rewrite E; cbn; lia].
  exact (proj1 (List.Forall_forall _ _) R _ J).
Qed.
Lemma below_tl B m : entries_below B m -> entries_below B (tl m).
Proof. destruct m; [trivial|]. intros H. now inversion H. Qed.
Lemma below_drop B j m : entries_below B m -> entries_below B (map (drop_col j) m).
Proof.
  intros H. unfold entries_below. apply List.Forall_map. eapply Forall_impl; [exact H|]. intros row R.
  unfold drop_col. apply Forall_app. split; [now apply Forall_take|now apply Forall_drop].
Qed.
Lemma checked_i128_val x y : checked_i128 x = Some y -> y = x.
Proof. unfold checked_i128. destruct (_ && _); [|discriminate]. now intros [= <-]. Qed.

Lemma det_bound B : 0 <= B -> forall size m d, entries_below B m -> det_i128 size m = Some d ->
  Z.abs d <= Z.of_nat (fact size) * B ^ Z.of_nat size.
Proof.
  intros HB. induction size as [|size IH]; intros m d H E.
  - cbn in E. injection E as <-. cbn. lia.
  - destruct size as [|size]; [|destruct size as [|size]].
    + cbn [det_i128] in E. injection E as <-. pose proof (entry_below B m 0 0 HB H). cbn [fact]. change (Z.of_nat 1) with 1. rewrite Z.pow_1_r. lia.
    + cbn [det_i128] in E.
      destruct (checked_i128 (entry m 0 0 * entry m 1 1)) as [a|] eqn:A; [|discriminate]. cbn [mbind option_bind] in E.
      destruct (checked_i128 (entry m 0 1 * entry m 1 0)) as [b|] eqn:Bq; [|discriminate]. cbn [mbind option_bind] in E.
      apply checked_i128_val in A, Bq, E. subst.
      change (Z.of_nat (fact 2)) with 2. change (Z.of_nat 2) with 2. rewrite Z.pow_2_r.
      pose proof (entry_below B m 0 0 HB H). pose proof (entry_below B m 1 1 HB H). pose proof (entry_below B m 0 1 HB H). pose proof (entry_below B m 1 0 HB H).
      assert (Z.abs (entry m 0 0 * entry m 1 1) <= B * B) by (rewrite Z.abs_mul; apply Z.mul_le_mono_nonneg; lia).
      assert (Z.abs (entry m 0 1 * entry m 1 0) <= B * B) by (rewrite Z.abs_mul; apply Z.mul_le_mono_nonneg; lia). lia.
    + set (n := S (S size)) in *. set (F := Z.of_nat (fact n) * B ^ Z.of_nat n) in *.
      assert (E' : foldl (fun acc j => acc ← acc; d ← det_i128 n (map (drop_col j) (tl m)); cof ← checked_i128 (entry m 0 j * d);
                     checked_i128 (if Nat.even j then acc + cof else acc - cof)) (Some 0) (seq 0 (S n)) = Some d) by exact E.
      clear E.
      assert (G : forall js acc0 r, foldl (fun acc j => acc ← acc; d ← det_i128 n (map (drop_col j) (tl m)); cof ← checked_i128 (entry m 0 j * d);
                     checked_i128 (if Nat.even j then acc + cof else acc - cof)) acc0 js = Some r ->
                  exists a0, acc0 = Some a0 /\ Z.abs r <= Z.abs a0 + len js * (B * F)).
      { induction js as [|j js IHj]; intros acc0 r R; cbn [foldl] in R.
        - exists r. split; [exact R|]. unfold len. cbn. lia.
        - destruct (IHj _ _ R) as (a1 & A1 & L1). destruct acc0 as [a0|]; [|discriminate]. cbn [mbind option_bind] in A1.
          destruct (det_i128 n (map (drop_col j) (tl m))) as [dj|] eqn:DJ; [|discriminate]. cbn [mbind option_bind] in A1.
          destruct (checked_i128 (entry m 0 j * dj)) as [cof|] eqn:CF; [|discriminate]. cbn [mbind option_bind] in A1.
          apply checked_i128_val in CF, A1.
          assert (DB : Z.abs dj <= F) by (apply (IH _ _ (below_drop B j _ (below_tl B m H)) DJ)).
          pose proof (entry_below B m 0 j HB H) as EB.
          assert (CB : Z.abs cof <= B * F) by (rewrite CF, Z.abs_mul; apply Z.mul_le_mono_nonneg; lia).
          exists a0. split; [reflexivity|]. unfold len in *. cbn [length]. rewrite Nat2Z.inj_succ.
          assert (Z.abs a1 <= Z.abs a0 + Z.abs cof) by (rewrite A1; destruct (Nat.even j); lia). lia. }
      destruct (G _ _ _ E') as (a0 & A0 & L). injection A0 as <-. unfold len in L. rewrite seq_length in L.
      rewrite Nat2Z.inj_succ, Z.pow_succ_r by lia.
      replace (Z.of_nat (fact (S n))) with (Z.of_nat (S n) * Z.of_nat (fact n)) by (rewrite <- Nat2Z.inj_mul; reflexivity).
      replace (Z.of_nat (S n) * Z.of_nat (fact n) * (B * B ^ Z.of_nat n)) with (Z.of_nat (S n) * (B * F)) by (unfold F; ring). cbn [Z.abs] in L. lia.
Qed.

Lemma below_set_col B j m b : entries_below B m -> Forall (fun x => Z.abs x <= B) b -> entries_below B (set_col j m b).
Proof.
  intros H. revert b. unfold set_col. induction H as [|row m R M IH]; intros b HB; [destruct b; constructor|].
  destruct b as [|x b]; [constructor|]. inversion HB; subst. cbn [zip_with]. constructor; [|now apply IH].
  now apply Forall_insert.
Qed.
Lemma cramer_safe k m b dm B js : 0 <= B -> Z.of_nat (fact k) * B ^ Z.of_nat k < 2 ^ 127 -> entries_below B m -> Forall (fun x => Z.abs x <= B) b ->
  cramer k m b dm js <> None.
Proof.
  intros HB HK HM Hb. induction js as [|j js IH]; cbn [cramer]; [discriminate|].
  destruct (det_i128 k (set_col j m b)) as [dj|] eqn:D; [|discriminate].
  pose proof (det_bound B HB _ _ _ (below_set_col B j m b HM Hb) D) as DB.
  destruct (Z.eqb_spec dj (- 2 ^ 127)) as [->|N].
  { exfalso. change (Z.abs (- 2 ^ 127)) with (2 ^ 127) in DB. lia. }
  cbn [andb]. destruct (negb _); [discriminate|]. destruct (in_i64 _); [|discriminate].
  destruct (cramer k m b dm js) as [[cs|]|]; congruence.
Qed.
Lemma nth_below B v i : 0 <= B -> Forall (fun x => Z.abs x <= B) v -> Z.abs (nth i v 0) <= B.
Proof.
  intros HB H. destruct (nth_in_or_default i v 0) as [I|E]; [|rewrite E; cbn; lia]. exact (proj1 (List.Forall_forall _ _) H _ I).
Qed.
Lemma solve_safe v k B : 0 <= B -> Z.of_nat (fact k) * B ^ Z.of_nat k < 2 ^ 127 -> Forall (fun x => Z.abs x <= B) v -> solve_recurrence v k <> None.
Proof.
  intros HB HK H. unfold solve_recurrence. destruct (det_i128 k _) as [dm|]; [|discriminate]. destruct (dm =? 0); [discriminate|].
  apply cramer_safe with B; [exact HB|exact HK| |].
  - apply List.Forall_map, List.Forall_forall. intros r _. apply List.Forall_map, List.Forall_forall. intros j _. now apply nth_below.
  - apply List.Forall_map, List.Forall_forall. intros r _. now apply nth_below.
Qed.
Lemma recur_search_safe v ks : (forall k, In k ks -> solve_recurrence v k <> None) -> recur_search v ks <> None.
Proof.
  induction ks as [|k ks IH]; intros H; cbn [recur_search]; [discriminate|].
  pose proof (H k (or_introl eq_refl)) as HK. assert (IH' := IH (fun k' I => H k' (or_intror I))).
  destruct (solve_recurrence v k) as [[cs|]|]; [|exact IH'|congruence].
  destruct (bool_decide _); [discriminate|exact IH'].
Qed.

(** Orders one and two never divide the least [i128]. *)
Lemma i64_product_low x y : is_i64 x -> is_i64 y -> - 2 ^ 126 < x * y.
Proof.
  unfold is_i64. change (2 ^ 63) with 9223372036854775808. change (2 ^ 126) with (9223372036854775808 * 9223372036854775808). intros X Y.
  destruct (Z.leb_spec 0 x); destruct (Z.leb_spec 0 y); nia.
Qed.
Lemma i64_product_high x y : is_i64 x -> is_i64 y -> x * y <= 2 ^ 126.
Proof.
  unfold is_i64. change (2 ^ 63) with 9223372036854775808. change (2 ^ 126) with (9223372036854775808 * 9223372036854775808). intros X Y.
  destruct (Z.leb_spec 0 x); destruct (Z.leb_spec 0 y); nia.
Qed.
Lemma nth_i64 v i : i64s v -> is_i64 (nth i v 0).
Proof.
  intros H. destruct (nth_in_or_default i v 0) as [I|E]; [|rewrite E; split; reflexivity || (cbn; lia)]. exact (proj1 (List.Forall_forall _ _) H _ I).
Qed.
Definition entries_i64 (m : list (list Z)) : Prop := Forall i64s m.
Lemma entry_i64 m r c : entries_i64 m -> is_i64 (entry m r c).
Proof.
  intros H. unfold entry. apply nth_i64. destruct (nth_in_or_default r m []) as [I|E]; [|rewrite E; constructor].
  exact (proj1 (List.Forall_forall _ _) H _ I).
Qed.
Lemma set_col_i64 j m b : entries_i64 m -> i64s b -> entries_i64 (set_col j m b).
Proof.
  intros H. revert b. unfold set_col. induction H as [|row m R M IH]; intros b HB; [destruct b; constructor|].
  destruct b as [|x b]; [constructor|]. inversion HB; subst. cbn [zip_with]. constructor; [|now apply IH]. now apply Forall_insert.
Qed.
Lemma det_small k m d : (k <= 2)%nat -> entries_i64 m -> det_i128 k m = Some d -> d <> - 2 ^ 127.
Proof.
  intros K H E. destruct k as [|[|[|k]]]; [| | |lia].
  - cbn in E. injection E as <-. discriminate.
  - cbn [det_i128] in E. injection E as <-. pose proof (entry_i64 m 0 0 H) as [A _]. intros F. rewrite F in A. revert A. now vm_compute.
  - cbn [det_i128] in E.
    destruct (checked_i128 (entry m 0 0 * entry m 1 1)) as [a|] eqn:A; [|discriminate]. cbn [mbind option_bind] in E.
    destruct (checked_i128 (entry m 0 1 * entry m 1 0)) as [b|] eqn:Bq; [|discriminate]. cbn [mbind option_bind] in E.
    apply checked_i128_val in A, Bq, E. subst.
    pose proof (i64_product_low (entry m 0 0) (entry m 1 1) (entry_i64 m 0 0 H) (entry_i64 m 1 1 H)).
    pose proof (i64_product_high (entry m 0 1) (entry m 1 0) (entry_i64 m 0 1 H) (entry_i64 m 1 0 H)).
    change (2 ^ 127) with (2 ^ 126 + 2 ^ 126). lia.
Qed.
Lemma solve_small v k : (k <= 2)%nat -> i64s v -> solve_recurrence v k <> None.
Proof.
  intros K H. unfold solve_recurrence. destruct (det_i128 k _) as [dm|]; [|discriminate]. destruct (dm =? 0); [discriminate|].
  match goal with |- cramer _ ?m ?b _ _ <> None => assert (M : entries_i64 m); [|assert (B : i64s b); [|generalize (seq 0 k) at 4; generalize dependent m; generalize dependent b]] end.
  - apply List.Forall_map, List.Forall_forall. intros r _. apply List.Forall_map, List.Forall_forall. intros j _. now apply nth_i64.
  - apply List.Forall_map, List.Forall_forall. intros r _. now apply nth_i64.
  - intros b B m M js. induction js as [|j js IH]; cbn [cramer]; [discriminate|].
    destruct (det_i128 k (set_col j m b)) as [dj|] eqn:D; [|discriminate].
    pose proof (det_small k _ _ K (set_col_i64 j m b M B) D) as N. destruct (Z.eqb_spec dj (- 2 ^ 127)); [contradiction|].
    cbn [andb]. destruct (negb _); [discriminate|]. destruct (in_i64 _); [|discriminate].
    destruct (cramer k m b dm js) as [[cs|]|]; congruence.
Qed.

Lemma emit_safe fuel : forall v, i64s v -> (Forall (fun x => Z.abs x <= 2 ^ 30) v \/ (length v < 6)%nat) -> exists e, emit fuel v = Some e.
Proof.
  assert (R : forall v, i64s v -> (Forall (fun x => Z.abs x <= 2 ^ 30) v \/ (length v < 6)%nat) -> detect_linear_recurrence v <> None).
  { intros v H C. unfold detect_linear_recurrence. apply recur_search_safe. intros k K. apply in_seq in K. unfold MAX_RECUR_ORDER in K.
    destruct C as [C|C].
    - apply solve_safe with (2 ^ 30); [lia| |exact C]. destruct k as [|[|[|[|[|k]]]]]; [vm_compute; reflexivity..|lia].
    - apply solve_small; [|exact H]. assert ((length v / 2 <= 2)%nat); [|lia]. apply Nat.lt_succ_r. apply Nat.div_lt_upper_bound; lia. }
  induction fuel as [|fuel IH]; intros v H C; rewrite emit_unfold; cbv zeta.
  - destruct (detect_linear_recurrence v) as [f|] eqn:D; [|now apply R in D].
    destruct (detect_period v); cbn [mbind option_bind]; eexists; reflexivity.
  - destruct (detect_linear_recurrence v) as [f|] eqn:D; [|now apply R in D].
    destruct (detect_period v) as [p|]; cbn [mbind option_bind]; [|eexists; reflexivity].
    destruct (IH (take p v)) as [bl BL]; [now apply i64s_take| |].
    + destruct C as [C|C]; [left; now apply Forall_take|right; rewrite take_length; lia].
    + rewrite BL. cbn [mbind option_bind]. eexists; reflexivity.
Qed.
