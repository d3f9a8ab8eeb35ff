(** Lemmas about the wire codec. *)
From Coq Require Import ZArith List Lia.
From stdpp Require Import list.
From Verif Require Import MachInt BitLemmas Utf8 WireModel.
Open Scope Z_scope.

(** ** Varints *)
Lemma read_write_steps n x shift result rest : 0 <= shift -> 0 <= x < 2 ^ (64 - shift) -> shift < 64 -> x < 2 ^ (7 * Z.of_nat n) -> (0 < n)%nat -> 0 <= result < 2 ^ shift ->
  read_uvarint_loop result shift (uvarint_steps n x ++ rest) = Some (result + x * 2 ^ shift, rest).
Proof.
  revert x shift result. induction n as [|n IH]; intros x shift result Hs Hx Hl Hn Hp Hr; [lia|]. cbn [uvarint_steps].
  assert (P : 0 < 2 ^ shift) by (apply Z.pow_pos_nonneg; lia).
  assert (W : 2 ^ (64 - shift) * 2 ^ shift = two64) by (rewrite <- Z.pow_add_r by lia; replace (64 - shift + shift) with 64 by lia; reflexivity).
  destruct (Z.leb_spec 128 x) as [H|H]; cbn [app read_uvarint_loop].
  - rewrite (proj2 (Z.leb_gt 64 shift)) by lia.
    assert (M : 0 <= x mod 256 < 256) by (apply Z.mod_pos_bound; lia).
    assert (L127 : Z.land (Z.lor (x mod 256) 128) 127 = x mod 128).
    { rewrite Z.land_lor_distr_l. change (Z.land 128 127) with 0. rewrite Z.lor_0_r. change 127 with (2 ^ 7 - 1). rewrite land_mask by lia.
      change (2 ^ 7) with 128. change 256 with (128 * 2). rewrite Z.rem_mul_r by lia. rewrite (Z.mul_comm 128), Z.mod_add by lia. apply Z.mod_mod. lia. }
    assert (L128 : Z.land (Z.lor (x mod 256) 128) 128 =? 0 = false).
    { apply Z.eqb_neq. rewrite Z.land_lor_distr_l. change (Z.land 128 128) with 128. intros E. apply Z.lor_eq_0_iff in E as [_ E]. discriminate. }
    rewrite L127, L128. rewrite Z.shiftl_mul_pow2 by lia.
    assert (M2 : 0 <= x mod 128 < 128) by (apply Z.mod_pos_bound; lia).
    assert (D : x = 128 * (x / 128) + x mod 128) by (apply Z.div_mod; lia).
    rewrite wrap64_small by (unfold is_u64; split; [nia|]; rewrite <- W; apply Z.mul_lt_mono_pos_r; lia).
    rewrite lor_add by lia. rewrite Z.shiftr_div_pow2 by lia. change (2 ^ 7) with 128.
    assert (Hs7 : 7 < 64 - shift).
    { destruct (Z.lt_ge_cases 7 (64 - shift)); [done|]. assert (2 ^ (64 - shift) <= 2 ^ 7) by (apply Z.pow_le_mono_r; lia). change (2 ^ 7) with 128 in *. lia. }
    rewrite IH.
    + f_equal. f_equal. rewrite Z.pow_add_r by lia. change (2 ^ 7) with 128. nia.
    + lia.
    + split; [apply Z.div_pos; lia|]. apply Z.div_lt_upper_bound; [lia|]. change 128 with (2 ^ 7). rewrite <- Z.pow_add_r by lia. replace (7 + (64 - (shift + 7))) with (64 - shift) by lia. lia.
    + lia.
    + apply Z.div_lt_upper_bound; [lia|]. change 128 with (2 ^ 7). rewrite <- Z.pow_add_r by lia. replace (7 + 7 * Z.of_nat n) with (7 * Z.of_nat (S n)) by lia. lia.
    + destruct n; [|lia]. change (2 ^ (7 * Z.of_nat 1)) with 128 in Hn. lia.
    + rewrite Z.pow_add_r by lia. change (2 ^ 7) with 128. nia.
  - rewrite (proj2 (Z.leb_gt 64 shift)) by lia. rewrite (Z.mod_small x 256) by lia.
    assert (E : Z.land x 128 = 0).
    { apply Z.bits_inj'. intros k Hk. rewrite Z.land_spec, Z.bits_0. change 128 with (2 ^ 7). rewrite Z.pow2_bits_eqb by lia.
      destruct (Z.eqb_spec 7 k) as [<-|]; [|apply Bool.andb_false_r]. rewrite (testbit_small x 7 7) by (change (2 ^ 7) with 128; lia). done. }
    rewrite E. cbn [Z.eqb]. change 127 with (2 ^ 7 - 1). rewrite land_mask by lia. change (2 ^ 7) with 128. rewrite (Z.mod_small x 128) by lia.
    rewrite Z.shiftl_mul_pow2 by lia. rewrite wrap64_small by (unfold is_u64; split; [nia|]; rewrite <- W; apply Z.mul_lt_mono_pos_r; lia).
    rewrite lor_add by lia. done.
Qed.
Lemma read_write_uvarint x rest : is_u64 x -> read_uvarint (write_uvarint x ++ rest) = Some (x, rest).
Proof.
  intros [H0 H1]. unfold read_uvarint, write_uvarint. assert (two64 < 2 ^ 70) by reflexivity.
  rewrite read_write_steps; [f_equal; f_equal; lia|lia|exact (conj H0 H1)|lia| |lia|cbn; lia].
  change (7 * Z.of_nat 10) with 70. lia.
Qed.

Lemma uvarint_loop_app r s bs more x rest : read_uvarint_loop r s bs = Some (x, rest) -> read_uvarint_loop r s (bs ++ more) = Some (x, rest ++ more).
Proof.
  revert r s. induction bs as [|b bs IH]; intros r s; cbn [app read_uvarint_loop]; [discriminate|]. destruct (64 <=? s); [discriminate|].
  cbv zeta. destruct (_ =? 0); [intros [= <- <-]; done|apply IH].
Qed.
Lemma uvarint_app bs more x rest : read_uvarint bs = Some (x, rest) -> read_uvarint (bs ++ more) = Some (x, rest ++ more).
Proof. apply uvarint_loop_app. Qed.
Lemma uvarint_loop_consumes r s bs x rest : 0 <= s -> read_uvarint_loop r s bs = Some (x, rest) ->
  exists e, bs = e ++ rest /\ (1 <= length e)%nat /\ 7 * (Z.of_nat (length e) - 1) + s < 64 /\
    forall rest', read_uvarint_loop r s (e ++ rest') = Some (x, rest').
Proof.
  revert r s. induction bs as [|b bs IH]; intros r s Hs; cbn [read_uvarint_loop]; [discriminate|]. destruct (Z.leb_spec 64 s); [discriminate|].
  cbv zeta. destruct (Z.land b 128 =? 0) eqn:E.
  - intros [= <- <-]. exists [b]. split; [done|]. cbn. split; [lia|]. split; [lia|]. intros rest'. rewrite E. now rewrite (proj2 (Z.leb_gt 64 s)).
  - intros Hd. apply IH in Hd as (e & -> & Hl & Hb & Hr); [|lia]. exists (b :: e). split; [done|]. cbn [length]. split; [lia|]. split; [lia|].
    intros rest'. cbn [app read_uvarint_loop]. rewrite E, (proj2 (Z.leb_gt 64 s)) by done. apply Hr.
Qed.
Lemma uvarint_consumes bs x rest : read_uvarint bs = Some (x, rest) -> exists e, bs = e ++ rest /\ (1 <= length e <= 10)%nat /\ forall rest', read_uvarint (e ++ rest') = Some (x, rest').
Proof. intros H. apply uvarint_loop_consumes in H as (e & -> & H1 & H2 & H3); [|lia]. exists e. split; [done|]. split; [lia|]. exact H3. Qed.
Lemma lor_u64 a b : is_u64 a -> is_u64 b -> is_u64 (Z.lor a b).
Proof.
  intros Ha Hb. unfold is_u64, two64 in *. split; [apply Z.lor_nonneg; lia|]. destruct (Z.eq_dec (Z.lor a b) 0) as [->|N]; [lia|].
  assert (0 <= Z.lor a b) by (apply Z.lor_nonneg; lia). apply Z.log2_lt_pow2; [lia|]. rewrite Z.log2_lor by lia.
  apply Z.max_lub_lt; [destruct (Z.eq_dec a 0) as [->|]|destruct (Z.eq_dec b 0) as [->|]]; try (apply Z.log2_lt_pow2; lia); cbn; lia.
Qed.
Lemma uvarint_loop_range r s bs x rest : is_u64 r -> read_uvarint_loop r s bs = Some (x, rest) -> is_u64 x.
Proof.
  revert r s. induction bs as [|b bs IH]; intros r s Hr; cbn [read_uvarint_loop]; [discriminate|]. destruct (64 <=? s); [discriminate|].
  cbv zeta. assert (is_u64 (Z.lor r (wrap64 (Z.shiftl (Z.land b 127) s)))) by (apply lor_u64; [done|apply wrap64_range]).
  destruct (_ =? 0); [intros [= <- <-]; done|now apply IH].
Qed.
Lemma uvarint_range bs x rest : read_uvarint bs = Some (x, rest) -> is_u64 x.
Proof. apply uvarint_loop_range. unfold is_u64, two64. lia. Qed.

(** ** Zig-zag *)
Lemma zigzag_val x : is_i64 x -> zigzag x = if 0 <=? x then 2 * x else - 2 * x - 1.
Proof.
  intros H. unfold zigzag, is_i64, wrap_i64 in *. rewrite Z.shiftl_mul_pow2, Z.shiftr_div_pow2 by lia. change (2 ^ 1) with 2. destruct (Z.leb_spec 0 x).
  - rewrite (Z.div_small x) by lia. rewrite Z.lxor_0_r. rewrite (Z.mod_small (x * 2)) by (unfold two64; lia).
    destruct (Z.ltb_spec (x * 2) (2 ^ 63)).
    + unfold wrap64. rewrite Z.mod_small; unfold two64; lia.
    + unfold wrap64. rewrite <- (Z.mod_add _ 1) by (unfold two64; lia). rewrite Z.mod_small; unfold two64; lia.
  - assert (D : x / 2 ^ 63 = -1) by (symmetry; apply (Z.div_unique_pos x _ (-1) (x + 2 ^ 63)); lia). rewrite D. rewrite Z.lxor_m1_r. unfold Z.lnot.
    assert (M : (x * 2) mod two64 = x * 2 + two64) by (symmetry; apply (Z.mod_unique_pos _ _ (-1)); unfold two64; lia). rewrite M.
    destruct (Z.ltb_spec (x * 2 + two64) (2 ^ 63)); unfold wrap64, Z.pred.
    + rewrite <- (Z.mod_add _ 1) by (unfold two64; lia). rewrite Z.mod_small; unfold two64 in *; lia.
    + rewrite Z.mod_small; unfold two64 in *; lia.
Qed.
Lemma unzigzag_val u : is_u64 u -> unzigzag u = if Z.even u then u / 2 else - (u / 2) - 1.
Proof.
  intros H. unfold unzigzag, is_u64, wrap_i64, two64 in *. rewrite Z.shiftr_div_pow2 by lia. change (2 ^ 1) with 2.
  assert (B : 0 <= u / 2 < 2 ^ 63) by (split; [apply Z.div_pos; lia|apply Z.div_lt_upper_bound; lia]).
  rewrite (Z.mod_small (u / 2)) by lia. rewrite (proj2 (Z.ltb_lt _ _)) by lia.
  change 1 with (2 ^ 1 - 1) at 1. rewrite land_mask by lia. change (2 ^ 1) with 2. rewrite Zmod_even. destruct (Z.even u).
  - now rewrite Z.lxor_0_r.
  - change (- (1)) with (-1). rewrite Z.lxor_m1_r. unfold Z.lnot. lia.
Qed.
Lemma zigzag_range x : is_i64 x -> is_u64 (zigzag x).
Proof. intros H. rewrite zigzag_val by done. unfold is_u64, is_i64, two64 in *. destruct (Z.leb_spec 0 x); lia. Qed.
Lemma unzigzag_range u : is_u64 u -> is_i64 (unzigzag u).
Proof.
  intros H. rewrite unzigzag_val by done. unfold is_u64, is_i64, two64 in *. pose proof (Z.div_mod u 2 ltac:(lia)). pose proof (Z.mod_pos_bound u 2 ltac:(lia)). destruct (Z.even u); lia.
Qed.
Lemma unzigzag_zigzag x : is_i64 x -> unzigzag (zigzag x) = x.
Proof.
  intros H. rewrite unzigzag_val by now apply zigzag_range. rewrite zigzag_val by done. destruct (Z.leb_spec 0 x).
  - rewrite Z.even_mul. cbn [Z.even orb]. rewrite Z.mul_comm, Z.div_mul by lia. done.
  - replace (- 2 * x - 1) with (1 + 2 * (- x - 1)) by lia. rewrite Z.even_add_mul_2. cbn [Z.even].
    rewrite Z.mul_comm, Z.div_add by lia. change (1 / 2) with 0. lia.
Qed.
Lemma zigzag_unzigzag u : is_u64 u -> zigzag (unzigzag u) = u.
Proof.
  intros H. rewrite zigzag_val by now apply unzigzag_range. rewrite unzigzag_val by done.
  pose proof (Z.div_mod u 2 ltac:(lia)) as D. rewrite Zmod_even in D. unfold is_u64 in H. assert (0 <= u / 2) by (apply Z.div_pos; lia).
  destruct (Z.even u).
  - rewrite (proj2 (Z.leb_le _ _)) by lia. lia.
  - rewrite (proj2 (Z.leb_gt _ _)) by lia. lia.
Qed.

(** ** Strings and floats *)
Lemma read_write_str s rest : is_text s -> Z.of_nat (blen s) < two64 -> read_str (write_str s ++ rest) = Some (s, rest).
Proof.
  intros Ht Hl. unfold read_str, write_str. rewrite <- app_assoc, read_write_uvarint by (unfold is_u64; lia).
  rewrite app_length. rewrite (proj2 (Z.ltb_ge _ _)) by (unfold blen; lia). rewrite Nat2Z.id. unfold blen. rewrite take_app, drop_app. now rewrite from_utf8_bytes.
Qed.
Lemma read_str_app bs more s rest : read_str bs = Some (s, rest) -> read_str (bs ++ more) = Some (s, rest ++ more).
Proof.
  unfold read_str. destruct (read_uvarint bs) as [[n bs']|] eqn:E; [|discriminate]. rewrite (uvarint_app _ more _ _ E).
  destruct (Z.ltb_spec (Z.of_nat (length bs')) n); [discriminate|]. rewrite app_length. rewrite (proj2 (Z.ltb_ge _ _)) by lia.
  rewrite take_app_le, drop_app_le by lia. destruct (from_utf8 _); [intros [= <- <-]|discriminate]. done.
Qed.
Lemma read_str_shorter bs s rest : read_str bs = Some (s, rest) -> (length rest < length bs)%nat.
Proof.
  unfold read_str. destruct (read_uvarint bs) as [[n bs']|] eqn:E; [|discriminate]. apply uvarint_consumes in E as (e & -> & H & _).
  destruct (_ <? n); [discriminate|]. destruct (from_utf8 _); [intros [= <- <-]|discriminate]. rewrite app_length, drop_length. lia.
Qed.
Lemma le_bytes_length n x : length (le_bytes n x) = n.
Proof. revert x. induction n; intros; cbn; auto. Qed.
Lemma from_le_bytes n x : 0 <= x < 256 ^ Z.of_nat n -> from_le (le_bytes n x) = x.
Proof.
  revert x. induction n as [|n IH]; intros x H; cbn [le_bytes from_le]; [cbn in H; lia|].
  rewrite Nat2Z.inj_succ, Z.pow_succ_r in H by lia. pose proof (Z.div_mod x 256 ltac:(lia)). pose proof (Z.mod_pos_bound x 256 ltac:(lia)).
  rewrite IH; [lia|]. split; [apply Z.div_pos; lia|apply Z.div_lt_upper_bound; lia].
Qed.
Lemma expect_app bs more t r : expect_tag bs t = Some r -> expect_tag (bs ++ more) t = Some (r ++ more).
Proof. destruct bs as [|b bs]; cbn; [discriminate|]. destruct (b =? t); [intros [= <-]; done|discriminate]. Qed.
Lemma expect_shorter bs t r : expect_tag bs t = Some r -> length bs = S (length r).
Proof. destruct bs as [|b bs]; cbn; [discriminate|]. destruct (b =? t); [intros [= <-]; done|discriminate]. Qed.

Lemma header_app bs more a b c r : read_inductive_header bs = Some (a, b, c, r) -> read_inductive_header (bs ++ more) = Some (a, b, c, r ++ more).
Proof.
  unfold read_inductive_header. destruct (expect_tag bs T_INDUCTIVE) as [b1|] eqn:E1; [|discriminate]. rewrite (expect_app _ more _ _ E1).
  destruct (read_str b1) as [[s1 b2]|] eqn:E2; [|discriminate]. rewrite (read_str_app _ more _ _ E2).
  destruct (read_str b2) as [[s2 b3]|] eqn:E3; [|discriminate]. rewrite (read_str_app _ more _ _ E3).
  destruct (read_uvarint b3) as [[n b4]|] eqn:E4; [|discriminate]. rewrite (uvarint_app _ more _ _ E4). now intros [= <- <- <- <-].
Qed.
Lemma header_shorter bs a b c r : read_inductive_header bs = Some (a, b, c, r) -> (length r < length bs)%nat.
Proof.
  unfold read_inductive_header. destruct (expect_tag bs T_INDUCTIVE) as [b1|] eqn:E1; [|discriminate]. apply expect_shorter in E1.
  destruct (read_str b1) as [[s1 b2]|] eqn:E2; [|discriminate]. apply read_str_shorter in E2.
  destruct (read_str b2) as [[s2 b3]|] eqn:E3; [|discriminate]. apply read_str_shorter in E3.
  destruct (read_uvarint b3) as [[n b4]|] eqn:E4; [|discriminate]. apply uvarint_consumes in E4 as (e & E4 & ? & _). apply (f_equal length) in E4. rewrite app_length in E4.
  intros [= <- <- <- <-]. lia.
Qed.
Lemma header_ok ty c n rest : is_text ty -> is_text c -> Z.of_nat (blen ty) < two64 -> Z.of_nat (blen c) < two64 -> is_u64 n ->
  read_inductive_header (write_inductive_header ty c n ++ rest) = Some (ty, c, n, rest).
Proof.
  intros. unfold read_inductive_header, write_inductive_header. cbn [app expect_tag]. rewrite Z.eqb_refl. rewrite <- !app_assoc.
  rewrite read_write_str by done. rewrite read_write_str by done. rewrite read_write_uvarint by done. done.
Qed.

(** ** Readers that look only at what they consume *)
Definition local {A} (f : list Z -> option (A * list Z)) : Prop :=
  forall bs v r, f bs = Some (v, r) -> exists e, bs = e ++ r /\ forall r', f (e ++ r') = Some (v, r').
Lemma local_ret {A} (v : A) : local (fun bs => Some (v, bs)).
Proof. intros bs w r [= <- <-]. now exists []. Qed.
Lemma local_fail {A} : local (fun bs => @None (A * list Z)).
Proof. intros bs w r. discriminate. Qed.
Lemma local_bind {A B} (f : list Z -> option (A * list Z)) (g : A -> list Z -> option (B * list Z)) :
  local f -> (forall a, local (g a)) -> local (fun bs => match f bs with None => None | Some (a, bs) => g a bs end).
Proof.
  intros Hf Hg bs v r H. destruct (f bs) as [[a b1]|] eqn:E; [|discriminate]. destruct (Hf _ _ _ E) as (e1 & -> & R1). destruct (Hg _ _ _ _ H) as (e2 & -> & R2).
  exists (e1 ++ e2). split; [now rewrite app_assoc|]. intros r'. now rewrite <- app_assoc, R1, R2.
Qed.
Lemma local_tag {A} t (g : list Z -> option (A * list Z)) : local g -> local (fun bs => match expect_tag bs t with None => None | Some bs => g bs end).
Proof.
  intros Hg bs v r. destruct bs as [|b bs]; cbn; [discriminate|]. destruct (b =? t) eqn:E; [|discriminate]. intros H. destruct (Hg _ _ _ H) as (e & -> & R).
  exists (b :: e). split; [done|]. intros r'. cbn. now rewrite E.
Qed.
Lemma local_uvarint : local read_uvarint.
Proof. intros bs v r H. apply uvarint_consumes in H as (e & -> & _ & R). now exists e. Qed.
Lemma local_str : local read_str.
Proof.
  apply (local_bind read_uvarint); [apply local_uvarint|]. intros n bs v r. destruct (Z.ltb_spec (Z.of_nat (length bs)) n); [discriminate|].
  destruct (from_utf8 (take (Z.to_nat n) bs)) as [s|] eqn:E; [|discriminate]. intros [= <- <-]. exists (take (Z.to_nat n) bs). rewrite take_drop. split; [done|]. intros r'.
  assert (L : length (take (Z.to_nat n) bs) = Z.to_nat n) by (rewrite take_length; lia). rewrite app_length. rewrite (proj2 (Z.ltb_ge _ _)) by lia.
  rewrite take_app_alt, drop_app_alt by done. now rewrite E.
Qed.
Lemma local_header bs a c k r : read_inductive_header bs = Some (a, c, k, r) -> exists e, bs = e ++ r /\ forall r', read_inductive_header (e ++ r') = Some (a, c, k, r').
Proof.
  apply (local_tag T_INDUCTIVE (fun bs => match read_str bs with None => None | Some (type_name, bs) => match read_str bs with None => None | Some (constructor, bs) =>
     match read_uvarint bs with None => None | Some (n, bs) => Some (type_name, constructor, n, bs) end end end)).
  apply (local_bind read_str); [apply local_str|]. intros ty. apply (local_bind read_str); [apply local_str|]. intros cn. apply (local_bind read_uvarint); [apply local_uvarint|]. intros n. apply local_ret.
Qed.

(** ** Values *)
Section values.
  Context (env : wenv).

  (** Decoding extends to longer inputs. *)
  Lemma dec_app_all n :
    (forall ty bs more v r, dec n env ty bs = Some (v, r) -> dec n env ty (bs ++ more) = Some (v, r ++ more)) /\
    (forall t k bs more v r, dec_many n env t k bs = Some (v, r) -> dec_many n env t k (bs ++ more) = Some (v, r ++ more)) /\
    (forall tys bs more v r, dec_fields n env tys bs = Some (v, r) -> dec_fields n env tys (bs ++ more) = Some (v, r ++ more)).
  Proof.
    induction n as [|n (IH1 & IH2 & IH3)].
    { split; [|split].
      - discriminate.
      - intros t k bs more v r. cbn. destruct (k =? 0); [intros [= <- <-]; done|discriminate].
      - intros tys bs more v r. cbn. destruct tys; [intros [= <- <-]; done|discriminate]. }
    split; [|split].
    - intros ty bs more v r. cbn [dec]. destruct ty as [| | | |t|name].
      + destruct (expect_tag bs T_INT) as [b1|] eqn:E1; [|discriminate]. rewrite (expect_app _ more _ _ E1).
        destruct (read_uvarint b1) as [[u b2]|] eqn:E2; [|discriminate]. rewrite (uvarint_app _ more _ _ E2). now intros [= <- <-].
      + destruct bs as [|t bs]; [discriminate|]. cbn [app]. destruct (t =? T_TRUE); [now intros [= <- <-]|]. destruct (t =? T_FALSE); [now intros [= <- <-]|discriminate].
      + destruct (expect_tag bs T_FLOAT) as [b1|] eqn:E1; [|discriminate]. rewrite (expect_app _ more _ _ E1).
        destruct (Nat.ltb_spec (length b1) 8); [discriminate|]. rewrite app_length. rewrite (proj2 (Nat.ltb_ge _ _)) by lia.
        rewrite take_app_le, drop_app_le by lia. now intros [= <- <-].
      + destruct (expect_tag bs T_TEXT) as [b1|] eqn:E1; [|discriminate]. rewrite (expect_app _ more _ _ E1).
        destruct (read_str b1) as [[s b2]|] eqn:E2; [|discriminate]. rewrite (read_str_app _ more _ _ E2). now intros [= <- <-].
      + destruct (expect_tag bs T_LIST) as [b1|] eqn:E1; [|discriminate]. rewrite (expect_app _ more _ _ E1).
        destruct (read_uvarint b1) as [[u b2]|] eqn:E2; [|discriminate]. rewrite (uvarint_app _ more _ _ E2).
        destruct (dec_many n env t u b2) as [[vs b3]|] eqn:E3; [|discriminate]. rewrite (IH2 _ _ _ more _ _ E3). now intros [= <- <-].
      + destruct (read_inductive_header bs) as [[[[a c] k] b1]|] eqn:E1; [|discriminate]. rewrite (header_app _ more _ _ _ _ E1).
        destruct (assoc name env) as [vars|]; [|discriminate]. destruct (assoc c vars) as [tys|]; [|discriminate].
        destruct (dec_fields n env tys b1) as [[vs b2]|] eqn:E2; [|discriminate]. rewrite (IH3 _ _ more _ _ E2). now intros [= <- <-].
    - intros t k bs more v r. cbn [dec_many]. destruct (k =? 0); [now intros [= <- <-]|].
      destruct (dec n env t bs) as [[x b1]|] eqn:E1; [|discriminate]. rewrite (IH1 _ _ more _ _ E1).
      destruct (dec_many n env t (k - 1) b1) as [[xs b2]|] eqn:E2; [|discriminate]. rewrite (IH2 _ _ _ more _ _ E2). now intros [= <- <-].
    - intros tys bs more v r. cbn [dec_fields]. destruct tys as [|t tys]; [now intros [= <- <-]|].
      destruct (dec n env t bs) as [[x b1]|] eqn:E1; [|discriminate]. rewrite (IH1 _ _ more _ _ E1).
      destruct (dec_fields n env tys b1) as [[xs b2]|] eqn:E2; [|discriminate]. rewrite (IH3 _ _ more _ _ E2). now intros [= <- <-].
  Qed.

  (** ... and looks only at what it consumes. *)
  Lemma dec_local_all n :
    (forall ty, local (dec n env ty)) /\ (forall t k, local (dec_many n env t k)) /\ (forall tys, local (dec_fields n env tys)).
  Proof.
    induction n as [|n (IH1 & IH2 & IH3)].
    { split; [|split].
      - intros ty bs v r. discriminate.
      - intros t k. cbn. destruct (k =? 0); [apply local_ret|apply local_fail].
      - intros tys. cbn. destruct tys; [apply local_ret|apply local_fail]. }
    split; [|split].
    - intros ty. cbn [dec]. destruct ty as [| | | |t|name].
      + apply local_tag. apply (local_bind read_uvarint); [apply local_uvarint|]. intros u. apply local_ret.
      + intros bs v r. destruct bs as [|t bs]; [discriminate|]. intros H. exists [t].
        destruct (t =? T_TRUE) eqn:E1; [|destruct (t =? T_FALSE) eqn:E2; [|discriminate]]; injection H as <- <-; split; try done; intros r'; cbn [app]; rewrite E1; try rewrite E2; done.
      + apply local_tag. intros bs v r H. destruct (Nat.ltb_spec (length bs) 8); [discriminate|]. injection H as <- <-. exists (take 8 bs). rewrite take_drop. split; [done|]. intros r'.
        assert (L8 : length (take 8 bs) = 8%nat) by (rewrite take_length; lia). rewrite app_length, L8. cbn [Nat.ltb Nat.leb Nat.add].
        now rewrite take_app_alt, drop_app_alt by done.
      + apply local_tag. apply (local_bind read_str); [apply local_str|]. intros s. apply local_ret.
      + apply local_tag. apply (local_bind read_uvarint); [apply local_uvarint|]. intros u. apply (local_bind (dec_many n env t u)); [apply IH2|]. intros vs. apply local_ret.
      + intros bs v r. destruct (read_inductive_header bs) as [[[[a c] k] b1]|] eqn:E1; [|discriminate].
        destruct (assoc name env) as [vars|] eqn:E2; [|discriminate]. destruct (assoc c vars) as [tys|] eqn:E3; [|discriminate].
        destruct (dec_fields n env tys b1) as [[vs b2]|] eqn:E4; [|discriminate]. intros [= <- <-].
        destruct (local_header _ _ _ _ _ E1) as (e1 & -> & R1). destruct (IH3 _ _ _ _ E4) as (e2 & -> & R2). exists (e1 ++ e2). split; [now rewrite app_assoc|].
        intros r'. rewrite <- app_assoc, R1, E3, R2. done.
    - intros t k. cbn [dec_many]. destruct (k =? 0); [apply local_ret|]. apply (local_bind (dec n env t)); [apply IH1|]. intros v.
      apply (local_bind (dec_many n env t (k - 1))); [apply IH2|]. intros vs. apply local_ret.
    - intros tys. cbn [dec_fields]. destruct tys as [|t tys]; [apply local_ret|]. apply (local_bind (dec n env t)); [apply IH1|]. intros v.
      apply (local_bind (dec_fields n env tys)); [apply IH3|]. intros vs. apply local_ret.
  Qed.
  Lemma dec_mono_all n m : (n <= m)%nat ->
    (forall ty bs v, dec n env ty bs = Some v -> dec m env ty bs = Some v) /\
    (forall t k bs v, dec_many n env t k bs = Some v -> dec_many m env t k bs = Some v) /\
    (forall tys bs v, dec_fields n env tys bs = Some v -> dec_fields m env tys bs = Some v).
  Proof.
    revert m. induction n as [|n IH]; intros m Hm.
    { split; [|split].
      - discriminate.
      - intros t k bs v. destruct m; cbn; destruct (k =? 0); done.
      - intros tys bs v. destruct m; cbn; destruct tys; done. }
    destruct m as [|m]; [lia|]. destruct (IH m) as (IH1 & IH2 & IH3); [lia|]. split; [|split].
    - intros ty bs v. cbn [dec]. destruct ty as [| | | |t|name]; try done.
      + destruct (expect_tag bs T_LIST) as [b1|]; [|done]. destruct (read_uvarint b1) as [[u b2]|]; [|done].
        destruct (dec_many n env t u b2) as [p|] eqn:E; [|done]. now rewrite (IH2 _ _ _ _ E).
      + destruct (read_inductive_header bs) as [[[[a c] k] b1]|]; [|done]. destruct (assoc name env) as [vars|]; [|done]. destruct (assoc c vars) as [tys|]; [|done].
        destruct (dec_fields n env tys b1) as [p|] eqn:E; [|done]. now rewrite (IH3 _ _ _ E).
    - intros t k bs v. cbn [dec_many]. destruct (k =? 0); [done|]. destruct (dec n env t bs) as [[x b1]|] eqn:E; [|done]. rewrite (IH1 _ _ _ E).
      destruct (dec_many n env t (k - 1) b1) as [p|] eqn:E2; [|done]. now rewrite (IH2 _ _ _ _ E2).
    - intros tys bs v. cbn [dec_fields]. destruct tys as [|t tys]; [done|]. destruct (dec n env t bs) as [[x b1]|] eqn:E; [|done]. rewrite (IH1 _ _ _ E).
      destruct (dec_fields n env tys b1) as [p|] eqn:E2; [|done]. now rewrite (IH3 _ _ _ E2).
  Qed.

  (** Decoding a value consumes at least its tag. *)
  Lemma dec_shorter_all n :
    (forall ty bs v r, dec n env ty bs = Some (v, r) -> (length r < length bs)%nat) /\
    (forall t k bs v r, dec_many n env t k bs = Some (v, r) -> (length r <= length bs)%nat) /\
    (forall tys bs v r, dec_fields n env tys bs = Some (v, r) -> (length r <= length bs)%nat).
  Proof.
    induction n as [|n (IH1 & IH2 & IH3)].
    { split; [|split].
      - discriminate.
      - intros t k bs v r. cbn. destruct (k =? 0); [intros [= <- <-]; done|discriminate].
      - intros tys bs v r. cbn. destruct tys; [intros [= <- <-]; done|discriminate]. }
    split; [|split].
    - intros ty bs v r. cbn [dec]. destruct ty as [| | | |t|name].
      + destruct (expect_tag bs T_INT) as [b1|] eqn:E1; [|discriminate]. apply expect_shorter in E1.
        destruct (read_uvarint b1) as [[u b2]|] eqn:E2; [|discriminate]. apply uvarint_consumes in E2 as (e & E2 & _). apply (f_equal length) in E2. rewrite app_length in E2. intros [= <- <-]. lia.
      + destruct bs as [|t bs]; [discriminate|]. cbn. destruct (t =? T_TRUE); [intros [= <- <-]; lia|]. destruct (t =? T_FALSE); [intros [= <- <-]; lia|discriminate].
      + destruct (expect_tag bs T_FLOAT) as [b1|] eqn:E1; [|discriminate]. apply expect_shorter in E1.
        destruct (Nat.ltb (length b1) 8); [discriminate|]. intros [= <- <-]. rewrite drop_length. lia.
      + destruct (expect_tag bs T_TEXT) as [b1|] eqn:E1; [|discriminate]. apply expect_shorter in E1.
        destruct (read_str b1) as [[s b2]|] eqn:E2; [|discriminate]. apply read_str_shorter in E2. intros [= <- <-]. lia.
      + destruct (expect_tag bs T_LIST) as [b1|] eqn:E1; [|discriminate]. apply expect_shorter in E1.
        destruct (read_uvarint b1) as [[u b2]|] eqn:E2; [|discriminate]. apply uvarint_consumes in E2 as (e & E2 & _). apply (f_equal length) in E2. rewrite app_length in E2.
        destruct (dec_many n env t u b2) as [[vs b3]|] eqn:E3; [|discriminate]. apply IH2 in E3. intros [= <- <-]. lia.
      + destruct (read_inductive_header bs) as [[[[a c] k] b1]|] eqn:E1; [|discriminate]. apply header_shorter in E1.
        destruct (assoc name env) as [vars|]; [|discriminate]. destruct (assoc c vars) as [tys|]; [|discriminate].
        destruct (dec_fields n env tys b1) as [[vs b2]|] eqn:E2; [|discriminate]. apply IH3 in E2. intros [= <- <-]. lia.
    - intros t k bs v r. cbn [dec_many]. destruct (k =? 0); [now intros [= <- <-]|].
      destruct (dec n env t bs) as [[x b1]|] eqn:E1; [|discriminate]. apply IH1 in E1.
      destruct (dec_many n env t (k - 1) b1) as [[xs b2]|] eqn:E2; [|discriminate]. apply IH2 in E2. intros [= <- <-]. lia.
    - intros tys bs v r. cbn [dec_fields]. destruct tys as [|t tys]; [now intros [= <- <-]|].
      destruct (dec n env t bs) as [[x b1]|] eqn:E1; [|discriminate]. apply IH1 in E1.
      destruct (dec_fields n env tys b1) as [[xs b2]|] eqn:E2; [|discriminate]. apply IH3 in E2. intros [= <- <-]. lia.
  Qed.

  (** The step bound does not matter once it exceeds twice the input. *)
  Lemma dec_steps_all L :
    (forall n m ty bs, (length bs <= L)%nat -> (2 * length bs + 1 <= n)%nat -> (2 * length bs + 1 <= m)%nat -> dec n env ty bs = dec m env ty bs) /\
    (forall n m t k bs, (length bs <= L)%nat -> (2 * length bs + 2 <= n)%nat -> (2 * length bs + 2 <= m)%nat -> dec_many n env t k bs = dec_many m env t k bs) /\
    (forall n m tys bs, (length bs <= L)%nat -> (2 * length bs + 2 <= n)%nat -> (2 * length bs + 2 <= m)%nat -> dec_fields n env tys bs = dec_fields m env tys bs).
  Proof.
    induction L as [L IH] using lt_wf_ind.
    assert (A1 : forall n m ty bs, (length bs <= L)%nat -> (2 * length bs + 1 <= n)%nat -> (2 * length bs + 1 <= m)%nat -> dec n env ty bs = dec m env ty bs).
    { intros n m ty bs HL Hn Hm. destruct n as [|n]; [lia|]. destruct m as [|m]; [lia|]. cbn [dec]. destruct ty as [| | | |t|name]; try done.
      - destruct (expect_tag bs T_LIST) as [b1|] eqn:E1; [|done]. apply expect_shorter in E1.
        destruct (read_uvarint b1) as [[u b2]|] eqn:E2; [|done]. apply uvarint_consumes in E2 as (e & E2 & ? & _). apply (f_equal length) in E2. rewrite app_length in E2.
        destruct (IH (length b2)) as (_ & IH2 & _); [lia|]. rewrite (IH2 n m) by lia. done.
      - destruct (read_inductive_header bs) as [[[[a c] k] b1]|] eqn:E1; [|done]. apply header_shorter in E1.
        destruct (assoc name env) as [vars|]; [|done]. destruct (assoc c vars) as [tys|]; [|done].
        destruct (IH (length b1)) as (_ & _ & IH3); [lia|]. rewrite (IH3 n m) by lia. done. }
    split; [done|]. split.
    - intros n m t k bs HL Hn Hm. destruct n as [|n]; [lia|]. destruct m as [|m]; [lia|]. cbn [dec_many]. destruct (k =? 0); [done|].
      rewrite (A1 n m) by lia. destruct (dec m env t bs) as [[x b1]|] eqn:E1; [|done]. apply (proj1 (dec_shorter_all m)) in E1.
      destruct (IH (length b1)) as (_ & IH2 & _); [lia|]. rewrite (IH2 n m) by lia. done.
    - intros n m tys bs HL Hn Hm. destruct n as [|n]; [lia|]. destruct m as [|m]; [lia|]. cbn [dec_fields]. destruct tys as [|t tys]; [done|].
      rewrite (A1 n m) by lia. destruct (dec m env t bs) as [[x b1]|] eqn:E1; [|done]. apply (proj1 (dec_shorter_all m)) in E1.
      destruct (IH (length b1)) as (_ & _ & IH3); [lia|]. rewrite (IH3 n m) by lia. done.
  Qed.
  Lemma wire_decode_steps ty bs n : (2 * length bs + 1 <= n)%nat -> dec n env ty bs = wire_decode env ty bs.
  Proof. intros H. unfold wire_decode. apply (proj1 (dec_steps_all (length bs))); lia. Qed.

  (** Typed values. *)
  Fixpoint typed (v : wval) (t : wty) {struct v} : Prop :=
    match v, t with
    | VInt x, WInt => is_i64 x
    | VBool _, WBool => True
    | VFloat bits, WFloat => is_u64 bits
    | VText s, WText => is_text s /\ Z.of_nat (blen s) < two64
    | VSeq vs, WSeq t => Z.of_nat (length vs) < two64 /\ (fix all vs := match vs with [] => True | v :: vs => typed v t /\ all vs end) vs
    | VEnum ty c args, WEnum name =>
        ty = name /\ is_text ty /\ is_text c /\ Z.of_nat (blen ty) < two64 /\ Z.of_nat (blen c) < two64 /\ Z.of_nat (length args) < two64 /\
        exists variants tys, assoc name env = Some variants /\ assoc c variants = Some tys /\
          (fix all2 vs ts := match vs, ts with [], [] => True | v :: vs, t :: ts => typed v t /\ all2 vs ts | _, _ => False end) args tys
    | _, _ => False
    end.
  Fixpoint vsize (v : wval) : nat :=
    match v with
    | VSeq vs => S (list_sum (map (fun v => S (vsize v)) vs))
    | VEnum _ _ vs => S (list_sum (map (fun v => S (vsize v)) vs))
    | _ => 1
    end.
  Lemma typed_all vs t : (fix all vs := match vs with [] => True | v :: vs => typed v t /\ all vs end) vs <-> Forall (fun v => typed v t) vs.
  Proof. induction vs as [|v vs IH]; [split; constructor|]. rewrite IH. split; [intros [? ?]; now constructor|inversion 1; auto]. Qed.
  Lemma typed_all2 vs ts : (fix all2 vs ts := match vs, ts with [], [] => True | v :: vs, t :: ts => typed v t /\ all2 vs ts | _, _ => False end) vs ts <-> Forall2 typed vs ts.
  Proof.
    revert ts. induction vs as [|v vs IH]; intros ts; destruct ts as [|t ts]; try (split; [done|inversion 1]); [split; constructor|].
    rewrite IH. split; [intros [? ?]; now constructor|inversion 1; auto].
  Qed.

  Lemma roundtrip_all n :
    (forall v ty rest, typed v ty -> (vsize v <= n)%nat -> dec n env ty (wire_encode v ++ rest) = Some (v, rest)) /\
    (forall vs t rest, Forall (fun v => typed v t) vs -> (list_sum (map (fun v => S (vsize v)) vs) <= n)%nat ->
       dec_many n env t (Z.of_nat (length vs)) (concat (map wire_encode vs) ++ rest) = Some (vs, rest)) /\
    (forall vs tys rest, Forall2 typed vs tys -> (list_sum (map (fun v => S (vsize v)) vs) <= n)%nat ->
       dec_fields n env tys (concat (map wire_encode vs) ++ rest) = Some (vs, rest)).
  Proof.
    induction n as [|n (IH1 & IH2 & IH3)].
    { split; [|split].
      - intros v ty rest _ H. destruct v; cbn in H; lia.
      - intros vs t rest _ H. destruct vs; [done|cbn in H; lia].
      - intros vs tys rest F H. destruct F; [done|cbn in H; lia]. }
    split; [|split].
    - intros v ty rest T H. destruct v as [x|b|bits|s|vs|tn c args], ty as [| | | |t|name]; cbn [typed] in T; try done; cbn [wire_encode].
      + cbn [app dec expect_tag]. rewrite Z.eqb_refl. rewrite read_write_uvarint by now apply zigzag_range. now rewrite unzigzag_zigzag.
      + destruct b; reflexivity.
      + cbn [app dec expect_tag]. rewrite Z.eqb_refl. rewrite app_length, le_bytes_length. rewrite (proj2 (Nat.ltb_ge _ _)) by lia.
        pose proof (le_bytes_length 8 bits) as L. rewrite <- L at 1 3. rewrite take_app, drop_app. rewrite from_le_bytes; [done|]. exact T.
      + destruct T as [T1 T2]. cbn [app dec expect_tag]. rewrite Z.eqb_refl. now rewrite read_write_str.
      + destruct T as [T1 T2]. apply typed_all in T2. cbn [app dec expect_tag]. rewrite Z.eqb_refl. rewrite <- app_assoc.
        rewrite read_write_uvarint by (unfold is_u64; lia). rewrite IH2; [done|done|]. cbn [vsize] in H. lia.
      + destruct T as (-> & T1 & T2 & T3 & T4 & T5 & vars & tys & A1 & A2 & T6). apply typed_all2 in T6. cbn [dec]. rewrite <- app_assoc.
        rewrite header_ok by (try done; unfold is_u64; lia). rewrite A1, A2. rewrite IH3; [done|done|]. cbn [vsize] in H. lia.
    - intros vs t rest F H. destruct F as [|v vs Hv F]; [done|]. cbn [length map concat dec_many]. rewrite (proj2 (Z.eqb_neq _ 0)) by lia.
      cbn [map list_sum fold_right] in H. change (fold_right Nat.add 0%nat (map (fun v => S (vsize v)) vs)) with (list_sum (map (fun v => S (vsize v)) vs)) in H.
      rewrite <- app_assoc. rewrite IH1 by (try done; lia). replace (Z.of_nat (S (length vs)) - 1) with (Z.of_nat (length vs)) by lia.
      rewrite IH2; [done|done|lia].
    - intros vs tys rest F H. destruct F as [|v t vs tys Hv F]; [done|]. cbn [map concat dec_fields].
      cbn [map list_sum fold_right] in H. change (fold_right Nat.add 0%nat (map (fun v => S (vsize v)) vs)) with (list_sum (map (fun v => S (vsize v)) vs)) in H.
      rewrite <- app_assoc. rewrite IH1 by (try done; lia). rewrite IH3; [done|done|lia].
  Qed.
  Lemma roundtrip v ty rest : typed v ty -> wire_decode env ty (wire_encode v ++ rest) = Some (v, rest).
  Proof.
    intros T. rewrite <- (wire_decode_steps ty _ (Nat.max (vsize v) (2 * length (wire_encode v ++ rest) + 1))) by lia.
    apply (proj1 (roundtrip_all _)); [done|lia].
  Qed.
  Lemma wire_decode_app ty bs more v r : wire_decode env ty bs = Some (v, r) -> wire_decode env ty (bs ++ more) = Some (v, r ++ more).
  Proof.
    intros H. rewrite <- (wire_decode_steps ty bs (2 * length (bs ++ more) + 2)) in H by (rewrite app_length; lia). unfold wire_decode.
    now apply (proj1 (dec_app_all _)).
  Qed.

  (** Declarations whose names are texts and whose constructors have fewer than [2^64] fields. *)
  Definition env_ok : Prop := forall name vars c tys, assoc name env = Some vars -> assoc c vars = Some tys ->
    is_text name /\ is_text c /\ Z.of_nat (blen name) < two64 /\ Z.of_nat (blen c) < two64 /\ Z.of_nat (length tys) < two64.
  Notation byte := (fun b => 0 <= b < 256).
  Lemma suffix_bytes (e r : list Z) : Forall byte (e ++ r) -> Z.of_nat (length (e ++ r)) < two64 -> Forall byte r /\ Z.of_nat (length r) < two64.
  Proof. intros H L. apply Forall_app in H as [_ H]. rewrite app_length in L. split; [done|lia]. Qed.
  Lemma from_le_range bs : Forall byte bs -> 0 <= from_le bs < 256 ^ Z.of_nat (length bs).
  Proof. induction 1 as [|b bs Hb _ IH]; [cbn; lia|]. cbn [from_le length]. rewrite Nat2Z.inj_succ, Z.pow_succ_r by lia. lia. Qed.
  Lemma dec_typed_all (He : env_ok) n :
    (forall ty bs v r, Forall byte bs -> Z.of_nat (length bs) < two64 -> dec n env ty bs = Some (v, r) -> typed v ty) /\
    (forall t k bs v r, Forall byte bs -> Z.of_nat (length bs) < two64 -> 0 <= k -> dec_many n env t k bs = Some (v, r) -> Forall (fun v => typed v t) v /\ Z.of_nat (length v) = k) /\
    (forall tys bs v r, Forall byte bs -> Z.of_nat (length bs) < two64 -> dec_fields n env tys bs = Some (v, r) -> Forall2 typed v tys).
  Proof.
    induction n as [|n (IH1 & IH2 & IH3)].
    { split; [|split].
      - discriminate.
      - intros t k bs v r _ _ _. cbn. destruct (Z.eqb_spec k 0) as [->|]; [intros [= <- <-]; split; [constructor|done]|discriminate].
      - intros tys bs v r _ _. cbn. destruct tys; [intros [= <- <-]; constructor|discriminate]. }
    assert (Tag : forall bs t b, expect_tag bs t = Some b -> Forall byte bs -> Z.of_nat (length bs) < two64 -> Forall byte b /\ Z.of_nat (length b) < two64).
    { intros bs t b H HB HL. destruct bs as [|x bs]; [discriminate|]. cbn in H. destruct (x =? t); [|discriminate]. injection H as <-. inversion HB; subst. cbn in HL. split; [done|lia]. }
    assert (Uv : forall bs u b, read_uvarint bs = Some (u, b) -> Forall byte bs -> Z.of_nat (length bs) < two64 -> is_u64 u /\ Forall byte b /\ Z.of_nat (length b) < two64).
    { intros bs u b H HB HL. split; [now apply uvarint_range in H|]. apply uvarint_consumes in H as (e & -> & _). now apply (suffix_bytes e). }
    split; [|split].
    - intros ty bs v r HB HL. cbn [dec]. destruct ty as [| | | |t|name].
      + destruct (expect_tag bs T_INT) as [b1|] eqn:E1; [|discriminate]. destruct (Tag _ _ _ E1 HB HL).
        destruct (read_uvarint b1) as [[u b2]|] eqn:E2; [|discriminate]. destruct (Uv _ _ _ E2) as (? & _ & _); [done|done|]. intros [= <- <-]. cbn. now apply unzigzag_range.
      + destruct bs as [|t bs]; [discriminate|]. destruct (t =? T_TRUE); [now intros [= <- <-]|]. destruct (t =? T_FALSE); [now intros [= <- <-]|discriminate].
      + destruct (expect_tag bs T_FLOAT) as [b1|] eqn:E1; [|discriminate]. destruct (Tag _ _ _ E1 HB HL).
        destruct (Nat.ltb_spec (length b1) 8); [discriminate|]. intros [= <- <-]. cbn [typed].
        pose proof (from_le_range (take 8 b1) (Forall_take _ _ _ ltac:(done))) as F. rewrite take_length, Nat.min_l in F by lia. exact F.
      + destruct (expect_tag bs T_TEXT) as [b1|] eqn:E1; [|discriminate]. destruct (Tag _ _ _ E1 HB HL) as [HB1 HL1].
        unfold read_str. destruct (read_uvarint b1) as [[u b2]|] eqn:E2; [|discriminate]. destruct (Uv _ _ _ E2) as (? & _ & _); [done|done|].
        destruct (Z.ltb_spec (Z.of_nat (length b2)) u); [discriminate|]. destruct (from_utf8 _) as [s|] eqn:E3; [|discriminate]. intros [= <- <-]. cbn.
        apply from_utf8_some in E3 as [? E3]. split; [done|]. unfold blen. rewrite E3, take_length. clear - H H0. unfold is_u64 in *. lia.
      + destruct (expect_tag bs T_LIST) as [b1|] eqn:E1; [|discriminate]. destruct (Tag _ _ _ E1 HB HL) as [HB1 HL1].
        destruct (read_uvarint b1) as [[u b2]|] eqn:E2; [|discriminate]. destruct (Uv _ _ _ E2) as (Hu & HB2 & HL2); [done|done|].
        destruct (dec_many n env t u b2) as [[vs b3]|] eqn:E3; [|discriminate]. destruct (IH2 _ _ _ _ _ HB2 HL2 (proj1 Hu) E3) as [F L]. intros [= <- <-]. cbn [typed].
        rewrite typed_all, L. split; [apply Hu|done].
      + destruct (read_inductive_header bs) as [[[[a c] k] b1]|] eqn:E1; [|discriminate]. destruct (local_header _ _ _ _ _ E1) as (e & -> & _).
        destruct (suffix_bytes _ _ HB HL) as [HB1 HL1].
        destruct (assoc name env) as [vars|] eqn:E2; [|discriminate]. destruct (assoc c vars) as [tys|] eqn:E3; [|discriminate].
        destruct (dec_fields n env tys b1) as [[vs b2]|] eqn:E4; [|discriminate]. pose proof (IH3 _ _ _ _ HB1 HL1 E4) as F. intros [= <- <-].
        destruct (He _ _ _ _ E2 E3) as (X1 & X2 & X3 & X4 & X5). cbn [typed]. split; [done|]. do 4 (split; [done|]). split; [now rewrite (Forall2_length _ _ _ F)|].
        exists vars, tys. split; [done|]. split; [done|]. now apply typed_all2.
    - intros t k bs v r HB HL Hk. cbn [dec_many]. destruct (Z.eqb_spec k 0) as [->|]; [intros [= <- <-]; split; [constructor|done]|].
      destruct (dec n env t bs) as [[x b1]|] eqn:E1; [|discriminate]. destruct (proj1 (dec_local_all n) _ _ _ _ E1) as (e & E & _). subst bs. destruct (suffix_bytes _ _ HB HL) as [HB1 HL1].
      destruct (dec_many n env t (k - 1) b1) as [[xs b2]|] eqn:E2; [|discriminate]. assert (K : 0 <= k - 1) by lia. destruct (IH2 _ _ _ _ _ HB1 HL1 K E2) as [F L]. intros [= <- <-].
      split; [constructor; [apply (IH1 _ _ _ _ HB HL E1)|done]|cbn [length]; lia].
    - intros tys bs v r HB HL. cbn [dec_fields]. destruct tys as [|t tys]; [intros [= <- <-]; constructor|].
      destruct (dec n env t bs) as [[x b1]|] eqn:E1; [|discriminate]. destruct (proj1 (dec_local_all n) _ _ _ _ E1) as (e & E & _). subst bs. destruct (suffix_bytes _ _ HB HL) as [HB1 HL1].
      destruct (dec_fields n env tys b1) as [[xs b2]|] eqn:E2; [|discriminate]. intros [= <- <-]. constructor; [apply (IH1 _ _ _ _ HB HL E1)|apply (IH3 _ _ _ _ HB1 HL1 E2)].
  Qed.
End values.
