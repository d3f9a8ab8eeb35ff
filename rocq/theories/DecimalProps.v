(** C29: decimals are exact where they promise to be, and round as the mode says elsewhere. *)
From Coq Require Import ZArith List Lia QArith Qround Qabs Qpower Lqa.
From stdpp Require Import list.
From Verif Require Import MachInt BigIntModel BigIntProofs BigIntZ BigIntText BigIntProps RationalModel RationalQ RationalProps DecimalModel DecimalProofs.
Open Scope Z_scope.

Ltac form x Hx c s := let E := fresh "E" in let S := fresh "S" in let V := fresh "V" in destruct (dec_form x Hx) as (c & s & E & S & V); subst x.
Lemma dcanon_Dec c s : is_u32 s -> dcanon (Dec (of_Z c) s).
Proof. intros H. split; [apply canon_of_Z|done]. Qed.
Lemma dval_Dec c s : dval (Dec (of_Z c) s) = (inject_Z c / tenp s)%Q.
Proof. unfold dval. cbn [d_coeff d_scale]. now rewrite bval_of_Z. Qed.
Lemma scaled c s t : 0 <= s <= t -> (inject_Z (c * 10 ^ (t - s)) / tenp t == inject_Z c / tenp s)%Q.
Proof.
  intros H. rewrite inject_Z_mult. fold (tenp (t - s)). assert (tenp t == tenp s * tenp (t - s))%Q as -> by (rewrite <- tenp_add by lia; now replace (s + (t - s)) with t by lia). field. split; apply tenp_neq; lia.
Qed.

(** Sum and difference are exact at the larger scale; so is the product at the sum of the scales,
    when that fits. *)
Theorem C29_add_sub x y : dcanon x -> dcanon y ->
  (dcanon (dec_add x y) /\ d_scale (dec_add x y) = Z.max (d_scale x) (d_scale y) /\ (dval (dec_add x y) == dval x + dval y)%Q) /\
  (dcanon (dec_sub x y) /\ d_scale (dec_sub x y) = Z.max (d_scale x) (d_scale y) /\ (dval (dec_sub x y) == dval x - dval y)%Q).
Proof.
  intros Hx Hy. form x Hx c s. form y Hy d t. unfold dec_add, dec_sub, dec_aligned. cbn [d_coeff d_scale]. set (m := Z.max s t). assert (Hm : is_u32 m) by (unfold is_u32, m in *; lia).
  rewrite !ten_pow_of_Z by (unfold is_u32, m in *; lia). rewrite !mul_of_Z, add_of_Z, sub_of_Z. rewrite !dval_Dec. cbn [d_scale]. split; (split; [now apply dcanon_Dec|]); (split; [done|]).
  - rewrite inject_Z_plus. rewrite <- (scaled c s m), <- (scaled d t m) by (unfold is_u32, m in *; lia). field. apply tenp_neq, Hm.
  - unfold Z.sub at 1. rewrite inject_Z_plus, inject_Z_opp. rewrite <- (scaled c s m), <- (scaled d t m) by (unfold is_u32, m in *; lia). field. apply tenp_neq, Hm.
Qed.
Theorem C29_mul_partial x y : dcanon x -> dcanon y -> d_scale x + d_scale y < 2 ^ 32 ->
  dcanon (dec_mul x y) /\ d_scale (dec_mul x y) = d_scale x + d_scale y /\ (dval (dec_mul x y) == dval x * dval y)%Q.
Proof.
  intros Hx Hy H. form x Hx c s. form y Hy d t. unfold dec_mul. cbn [d_coeff d_scale] in *. rewrite Z.mod_small by (unfold is_u32 in *; lia). rewrite mul_of_Z, !dval_Dec. split; [apply dcanon_Dec; unfold is_u32 in *; lia|]. split; [done|].
  rewrite inject_Z_mult, tenp_add by (unfold is_u32 in *; lia). field. split; apply tenp_neq; unfold is_u32 in *; lia.
Qed.
(** Past that the scale wraps around and the product is wrong: missing from the theorem above. *)
Lemma scale_overflow s : is_u32 s -> 0 < s -> s + s = 2 ^ 32 -> let x := Dec (of_Z 1) s in ~ (dval (dec_mul x x) == dval x * dval x)%Q.
Proof.
  intros H P W x. unfold dec_mul, x. cbn [d_coeff d_scale]. rewrite W, Z.mod_same by lia. rewrite mul_of_Z, !dval_Dec. intros E.
  assert (T : (1 < tenp s)%Q). { unfold tenp. change 1%Q with (inject_Z 1). rewrite <- Zlt_Qlt. apply Z.pow_gt_1; lia. } set (u := tenp s) in *. assert (N : ~ (u == 0)%Q) by lra.
  change (inject_Z (1 * 1) / tenp 0)%Q with 1%Q in E. change (inject_Z 1) with 1%Q in E. assert (E2 : (1 / u * (1 / u) * (u * u) == 1)%Q) by (field; exact N). rewrite <- E in E2.
  assert ((u * 1 <= u * u)%Q) by (apply Qmult_le_l; lra). lra.
Qed.
Theorem C29_scale_overflow_refuted : exists x y, dcanon x /\ dcanon y /\ ~ (dval (dec_mul x y) == dval x * dval y)%Q.
Proof.
  assert (H : is_u32 (2 ^ 31)) by (unfold is_u32; split; [discriminate|reflexivity]). exists (Dec (of_Z 1) (2 ^ 31)), (Dec (of_Z 1) (2 ^ 31)). split; [now apply dcanon_Dec|]. split; [now apply dcanon_Dec|].
  apply scale_overflow; [done|reflexivity|reflexivity].
Qed.
Theorem C29_signs x : dcanon x ->
  dcanon (dec_negated x) /\ dcanon (dec_abs x) /\ (dval (dec_negated x) == - dval x)%Q /\ (dval (dec_abs x) == Qabs (dval x))%Q /\
  (dec_is_zero x = true <-> (dval x == 0)%Q) /\ (dec_is_negative x = true <-> (dval x < 0)%Q).
Proof.
  intros Hx. form x Hx c s. unfold dec_negated, dec_abs, dec_is_zero, dec_is_negative. cbn [d_coeff d_scale]. rewrite negated_of_Z, abs_of_Z, is_zero_of_Z, is_negative_of_Z, !dval_Dec. split; [now apply dcanon_Dec|]. split; [now apply dcanon_Dec|].
  pose proof (tenp_pos s (proj1 S)) as T. pose proof (tenp_neq s (proj1 S)) as N. split; [rewrite inject_Z_opp; field; done|].
  split. { unfold Qdiv. rewrite Qabs_Qmult. rewrite (Qabs_pos (/ tenp s)) by (apply Qlt_le_weak, Qinv_lt_0_compat, T). reflexivity. }
  rewrite Z.eqb_eq, Z.ltb_lt. split.
  - pose proof (dval_eq c s 0 0 (proj1 S) ltac:(lia)) as D. rewrite Z.mul_0_l, Z.mul_1_r in D. rewrite D. change (inject_Z 0 / tenp 0)%Q with 0%Q. tauto.
  - split; intros H.
    + apply Qlt_shift_div_r; [done|]. rewrite Qmult_0_l. change 0%Q with (inject_Z 0). now rewrite <- Zlt_Qlt.
    + rewrite Zlt_Qlt. change (inject_Z 0) with 0%Q. setoid_replace (inject_Z c) with (inject_Z c / tenp s * tenp s)%Q by (field; done). setoid_replace 0%Q with (0 * tenp s)%Q by ring. now apply Qmult_lt_compat_r.
Qed.
(** The bridge to fractions is exact. *)
Theorem C29_to_rational x : dcanon x -> exists r, dec_to_rational x = Some r /\ rcanon r /\ (rval r == dval x)%Q.
Proof. intros Hx. form x Hx c s. rewrite to_rational_dec, dval_Dec by done. eexists. split; [reflexivity|]. split; [apply rcanon_ofQ|apply rval_ofQ]. Qed.

(** ** Rounding *)
(** Every mode determines its result. *)
Theorem C29_modes_determined m q z z' : rounds m q z -> rounds m q z' -> z = z'.
Proof. apply rounds_unique. Qed.
(** The error in units of the last place carries over to the value. *)
Theorem C29_less_than_one_ulp m q s d : dcanon d -> d_scale d = s -> rounds m (q * tenp s) (bval (d_coeff d)) -> (Qabs (q - dval d) < 1 / tenp s)%Q.
Proof.
  intros Hd <- [R _]. form d Hd c s. cbn [d_scale d_coeff] in *. rewrite bval_of_Z in R. rewrite dval_Dec. pose proof (tenp_pos s (proj1 S)) as T. pose proof (tenp_neq s (proj1 S)) as N.
  apply Qlt_shift_div_l; [done|]. assert (A : (Qabs (q - inject_Z c / tenp s) * tenp s == Qabs ((q - inject_Z c / tenp s) * tenp s))%Q) by (rewrite Qabs_Qmult, (Qabs_pos (tenp s)) by lra; reflexivity).
  rewrite A. assert (W : ((q - inject_Z c / tenp s) * tenp s == q * tenp s - inject_Z c)%Q) by (field; done). rewrite W. done.
Qed.
Theorem C29_from_rational r s m : rcanon r -> is_u32 s -> exists d, dec_from_rational r s m = Some d /\ dcanon d /\ d_scale d = s /\ rounds m (rval r * tenp s) (bval (d_coeff d)).
Proof.
  intros Hr Hs. destruct (from_rational_dec (rval r) s m Hs) as (z & E & R). rewrite ofQ_rval in E by done. exists (Dec (of_Z z) s). split; [done|]. split; [now apply dcanon_Dec|]. split; [done|]. cbn [d_coeff]. now rewrite bval_of_Z.
Qed.
Lemma rounds_exact m z q : (q == inject_Z z)%Q -> rounds m q z.
Proof.
  intros E. apply (rounds_proper m (inject_Z z)); [now symmetry|]. assert (Z0 : (Qabs (inject_Z z - inject_Z z) == 0)%Q) by (setoid_replace (inject_Z z - inject_Z z)%Q with 0%Q by ring; reflexivity).
  unfold rounds. cbv zeta. destruct m; rewrite Z0; (split; [lra|]); try lra; (split; [lra|intros; exfalso; lra]).
Qed.
(** Widening is exact, narrowing rounds. *)
Theorem C29_rescale x s m : dcanon x -> is_u32 s -> exists d, dec_rescale x s m = Some d /\ dcanon d /\ d_scale d = s /\
  rounds m (dval x * tenp s) (bval (d_coeff d)) /\ (d_scale x <= s -> (dval d == dval x)%Q).
Proof.
  intros Hx Hs. form x Hx c t. unfold dec_rescale. cbn [d_scale d_coeff]. destruct (Z.leb_spec t s) as [H|H].
  - rewrite ten_pow_of_Z, mul_of_Z by (unfold is_u32 in *; lia). eexists. split; [reflexivity|]. split; [now apply dcanon_Dec|]. split; [done|]. cbn [d_coeff]. rewrite bval_of_Z, !dval_Dec. pose proof (scaled c t s ltac:(unfold is_u32 in *; lia)) as E. split; [|done].
    apply rounds_exact. rewrite <- E. field. apply tenp_neq, Hs.
  - rewrite to_rational_dec by done. destruct (from_rational_dec (inject_Z c / tenp t) s m Hs) as (z & E & R). rewrite E. eexists. split; [reflexivity|]. split; [now apply dcanon_Dec|]. split; [done|]. cbn [d_coeff]. rewrite bval_of_Z, dval_Dec. split; [done|lia].
Qed.
Theorem C29_div x y s m : dcanon x -> dcanon y -> is_u32 s ->
  ((dval y == 0)%Q /\ dec_div x y s m = Some None) \/
  (~ (dval y == 0)%Q /\ exists d, dec_div x y s m = Some (Some d) /\ dcanon d /\ d_scale d = s /\ rounds m (dval x / dval y * tenp s) (bval (d_coeff d))).
Proof.
  intros Hx Hy Hs. form x Hx c t. form y Hy d u. unfold dec_div. rewrite !to_rational_dec, div_ofQ, !dval_Dec by done. destruct (Qis0_spec (inject_Z d / tenp u)) as [Z0|N]; [left; done|right]. split; [done|].
  destruct (from_rational_dec (inject_Z c / tenp t / (inject_Z d / tenp u)) s m Hs) as (z & E & R). rewrite E. eexists. split; [reflexivity|]. split; [now apply dcanon_Dec|]. split; [done|]. cbn [d_coeff]. now rewrite bval_of_Z.
Qed.

(** ** Equality, hashing and order are by value *)
Theorem C29_equality x y : dcanon x -> dcanon y -> exists b, dec_eqb x y = Some b /\ (b = true <-> (dval x == dval y)%Q).
Proof.
  intros Hx Hy. form x Hx c s. form y Hy d t. destruct (eqb_dec c s d t S S0) as (b & E & H). exists b. split; [done|]. rewrite H, !dval_Dec. apply dval_eq; [apply S|apply S0].
Qed.
(** What is hashed is the same for equal values. *)
Theorem C29_hash x y : dcanon x -> dcanon y -> dec_normalized x <> None /\ ((dval x == dval y)%Q <-> dec_normalized x = dec_normalized y).
Proof.
  intros Hx Hy. destruct (C29_equality x y Hx Hy) as (b & E & H). rewrite <- H. unfold dec_eqb in E. destruct (dec_normalized x) as [[c s]|] eqn:Ex; [|done]. destruct (dec_normalized y) as [[d t]|] eqn:Ey; [|done]. split; [done|]. injection E as <-.
  rewrite andb_true_iff, bi_eqb_iff, Z.eqb_eq. split; [intros [-> ->]; done|intros [= -> ->]; done].
Qed.
Theorem C29_order x y : dcanon x -> dcanon y -> dec_cmp x y = Some (dval x ?= dval y)%Q.
Proof. intros Hx Hy. form x Hx c s. form y Hy d t. unfold dec_cmp. rewrite !to_rational_dec, rcmp_ofQ, !dval_Dec by done. done. Qed.
(** Order and equality agree. *)
Theorem C29_eq_ord x y : dcanon x -> dcanon y -> dec_cmp x y = Some Eq <-> dec_eqb x y = Some true.
Proof.
  intros Hx Hy. rewrite C29_order by done. destruct (C29_equality x y Hx Hy) as (b & E & H). rewrite E. rewrite Qeq_alt in H. split; [intros [= G]; f_equal; tauto|intros [= G]; f_equal; tauto].
Qed.

(** ** Bytes and text *)
Theorem C29_bytes x : dcanon x -> let '(neg, bs, s) := dec_to_le_bytes x in bytes_ok bs /\ dec_from_le_bytes neg bs s = x.
Proof.
  intros Hx. form x Hx c s. unfold dec_to_le_bytes. cbn [d_coeff d_scale]. destruct (to_le_bytes_of_Z c) as (bs & E & V' & K). rewrite E. split; [done|]. unfold dec_from_le_bytes. rewrite from_le_bytes_of_Z, V' by done. do 2 f_equal. destruct (Z.ltb_spec c 0); lia.
Qed.
(** Plain decimal notation and what it spells: coefficient and number of digits after the point. *)
Inductive dec_text : list Z -> Z -> Z -> Prop :=
  | dec_text_intro a sg i pf f b : spaces a -> spaces b -> (sg = [] \/ sg = [43] \/ sg = [45]) -> (pf = [46] ++ f \/ (pf = [] /\ f = [])) ->
      Forall is_digit i -> Forall is_digit f -> i ++ f <> [] ->
      dec_text (a ++ (sg ++ i ++ pf) ++ b) (if bool_decide (sg = [45]) then - dec_value (i ++ f) else dec_value (i ++ f)) (Z.of_nat (length f)).
Lemma forallb_digits l : forallb is_ascii_digit l = true <-> Forall is_digit l.
Proof. rewrite forallb_forall, List.Forall_forall. split; intros H x Hx; apply is_ascii_digit_iff, H, Hx. Qed.
Lemma digit_not_space d : is_digit d -> is_space d = false.
Proof. intros H. unfold is_digit in H. unfold is_space. destruct (Z.leb_spec d 13); [lia|]. rewrite andb_false_r. destruct (Z.eqb_spec d 32); [lia|done]. Qed.
Lemma digit_not_point l : Forall is_digit l -> Forall (fun c => c <> 46) l.
Proof. intros H. eapply Forall_impl; [exact H|]. intros d Hd ->. unfold is_digit in Hd. lia. Qed.
Lemma parse_digits_text ds : Forall is_digit ds -> ds <> [] -> bi_parse_decimal ds = Some (of_Z (dec_value ds)).
Proof. intros F N. apply parse_int_of. exists [], ds. split; [done|]. split; [tauto|]. done. Qed.
Definition dec_parse_body (neg : bool) (body : list Z) : option decimal :=
  match body with
  | [] => None
  | _ =>
      let '(i, f) := match split_once 46 body with Some p => p | None => (body, []) end in
      match i ++ f with
      | [] => None
      | digits =>
          if negb (forallb is_ascii_digit i) || negb (forallb is_ascii_digit f) then None else
          match bi_parse_decimal digits with
          | None => None
          | Some mag => Some (Dec (if neg then bi_negated mag else mag) (Z.of_nat (length f) mod 2 ^ 32))
          end
      end
  end.
Lemma dec_parse_unfold s : dec_parse s = let '(neg, body) := split_sign (trim s) in dec_parse_body neg body.
Proof. reflexivity. Qed.
Lemma parse_body_split neg i pf f : (pf = [46] ++ f \/ (pf = [] /\ f = [])) -> Forall is_digit i -> Forall is_digit f -> i ++ f <> [] ->
  dec_parse_body neg (i ++ pf) = Some (Dec (of_Z (if neg then - dec_value (i ++ f) else dec_value (i ++ f))) (Z.of_nat (length f) mod 2 ^ 32)).
Proof.
  intros Hpf Hi Hf N. unfold dec_parse_body. assert (Nb : i ++ pf <> []) by (destruct Hpf as [-> |[-> ->]]; [destruct i; done|done]). destruct (i ++ pf) as [|c0 body] eqn:Eb; [done|]. rewrite <- Eb. clear Nb.
  assert (Sp : match split_once 46 (i ++ pf) with Some p => p | None => (i ++ pf, []) end = (i, f)).
  { destruct Hpf as [-> |[-> ->]]; [change ([46] ++ f) with (46 :: f); rewrite split_once_some by (now apply digit_not_point); done|]. rewrite app_nil_r. rewrite split_once_none by now apply digit_not_point. done. }
  rewrite Sp. destruct (i ++ f) as [|c1 ds] eqn:Ed; [done|]. rewrite <- Ed. rewrite (proj2 (forallb_digits i) Hi), (proj2 (forallb_digits f) Hf). cbn [negb orb].
  rewrite parse_digits_text; [|apply Forall_app; done|congruence]. destruct neg; [now rewrite negated_of_Z|done].
Qed.
Lemma parse_body_inv neg body d : dec_parse_body neg body = Some d -> exists i pf f, body = i ++ pf /\ (pf = [46] ++ f \/ (pf = [] /\ f = [])) /\ Forall is_digit i /\ Forall is_digit f /\ i ++ f <> [].
Proof.
  unfold dec_parse_body. destruct body as [|c0 body]; [done|]. destruct (split_once 46 (c0 :: body)) as [[i f]|] eqn:Sp.
  - destruct (i ++ f) as [|c1 ds] eqn:Ed; [done|]. destruct (forallb is_ascii_digit i) eqn:Fi; [|done]. destruct (forallb is_ascii_digit f) eqn:Ff; [|done]. intros _. exists i, (46 :: f), f. split; [now apply split_once_inv|]. split; [tauto|].
    split; [now apply forallb_digits|]. split; [now apply forallb_digits|]. congruence.
  - cbn [app]. destruct (forallb is_ascii_digit (c0 :: body)) eqn:Fi; [|done]. intros _. exists (c0 :: body), [], []. split; [now rewrite app_nil_r|]. split; [tauto|]. split; [now apply forallb_digits|]. split; [constructor|done].
Qed.
Lemma text_sign sg i pf f : (sg = [] \/ sg = [43] \/ sg = [45]) -> (pf = [46] ++ f \/ (pf = [] /\ f = [])) -> Forall is_digit i -> i ++ f <> [] -> split_sign (sg ++ i ++ pf) = (bool_decide (sg = [45]), i ++ pf).
Proof.
  intros Hs Hp Hi N. destruct Hs as [-> |[-> | ->]]; [|done|done]. cbn [app]. destruct i as [|d i].
  - destruct Hp as [-> |[-> ->]]; done.
  - inversion Hi as [|? ? Hd _]; subst. unfold is_digit in Hd. cbn. destruct (Z.eqb_spec d 45); [lia|]. destruct (Z.eqb_spec d 43); [lia|]. done.
Qed.
(** Exactly this notation is accepted. *)
Theorem C29_parse s d : dec_parse s = Some d <-> exists c k, dec_text s c k /\ canon (d_coeff d) /\ bval (d_coeff d) = c /\ d_scale d = k mod 2 ^ 32.
Proof.
  rewrite dec_parse_unfold. split.
  - intros H. destruct (trim_split s) as (a & b & E & Ha & Hb). destruct (split_sign (trim s)) as [neg body] eqn:Sp. pose proof H as H0. apply parse_body_inv in H as (i & pf & f & Eb & Hpf & Hi & Hf & N).
    rewrite Eb, (parse_body_split neg i pf f) in H0 by done. injection H0 as <-. cbn [d_coeff d_scale].
    assert (X : exists sg, trim s = sg ++ body /\ (sg = [] \/ sg = [43] \/ sg = [45]) /\ bool_decide (sg = [45]) = neg).
    { unfold split_sign in Sp. destruct (trim s) as [|c0 t]; [injection Sp as <- <-; exists []; split; [done|]; split; [tauto|done]|]. destruct (Z.eqb_spec c0 45) as [->|]; [injection Sp as <- <-; exists [45]; split; [done|]; split; [tauto|done]|].
      destruct (Z.eqb_spec c0 43) as [->|]; injection Sp as <- <-; [exists [43]|exists []]; (split; [done|]; split; [tauto|done]). }
    destruct X as (sg & Et & Hsg & <-). eexists _, (Z.of_nat (length f)). split; [|split; [apply canon_of_Z|split; [apply bval_of_Z|done]]]. rewrite E, Et, Eb. apply (dec_text_intro a sg i pf f b); done.
  - intros (c & k & T & C & V & Sc). destruct T as [a sg i pf f b Ha Hb Hsg Hpf Hi Hf N]. rewrite trim_mid'; [|done|done| | |].
    + rewrite (text_sign sg i pf f) by done. rewrite (parse_body_split _ i pf f) by done. destruct d as [co sc]. cbn [d_coeff d_scale] in *. rewrite <- Sc, <- V, of_Z_bval by done. done.
    + destruct sg; [|done]. destruct i; [|done]. destruct Hpf as [-> |[-> ->]]; done.
    + apply (hd_chars (fun c => is_space c = false)); [destruct sg; [|done]; destruct i; [|done]; destruct Hpf as [-> |[-> ->]]; done|].
      apply Forall_app. split; [destruct Hsg as [-> |[-> | ->]]; [constructor| |]; (apply Forall_cons_2; [done|constructor])|]. apply Forall_app. split; [eapply Forall_impl; [exact Hi|apply digit_not_space]|].
      destruct Hpf as [-> |[-> ->]]; [|constructor]. apply Forall_cons_2; [done|]. eapply Forall_impl; [exact Hf|apply digit_not_space].
    + apply (hd_chars (fun c => is_space c = false)); [destruct sg; [|done]; destruct i; [|done]; destruct Hpf as [-> |[-> ->]]; done|].
      apply Forall_app. split; [destruct Hsg as [-> |[-> | ->]]; [constructor| |]; (apply Forall_cons_2; [done|constructor])|]. apply Forall_app. split; [eapply Forall_impl; [exact Hi|apply digit_not_space]|].
      destruct Hpf as [-> |[-> ->]]; [|constructor]. apply Forall_cons_2; [done|]. eapply Forall_impl; [exact Hf|apply digit_not_space].
Qed.
(** Display never panics; it shows a minus for negative numbers only, at least one digit before the
    point and exactly [scale] digits after it, and is read back as the very same decimal. *)
Theorem C29_text_roundtrip x : dcanon x -> exists s, dec_show x = Some s /\ dec_parse s = Some x /\
  exists i f, s = (if bval (d_coeff x) <? 0 then [45] else []) ++ i ++ (if d_scale x =? 0 then [] else [46] ++ f) /\ Forall is_digit i /\ Forall is_digit f /\ i <> [] /\ Z.of_nat (length f) = d_scale x /\ dec_value (i ++ f) = Z.abs (bval (d_coeff x)).
Proof.
  intros Hx. form x Hx c s. cbn [d_coeff d_scale]. rewrite !bval_of_Z.
  assert (G : exists i f, dec_show (Dec (of_Z c) s) = Some ((if c <? 0 then [45] else []) ++ i ++ (if s =? 0 then [] else [46] ++ f)) /\ Forall is_digit i /\ Forall is_digit f /\ i <> [] /\ Z.of_nat (length f) = s /\ dec_value (i ++ f) = Z.abs c).
  { unfold dec_show. cbn [d_scale d_coeff]. destruct (Z.eqb_spec s 0) as [->|N].
    - destruct (show_of_Z c) as (ds & E & (F & Nd & _) & V'). exists ds, []. rewrite !app_nil_r. rewrite E. split; [done|]. split; [done|]. split; [constructor|]. done.
    - rewrite is_negative_of_Z, abs_of_Z. destruct (show_of_Z (Z.abs c)) as (ds & E & (F & Nd & _) & V'). rewrite E. replace (Z.abs c <? 0) with false by (symmetry; apply Z.ltb_ge; lia). rewrite app_nil_l. rewrite Z.abs_involutive in V'.
      set (k := Z.to_nat s). set (D := if (length ds <=? k)%nat then repeat 48 (k + 1 - length ds) ++ ds else ds).
      assert (HD : Forall is_digit D /\ dec_value D = Z.abs c /\ (k < length D)%nat).
      { unfold D. destruct (Nat.leb_spec (length ds) k); [|split; [done|split; [done|lia]]]. rewrite dec_value_zeros, app_length, repeat_length. split; [|split; [done|lia]]. apply Forall_app. split; [|done]. apply List.Forall_forall. intros d Hd. apply repeat_spec in Hd. subst. unfold is_digit. lia. }
      destruct HD as (FD & VD & LD). exists (take (length D - k) D), (drop (length D - k) D). split; [done|]. rewrite take_drop. split; [now apply Forall_take|]. split; [now apply Forall_drop|].
      split; [intros X; apply (f_equal length) in X; rewrite take_length in X; cbn in X; lia|]. split; [rewrite drop_length; unfold k in *; unfold is_u32 in S; lia|done]. }
  destruct G as (i & f & E & Fi & Ff & Ni & L & V'). eexists. split; [exact E|]. split; [|exists i, f; done].
  apply C29_parse. exists c, s. cbn [d_coeff d_scale]. rewrite bval_of_Z. split; [|split; [apply canon_of_Z|split; [done|rewrite Z.mod_small by apply S; done]]].
  pose proof (dec_text_intro [] (if c <? 0 then [45] else []) i (if s =? 0 then [] else [46] ++ f) f []) as T. rewrite app_nil_l, app_nil_r in T. rewrite V', L in T.
  assert (X : (if bool_decide ((if c <? 0 then [45] else []) = [45]) then - Z.abs c else Z.abs c) = c). { destruct (Z.ltb_spec c 0); [rewrite bool_decide_eq_true_2 by done|rewrite bool_decide_eq_false_2 by done]; lia. }
  rewrite X in T. apply T; try done; try (constructor; fail).
  - destruct (c <? 0); tauto.
  - destruct (Z.eqb_spec s 0) as [->|]; [right|tauto]. split; [done|]. destruct f; [done|cbn in L; lia].
  - destruct i; done.
Qed.

(** ** Examples *)
Definition d_19_99 : decimal := Dec (bi_from_i64 1999) 2.
Example ex_canon : dcanon d_19_99.
Proof. split; [apply C27_canonical, built_i64; unfold is_i64; lia|unfold is_u32; cbn; lia]. Qed.
Example ex_tenth : dec_add (Dec (bi_from_i64 1) 1) (Dec (bi_from_i64 20) 2) = Dec (bi_from_i64 30) 2 /\ dec_eqb (Dec (bi_from_i64 30) 2) (Dec (bi_from_i64 3) 1) = Some true. Proof. vm_compute. done. Qed.
Example ex_halfeven : dec_rescale (Dec (bi_from_i64 25) 1) 0 HalfEven = Some (Dec (bi_from_i64 2) 0) /\ dec_rescale (Dec (bi_from_i64 (-35)) 1) 0 HalfEven = Some (Dec (bi_from_i64 (-4)) 0) /\
  dec_rescale (Dec (bi_from_i64 (-25)) 1) 0 HalfUp = Some (Dec (bi_from_i64 (-3)) 0) /\ dec_rescale (Dec (bi_from_i64 (-25)) 1) 0 HalfDown = Some (Dec (bi_from_i64 (-2)) 0). Proof. vm_compute. done. Qed.
Example ex_modes : map (fun m => dec_div (dec_from_i64 (-10)) (dec_from_i64 3) 2 m) [Down; Up; Floor; Ceiling] = map (fun z => Some (Some (Dec (bi_from_i64 z) 2))) [-333; -334; -334; -333]. Proof. vm_compute. reflexivity. Qed.
Example ex_show : dec_show (Dec (bi_from_i64 (-5)) 3) = Some [45; 48; 46; 48; 48; 53] /\ dec_parse [45; 48; 46; 48; 48; 53] = Some (Dec (bi_from_i64 (-5)) 3). Proof. vm_compute. done. Qed.
Example ex_parse : dec_parse [46; 53] = Some (Dec (bi_from_i64 5) 1) /\ dec_parse [53; 46] = Some (Dec (bi_from_i64 5) 0) /\ dec_parse [46] = None /\ dec_parse [45] = None /\ dec_parse [49; 46; 50; 46; 51] = None. Proof. vm_compute. done. Qed.
