(** C84: money is exact within a currency and is rounded once between currencies. *)
From Coq Require Import ZArith List Lia QArith Qround Qabs Qpower Lqa.
From stdpp Require Import list.
From Verif Require Import MachInt BigIntModel BigIntProofs BigIntZ BigIntText BigIntProps RationalModel RationalQ RationalProps DecimalModel DecimalProofs DecimalProps MoneyModel.
Open Scope Z_scope.

(** A currency of the catalogue; money of such a currency at its scale; the value of it. *)
Definition listed (c : currency) : Prop := exists s, by_code s = Some c.
Definition proper (m : money) : Prop := listed (cur m) /\ dcanon (amount m) /\ d_scale (amount m) = minor (cur m).
Definition worth (m : money) : Q := dval (amount m).

Lemma str_eqb_spec a b : str_eqb a b = true <-> a = b.
Proof. apply bool_decide_eq_true. Qed.
Lemma cur_eqb_code a b : cur_eqb a b = true <-> code a = code b.
Proof. apply str_eqb_spec. Qed.
Lemma assoc_in k l s : assoc k l = Some s -> In (k, s) l.
Proof. induction l as [|[c t] l IH]; cbn [assoc]; [done|]. destruct (str_eqb k c) eqn:E; [apply str_eqb_spec in E as ->; intros [= ->]; now left|right; auto]. Qed.
Lemma catalogue_minor c s : In (c, s) catalogue -> 0 <= s <= 3 /\ normal c = c.
Proof.
  assert (H : Forall (fun p => (0 <=? snd p) && (snd p <=? 3) && str_eqb (normal (fst p)) (fst p) = true) catalogue) by (unfold catalogue; repeat constructor).
  rewrite List.Forall_forall in H. intros I. specialize (H _ I). cbn in H. apply andb_true_iff in H as [H E]. apply str_eqb_spec in E. split; [lia|done].
Qed.
Lemma listed_minor c : listed c -> is_u32 (minor c) /\ normal (code c) = code c.
Proof.
  intros [s H]. unfold by_code in H. destruct (assoc (normal s) catalogue) as [k|] eqn:E; [|done]. injection H as <-. apply assoc_in, catalogue_minor in E as [R N]. cbn. split; [unfold is_u32; lia|done].
Qed.
(** Currencies of the catalogue with one code are one currency; looking the code up finds it, in either case. *)
Theorem C84_codes c d : listed c -> listed d -> by_code (code c) = Some c /\ (cur_eqb c d = true <-> c = d).
Proof.
  assert (L : forall c, listed c -> assoc (code c) catalogue = Some (minor c)).
  { intros e [s H]. unfold by_code in H. destruct (assoc (normal s) catalogue) as [k|] eqn:E; [|done]. now injection H as <-. }
  intros Hc Hd. split.
  - unfold by_code. destruct (listed_minor c Hc) as [_ N]. rewrite N, (L c Hc). now destruct c.
  - rewrite cur_eqb_code. split; [|now intros ->]. intros E. pose proof (L c Hc) as A. pose proof (L d Hd) as B. rewrite E in A. destruct c, d; cbn in *; congruence.
Qed.
Lemma upper_idem c : upper (upper c) = upper c.
Proof. unfold upper. destruct ((97 <=? c) && (c <=? 122)) eqn:E; [|now rewrite E]. apply andb_true_iff in E as [E1 E2]. destruct ((97 <=? c - 32) && (c - 32 <=? 122)) eqn:F; [|done]. apply andb_true_iff in F as [F1 F2]. lia. Qed.
(** money_of rounds to the nearest minor unit, ties to even; amounts that fit are kept. *)
Theorem C84_of a c : listed c -> dcanon a -> exists m, money_of a c = Some m /\ cur m = c /\ proper m /\ rounds HalfEven (dval a * tenp (minor c)) (bval (d_coeff (amount m))) /\
  (d_scale a <= minor c -> (worth m == dval a)%Q).
Proof.
  intros L Ha. destruct (listed_minor c L) as [U _]. destruct (C29_rescale a (minor c) HalfEven Ha U) as (d & E & Cd & Sd & R & X). unfold money_of. rewrite E. exists (Money d c). split; [done|]. split; [done|]. split; [split; [done|split; done]|]. split; [exact R|exact X].
Qed.
(** Sum and difference: refused across currencies, else exact and still in minor units. *)
Theorem C84_add_sub m n : proper m -> proper n ->
  (cur m <> cur n -> money_add m n = None /\ money_sub m n = None) /\
  (cur m = cur n -> exists a s, money_add m n = Some a /\ money_sub m n = Some s /\ proper a /\ proper s /\ cur a = cur m /\ cur s = cur m /\ (worth a == worth m + worth n)%Q /\ (worth s == worth m - worth n)%Q).
Proof.
  intros (Lm & Cm & Sm) (Ln & Cn & Sn). destruct (C84_codes _ _ Lm Ln) as [_ Q]. unfold money_add, money_sub. split.
  - intros N. destruct (cur_eqb (cur m) (cur n)); [|done]. exfalso. now apply N, Q.
  - intros E. rewrite (proj2 Q E). destruct (C29_add_sub _ _ Cm Cn) as [(A1 & A2 & A3) (B1 & B2 & B3)]. eexists _, _. split; [reflexivity|]. split; [reflexivity|].
    assert (M : Z.max (d_scale (amount m)) (d_scale (amount n)) = minor (cur m)) by (rewrite Sm, Sn, <- E; lia).
    split; [split; [done|split; [done|etransitivity; [exact A2|exact M]]]|]. split; [split; [done|split; [done|etransitivity; [exact B2|exact M]]]|]. done.
Qed.
(** Scaling by an integer is exact. *)
Theorem C84_scale m k : proper m -> is_i64 k -> exists r, scale_int m k = Some r /\ proper r /\ cur r = cur m /\ (worth r == worth m * inject_Z k)%Q.
Proof.
  intros (L & C & S) K. destruct (listed_minor _ L) as [U _]. unfold scale_int.
  assert (Ck : dcanon (dec_from_i64 k)) by (split; [apply C27_canonical, built_i64; done|unfold is_u32; cbn; lia]).
  destruct (C29_mul_partial (amount m) (dec_from_i64 k) C Ck) as (M1 & M2 & M3); [cbn; destruct C as [_ C]; unfold is_u32 in C; lia|].
  destruct (C84_of _ _ L M1) as (r & E & Ec & P & _ & X). exists r. split; [exact E|]. split; [exact P|]. split; [exact Ec|]. rewrite X by (rewrite M2, S; cbn; lia). rewrite M3.
  assert (V : (dval (dec_from_i64 k) == inject_Z k)%Q).
  { unfold dec_from_i64, dec_from_bigint. rewrite from_i64_of_Z by done. rewrite dval_Dec. change (tenp 0) with 1%Q. field. }
  unfold worth. rewrite V. reflexivity.
Qed.
Lemma to_rat a : dcanon a -> dec_to_rational a = Some (ofQ (dval a)).
Proof. intros H. destruct (C29_to_rational a H) as (r & E & C & V). rewrite E. f_equal. rewrite <- (ofQ_rval r C). now apply ofQ_proper. Qed.
Theorem C84_ratio m n : proper m -> proper n ->
  (cur m <> cur n \/ (worth n == 0)%Q -> ratio m n = Some None) /\
  (cur m = cur n -> ~ (worth n == 0)%Q -> exists r, ratio m n = Some (Some r) /\ rcanon r /\ (rval r == worth m / worth n)%Q).
Proof.
  intros (Lm & Cm & Sm) (Ln & Cn & Sn). destruct (C84_codes _ _ Lm Ln) as [_ Q]. unfold ratio, worth. rewrite (to_rat _ Cm), (to_rat _ Cn), div_ofQ. split.
  - intros [N | Z]; [destruct (cur_eqb (cur m) (cur n)); [exfalso; now apply N, Q|done]|]. destruct (negb _); [done|]. now destruct (Qis0_spec (dval (amount n))).
  - intros E Z. rewrite (proj2 Q E). cbn [negb]. destruct (Qis0_spec (dval (amount n))) as [C|_]; [done|]. eexists. split; [reflexivity|]. split; [apply rcanon_ofQ|apply rval_ofQ].
Qed.
(** Equality is that of currency and worth, and equal money hashes equally. *)
Theorem C84_equal m n : proper m -> proper n ->
  exists b, money_eqb m n = Some b /\ (b = true <-> cur m = cur n /\ (worth m == worth n)%Q) /\ (b = true <-> money_hashed m = money_hashed n) /\ (b = true <-> m = n).
Proof.
  intros (Lm & Cm & Sm) (Ln & Cn & Sn). destruct (C84_codes _ _ Lm Ln) as [_ Q]. unfold money_eqb, money_hashed. rewrite (to_rat _ Cm), (to_rat _ Cn).
  assert (I : (dval (amount m) == dval (amount n))%Q <-> ofQ (dval (amount m)) = ofQ (dval (amount n))) by (split; [apply ofQ_proper|apply ofQ_inj]).
  assert (W : cur m = cur n -> (worth m == worth n)%Q -> m = n).
  { intros E V. destruct m as [a c], n as [b d]. unfold worth in *. cbn [cur amount] in *. subst d. f_equal. form a Cm x s. form b Cn y t. cbn [d_scale] in *. rewrite !dval_Dec in V. subst s t. do 2 f_equal.
    assert (N : ~ (/ tenp (minor c) == 0)%Q) by (intros Z; pose proof (Qinv_lt_0_compat _ (tenp_pos (minor c) (proj1 S))); lra). apply (proj1 (Qmult_inj_r _ _ _ N)) in V. now apply (proj1 (inject_Z_injective x y)). }
  destruct (cur_eqb (cur m) (cur n)) eqn:E.
  - pose proof (proj1 Q eq_refl) as Ec. eexists. split; [reflexivity|]. rewrite rat_eqb_iff, <- I, Ec. split; [tauto|]. split.
    + split; intros V; [apply I in V; rewrite V; done|apply I; congruence].
    + split; [apply W; done|now intros ->].
  - assert (N : cur m <> cur n) by (intros C; apply Q in C; done). exists false. split; [done|]. split; [split; [done|tauto]|]. split.
    + split; [done|]. intros H. assert (A : code (cur m) = code (cur n)) by congruence. exfalso. apply cur_eqb_code in A. congruence.
    + split; [done|intros ->; done].
Qed.

(** ** Conversion *)
Definition table_ok (t : rates) : Prop := forall k r, t k = Some r -> rcanon r.
Theorem C84_rates t s s' r : rate (set_rate t s r) s' = if str_eqb (normal s') (normal s) then Some r else rate t s'.
Proof. reflexivity. Qed.
Lemma rounds_int z m : rounds m (inject_Z z) z.
Proof. apply rounds_exact. reflexivity. Qed.
(** A conversion is refused without both rates or with a zero target rate; otherwise the exact value is rounded once. *)
Theorem C84_convert t m to : table_ok t -> proper m -> listed to ->
  match rate t (code (cur m)), rate t (code to) with
  | Some f, Some g =>
      ((rval g == 0)%Q -> convert t m to = Some None) /\
      (~ (rval g == 0)%Q -> exists r, convert t m to = Some (Some r) /\ proper r /\ cur r = to /\ rounds HalfEven (worth m * rval f / rval g * tenp (minor to)) (bval (d_coeff (amount r))))
  | _, _ => convert t m to = Some None
  end.
Proof.
  intros T (Lm & Cm & Sm) Lt. unfold convert. destruct (rate t (code (cur m))) as [f|] eqn:Ef; [|done]. destruct (rate t (code to)) as [g|] eqn:Eg; [|done].
  pose proof (T _ _ Ef) as Cf. pose proof (T _ _ Eg) as Cg. rewrite (to_rat _ Cm). assert (Mf : forall a, rat_mul (ofQ a) f = Some (ofQ (a * rval f))) by (intros a; rewrite <- (ofQ_rval f Cf) at 1; apply rmul_ofQ).
  assert (Dg : forall a, rat_div (ofQ a) g = Some (if Qis0 (rval g) then None else Some (ofQ (a / rval g)))) by (intros a; rewrite <- (ofQ_rval g Cg) at 1; apply div_ofQ). rewrite Mf, Dg. split.
  - intros Z. now destruct (Qis0_spec (rval g)).
  - intros N. destruct (Qis0_spec (rval g)) as [Z|_]; [done|]. destruct (listed_minor to Lt) as [U _].
    destruct (C29_from_rational (ofQ (dval (amount m) * rval f / rval g)) (minor to) HalfEven (rcanon_ofQ _) U) as (d & E & Cd & Sd & R). rewrite E.
    destruct (C84_of d to Lt Cd) as (r & Er & Ec & P & R2 & X). rewrite Er. exists r. split; [done|]. split; [done|]. split; [done|].
    assert (B : bval (d_coeff (amount r)) = bval (d_coeff d)).
    { apply (rounds_unique HalfEven (dval d * tenp (minor to))); [exact R2|]. apply rounds_exact. unfold dval. rewrite Sd. field. apply tenp_neq. unfold is_u32 in U. lia. }
    rewrite B. eapply rounds_proper; [|exact R]. unfold worth. rewrite rval_ofQ. reflexivity.
Qed.
Lemma rounds_even_mono p q y z : (p <= q)%Q -> rounds HalfEven p y -> rounds HalfEven q z -> y <= z.
Proof.
  intros L Hy Hz. destruct (Z.le_gt_cases y z) as [|G]; [done|exfalso]. pose proof Hy as [_ [A _]]. pose proof Hz as [_ [B _]]. apply Qabs_Qle_condition in A, B. pose proof (inj_lt z y G) as I.
  assert (E : (p == q)%Q) by lra. apply (rounds_proper _ _ q) in Hy; [|done]. pose proof (rounds_unique _ _ _ _ Hy Hz). lia.
Qed.
Lemma proper_worth r : proper r -> (worth r == inject_Z (bval (d_coeff (amount r))) / tenp (minor (cur r)))%Q.
Proof. intros (L & C & S). unfold worth, dval. rewrite S. reflexivity. Qed.
Lemma tenp_minor c : listed c -> (0 < tenp (minor c))%Q.
Proof. intros L. apply tenp_pos. destruct (listed_minor c L) as [U _]. unfold is_u32 in U. lia. Qed.
(** The error is at most half a minor unit. *)
Theorem C84_convert_error t m to r f g : table_ok t -> proper m -> listed to -> rate t (code (cur m)) = Some f -> rate t (code to) = Some g ->
  convert t m to = Some (Some r) -> (Qabs (worth m * rval f / rval g - worth r) <= (1 # 2) / tenp (minor to))%Q.
Proof.
  intros T P Lt Ef Eg E. pose proof (C84_convert t m to T P Lt) as H. rewrite Ef, Eg in H. destruct H as [H0 H1].
  assert (N : ~ (rval g == 0)%Q) by (intros Z; rewrite (H0 Z) in E; done). destruct (H1 N) as (r' & E' & P' & C' & R). rewrite E in E'. injection E' as <-.
  rewrite (proper_worth r P'), C'. pose proof (tenp_minor to Lt) as Tp. destruct R as [_ [A _]]. set (x := (worth m * rval f / rval g)%Q) in *. set (u := tenp (minor to)) in *. set (z := inject_Z _) in *.
  apply Qle_shift_div_l; [done|]. assert (W : (Qabs (x - z / u) * u == Qabs (x * u - z))%Q).
  { rewrite <- (Qabs_pos u) at 2 by lra. rewrite <- Qabs_Qmult. apply Qabs_wd. field. lra. }
  rewrite W. done.
Qed.
(** More money converts to at least as much, when the rates have one sign. *)
Theorem C84_convert_mono t m n to r s f g : table_ok t -> proper m -> proper n -> cur m = cur n -> listed to -> rate t (code (cur m)) = Some f -> rate t (code to) = Some g -> (0 < rval f)%Q -> (0 < rval g)%Q ->
  convert t m to = Some (Some r) -> convert t n to = Some (Some s) -> (worth m <= worth n)%Q -> (worth r <= worth s)%Q.
Proof.
  intros T Pm Pn Ec Lt Ef Eg F G E1 E2 L. pose proof (C84_convert t m to T Pm Lt) as H1. pose proof (C84_convert t n to T Pn Lt) as H2. rewrite Ef, Eg in H1. rewrite <- Ec, Ef, Eg in H2.
  destruct (proj2 H1) as (r' & A1 & A2 & A3 & A4); [lra|]. destruct (proj2 H2) as (s' & B1 & B2 & B3 & B4); [lra|]. rewrite E1 in A1. rewrite E2 in B1. injection A1 as <-. injection B1 as <-.
  rewrite (proper_worth r A2), (proper_worth s B2), A3, B3. pose proof (tenp_minor to Lt) as Tp. unfold Qdiv. apply Qmult_le_compat_r; [|apply Qinv_le_0_compat; lra]. apply inj_le.
  eapply rounds_even_mono; [|exact A4|exact B4]. apply Qmult_le_compat_r; [|lra]. unfold Qdiv. apply Qmult_le_compat_r; [|apply Qinv_le_0_compat; lra]. apply Qmult_le_compat_r; [done|lra].
Qed.
(** Into its own currency, with a rate that is not zero, money is unchanged. *)
Theorem C84_convert_same t m f : table_ok t -> proper m -> rate t (code (cur m)) = Some f -> ~ (rval f == 0)%Q -> convert t m (cur m) = Some (Some m).
Proof.
  intros T P Ef N. pose proof (C84_convert t m (cur m) T P (proj1 P)) as H. rewrite Ef in H. destruct (proj2 H N) as (r & E & Pr & Cr & R). rewrite E. do 2 f_equal.
  destruct (C84_equal r m Pr P) as (b & _ & Hw & _ & Hb). apply Hb, Hw. split; [done|]. rewrite (proper_worth r Pr), (proper_worth m P), Cr. apply Qmult_comp; [|reflexivity]. apply inject_Z_injective.
  eapply rounds_unique; [exact R|]. apply rounds_exact. rewrite (proper_worth m P). field. split; [|done]. pose proof (tenp_minor _ (proj1 P)). lra.
Qed.
(** There and back: nothing is lost when the minor unit of the other currency is worth less. *)
Theorem C84_round_trip t m to r f g : table_ok t -> proper m -> listed to -> rate t (code (cur m)) = Some f -> rate t (code to) = Some g -> ~ (rval f == 0)%Q ->
  (Qabs (rval g) / tenp (minor to) < Qabs (rval f) / tenp (minor (cur m)))%Q -> convert t m to = Some (Some r) -> convert t r (cur m) = Some (Some m).
Proof.
  intros T P Lt Ef Eg Nf D E. pose proof (C84_convert t m to T P Lt) as H. rewrite Ef, Eg in H. destruct H as [H0 H1].
  assert (N : ~ (rval g == 0)%Q) by (intros Z; rewrite (H0 Z) in E; done). destruct (H1 N) as (r' & E' & Pr & Cr & _). rewrite E in E'. injection E' as <-.
  pose proof (C84_convert_error t m to r f g T P Lt Ef Eg E) as B.
  pose proof (C84_convert t r (cur m) T Pr (proj1 P)) as K. rewrite Cr, Eg, Ef in K. destruct (proj2 K Nf) as (q & Eq & Pq & Cq & R). rewrite Eq. do 2 f_equal.
  destruct (C84_equal q m Pq P) as (b & _ & Hw & _ & Hb). apply Hb, Hw. split; [done|]. rewrite (proper_worth q Pq), (proper_worth m P), Cq. apply Qmult_comp; [|reflexivity]. apply inject_Z_injective.
  set (z := bval (d_coeff (amount m))) in *. set (y := bval (d_coeff (amount q))) in *. pose proof (proper_worth m P) as W. fold z in W.
  pose proof (tenp_minor _ (proj1 P)) as Tm. pose proof (tenp_minor _ Lt) as Tt. set (um := tenp (minor (cur m))) in *. set (ut := tenp (minor to)) in *.
  set (F := rval f) in *. set (G := rval g) in *. set (w := worth r) in *.
  assert (X : (Qabs (w * G / F * um - inject_Z z) < 1 # 2)%Q).
  { assert (V : (w * G / F * um - inject_Z z == - ((worth m * F / G - w) * (G / F) * um))%Q) by (rewrite W; field; repeat split; first [done | lra]).
    rewrite V, Qabs_opp, !Qabs_Qmult. rewrite (Qabs_pos um) by lra.
    assert (AG : (0 < Qabs G)%Q) by (destruct (Qlt_le_dec 0 (Qabs G)) as [|C]; [done|]; exfalso; apply N; apply Qabs_Qle_condition in C; lra).
    assert (AF : (0 < Qabs F)%Q) by (destruct (Qlt_le_dec 0 (Qabs F)) as [|C]; [done|]; exfalso; apply Nf; apply Qabs_Qle_condition in C; lra).
    assert (GF : (Qabs (G / F) == Qabs G / Qabs F)%Q) by (unfold Qdiv; rewrite Qabs_Qmult, Qabs_Qinv; reflexivity). rewrite GF.
    assert (D' : (Qabs G / Qabs F * um < ut)%Q).
    { assert (D2 : (Qabs G / ut * (ut * um / Qabs F) < Qabs F / um * (ut * um / Qabs F))%Q).
      { apply Qmult_lt_compat_r; [|exact D]. apply Qlt_shift_div_l; [done|]. rewrite Qmult_0_l. now apply Qmult_lt_0_compat. }
      assert (Z1 : (Qabs G / ut * (ut * um / Qabs F) == Qabs G / Qabs F * um)%Q) by (field; split; lra). assert (Z2 : (Qabs F / um * (ut * um / Qabs F) == ut)%Q) by (field; split; lra). rewrite Z1, Z2 in D2. done. }
    set (k := (Qabs G / Qabs F * um)%Q) in *. assert (K0 : (0 <= k)%Q) by (unfold k; apply Qmult_le_0_compat; [|lra]; apply Qle_shift_div_l; [done|lra]).
    assert (Z3 : (Qabs (worth m * F / G - w) * (Qabs G / Qabs F) * um == Qabs (worth m * F / G - w) * k)%Q) by (unfold k; ring). rewrite Z3.
    apply Qle_lt_trans with ((1 # 2) / ut * k)%Q; [apply Qmult_le_compat_r; done|]. apply Qlt_le_trans with ((1 # 2) / ut * ut)%Q; [apply Qmult_lt_l; [|done]; apply Qlt_shift_div_l; [done|lra]|].
    assert (Z4 : ((1 # 2) / ut * ut == 1 # 2)%Q) by (field; lra). rewrite Z4. lra. }
  eapply rounds_unique; [exact R|]. split; [lra|]. split; [lra|]. intros C. rewrite C in X. lra.
Qed.
(** Otherwise a round trip can lose money, and the parts of a sum can convert to another total. *)
Definition usd : currency := Cur [85; 83; 68] 2.
Definition jpy : currency := Cur [74; 80; 89] 0.
Definition table : rates := set_rate (set_rate no_rates [85; 83; 68] (rat_from_i64 60)) [106; 112; 121] (rat_from_i64 1).
Lemma listed_ex : listed usd /\ listed jpy.
Proof. split; [exists [117; 115; 100; 32]|exists [74; 80; 89]]; reflexivity. Qed.
Lemma table_ex : table_ok table.
Proof.
  intros k r. unfold table, set_rate, no_rates. destruct (str_eqb k _); [intros [= <-]|destruct (str_eqb k _); [intros [= <-]|done]]; rewrite from_i64_ofQ by (unfold is_i64; lia); apply rcanon_ofQ.
Qed.
Definition cents (k : Z) : money := Money (Dec (bi_from_i64 k) 2) usd.
Definition yen (k : Z) : money := Money (Dec (bi_from_i64 k) 0) jpy.
Lemma proper_cents k : is_i64 k -> proper (cents k).
Proof. intros K. split; [apply listed_ex|]. split; [|done]. split; [apply C27_canonical, built_i64; done|unfold is_u32; cbn; lia]. Qed.
Theorem C84_lossless_refuted : exists t m to r, table_ok t /\ proper m /\ listed to /\ convert t m to = Some (Some r) /\ convert t r (cur m) <> Some (Some m).
Proof.
  exists table, (cents 1), jpy, (yen 1). split; [apply table_ex|]. split; [apply proper_cents; unfold is_i64; lia|]. split; [apply listed_ex|]. split; [vm_compute; done|]. intros C. vm_compute in C. congruence.
Qed.
Theorem C84_split_refuted : exists t a b s to ra rb rs, table_ok t /\ proper a /\ proper b /\ money_add a b = Some s /\ convert t a to = Some (Some ra) /\ convert t b to = Some (Some rb) /\ convert t s to = Some (Some rs) /\ money_add ra rb <> Some rs.
Proof.
  exists table, (cents 1), (cents 1), (cents 2), jpy, (yen 1), (yen 1), (yen 1). split; [apply table_ex|]. split; [apply proper_cents; unfold is_i64; lia|]. split; [apply proper_cents; unfold is_i64; lia|].
  split; [vm_compute; done|]. split; [vm_compute; done|]. split; [vm_compute; done|]. split; [vm_compute; done|]. intros C. vm_compute in C. congruence.
Qed.
(** The fields are public: a currency of the same code with another scale passes for the same. *)
Theorem C84_scale_refuted : exists m n a, cur_eqb (cur m) (cur n) = true /\ proper m /\ money_add m n = Some a /\ d_scale (amount a) <> minor (cur a).
Proof.
  exists (cents 1), (Money (Dec (bi_from_i64 1) 3) (Cur [85; 83; 68] 3)), (Money (Dec (bi_from_i64 11) 3) usd). split; [done|]. split; [apply proper_cents; unfold is_i64; lia|]. split; [vm_compute; done|]. discriminate.
Qed.
(** The ambient table. *)
Theorem C84_ambient m to s r t : ambient_convert None m to = Some None /\ ambient_convert (ambient_set (Some t) s r) m to = convert (set_rate t s r) m to /\
  ambient_convert (ambient_set None s r) m to = convert (set_rate no_rates s r) m to.
Proof. done. Qed.

Example C84_ex : money_add (cents 10) (cents 20) = Some (cents 30) /\ scale_int (cents 1999) 3 = Some (cents 5997) /\ money_of (Dec (bi_from_i64 2345) 3) usd = Some (cents 234) /\ money_add (cents 5) (yen 5) = None.
Proof. vm_compute. done. Qed.
Example C84_convert_ex : convert table (yen 1000) usd = Some (Some (cents 1667)) /\ convert table (cents 1667) jpy = Some (Some (yen 1000)) /\ convert table (cents 1) (Cur [69; 85; 82] 2) = Some None.
Proof. vm_compute. done. Qed.
Example C84_trip_ex : (Qabs (rval (rat_from_i64 60)) / tenp (minor usd) < Qabs (rval (rat_from_i64 1)) / tenp (minor jpy))%Q.
Proof. reflexivity. Qed.
