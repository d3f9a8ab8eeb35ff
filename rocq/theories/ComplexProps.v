(** C51: exact complex numbers (Gaussian rationals). *)
From Coq Require Import ZArith List Lia QArith Qabs Lqa.
From stdpp Require Import list.
From Verif Require Import MachInt BigIntModel BigIntProofs BigIntZ BigIntText BigIntProps RationalModel RationalQ RationalProps ComplexModel.
Open Scope Z_scope.

(** ** Complex numbers over the rationals *)
Definition Ceq (x y : Q * Q) : Prop := (fst x == fst y)%Q /\ (snd x == snd y)%Q.
Definition Cplus (x y : Q * Q) : Q * Q := ((fst x + fst y)%Q, (snd x + snd y)%Q).
Definition Cminus (x y : Q * Q) : Q * Q := ((fst x - fst y)%Q, (snd x - snd y)%Q).
Definition Cmult (x y : Q * Q) : Q * Q := ((fst x * fst y - snd x * snd y)%Q, (fst x * snd y + snd x * fst y)%Q).
Fixpoint Cpower (x : Q * Q) (n : nat) : Q * Q := match n with O => (1%Q, 0%Q) | S n => Cmult x (Cpower x n) end.
Definition C0 : Q * Q := (0%Q, 0%Q).
Definition C1 : Q * Q := (1%Q, 0%Q).
Lemma Ceq_refl x : Ceq x x. Proof. split; reflexivity. Qed.
Lemma Ceq_sym x y : Ceq x y -> Ceq y x. Proof. intros [? ?]. split; now symmetry. Qed.
Lemma Ceq_trans x y z : Ceq x y -> Ceq y z -> Ceq x z. Proof. intros [A B] [C D]. split; [now rewrite A|now rewrite B]. Qed.
Lemma Cmult_proper x x' y y' : Ceq x x' -> Ceq y y' -> Ceq (Cmult x y) (Cmult x' y').
Proof. intros [A B] [C D]. split; cbn; rewrite A, B, C, D; reflexivity. Qed.
Lemma Cmult_assoc x y z : Ceq (Cmult x (Cmult y z)) (Cmult (Cmult x y) z). Proof. split; cbn; ring. Qed.
Lemma Cmult_comm x y : Ceq (Cmult x y) (Cmult y x). Proof. split; cbn; ring. Qed.
Lemma Cmult_1_l x : Ceq (Cmult C1 x) x. Proof. split; cbn; ring. Qed.
Lemma Cpower_add x n m : Ceq (Cpower x (n + m)) (Cmult (Cpower x n) (Cpower x m)).
Proof. induction n as [|n IH]; cbn [Cpower Nat.add]; [apply Ceq_sym, Cmult_1_l|]. eapply Ceq_trans; [apply Cmult_proper; [apply Ceq_refl|exact IH]|apply Cmult_assoc]. Qed.
Lemma Cpower_proper x y n : Ceq x y -> Ceq (Cpower x n) (Cpower y n).
Proof. intros H. induction n as [|n IH]; cbn [Cpower]; [apply Ceq_refl|now apply Cmult_proper]. Qed.
Lemma Cpower_square x n : Ceq (Cpower (Cmult x x) n) (Cpower x (n + n)).
Proof.
  induction n as [|n IH]; cbn [Cpower Nat.add]; [apply Ceq_refl|]. rewrite Nat.add_succ_r. cbn [Cpower]. eapply Ceq_trans; [apply Cmult_proper; [apply Ceq_refl|exact IH]|]. apply Ceq_sym, Cmult_assoc.
Qed.

(** ** Values *)
Definition cval (x : complex) : Q * Q := (rval (c_re x), rval (c_im x)).
Definition ccanon (x : complex) : Prop := rcanon (c_re x) /\ rcanon (c_im x).
Definition ofC (z : Q * Q) : complex := Cx (ofQ (fst z)) (ofQ (snd z)).
Lemma ofC_proper z w : Ceq z w -> ofC z = ofC w.
Proof. intros [A B]. unfold ofC. now rewrite (ofQ_proper _ _ A), (ofQ_proper _ _ B). Qed.
Lemma cval_ofC z : Ceq (cval (ofC z)) z. Proof. split; apply rval_ofQ. Qed.
Lemma ccanon_ofC z : ccanon (ofC z). Proof. split; apply rcanon_ofQ. Qed.
Lemma ofC_cval x : ccanon x -> ofC (cval x) = x.
Proof. intros [A B]. destruct x as [a b]. unfold ofC, cval. cbn in *. now rewrite !ofQ_rval. Qed.
Lemma one_ofC : c_one = ofC C1. Proof. unfold c_one, c_from_i64, c_from_rational. fold rat_one. rewrite rat_one_ofQ, rat_zero_ofQ. reflexivity. Qed.
Lemma cadd_ofC z w : c_add (ofC z) (ofC w) = Some (ofC (Cplus z w)).
Proof. unfold c_add. cbn [c_re c_im ofC]. rewrite !add_ofQ. reflexivity. Qed.
Lemma csub_ofC z w : c_sub (ofC z) (ofC w) = Some (ofC (Cminus z w)).
Proof. unfold c_sub. cbn [c_re c_im ofC]. rewrite !sub_ofQ. reflexivity. Qed.
Lemma cmul_ofC z w : c_mul (ofC z) (ofC w) = Some (ofC (Cmult z w)).
Proof. unfold c_mul. cbn [c_re c_im ofC]. rewrite !rmul_ofQ. cbn [bind]. rewrite sub_ofQ. cbn [bind]. rewrite add_ofQ. reflexivity. Qed.
Definition Cnorm (z : Q * Q) : Q := (fst z * fst z + snd z * snd z)%Q.
Lemma norm_ofC z : c_norm_sqr (ofC z) = Some (ofQ (Cnorm z)).
Proof. unfold c_norm_sqr. cbn [c_re c_im ofC]. rewrite !rmul_ofQ. cbn [bind]. now rewrite add_ofQ. Qed.
Lemma Cnorm_zero z : (Cnorm z == 0)%Q <-> Ceq z C0.
Proof.
  unfold Cnorm, Ceq. cbn. split.
  - intros H. assert (A : (0 <= fst z * fst z)%Q) by (destruct (Qlt_le_dec (fst z) 0); nra). assert (B : (0 <= snd z * snd z)%Q) by (destruct (Qlt_le_dec (snd z) 0); nra).
    assert (Za : (fst z * fst z == 0)%Q) by lra. assert (Zb : (snd z * snd z == 0)%Q) by lra. apply Qmult_integral in Za, Zb. tauto.
  - intros [-> ->]. reflexivity.
Qed.
Definition Cinv (z : Q * Q) : Q * Q := ((fst z * / Cnorm z)%Q, ((- snd z) * / Cnorm z)%Q).
Lemma recip_ofC z : c_recip (ofC z) = Some (if Qis0 (Cnorm z) then None else Some (ofC (Cinv z))).
Proof.
  unfold c_recip. rewrite norm_ofC. cbn [bind]. rewrite ris_zero_ofQ. destruct (Qis0 (Cnorm z)) eqn:E; [done|]. rewrite recip_ofQ, E. cbn [expect bind c_re c_im ofC]. rewrite rnegated_ofQ, !rmul_ofQ. reflexivity.
Qed.
Lemma Cinv_correct z : ~ Ceq z C0 -> Ceq (Cmult (Cinv z) z) C1.
Proof. intros N. rewrite <- Cnorm_zero in N. split; cbn; unfold Cnorm in *; field; exact N. Qed.

(** The inverse is the only one. *)
Lemma Cinv_unique z w w' : Ceq (Cmult w z) C1 -> Ceq (Cmult w' z) C1 -> Ceq w w'.
Proof.
  intros H H'. eapply Ceq_trans; [apply Ceq_sym, Cmult_1_l|]. eapply Ceq_trans; [apply Cmult_proper; [apply Ceq_sym, H'|apply Ceq_refl]|].
  eapply Ceq_trans; [apply Ceq_sym, Cmult_assoc|]. eapply Ceq_trans; [apply Cmult_proper; [apply Ceq_refl|]|eapply Ceq_trans; [apply Cmult_comm|apply Cmult_1_l]].
  eapply Ceq_trans; [apply Cmult_comm|exact H].
Qed.
Lemma Cinv_power z n : ~ Ceq z C0 -> Ceq (Cmult (Cpower (Cinv z) n) (Cpower z n)) C1.
Proof.
  intros N. induction n as [|n IH]; cbn [Cpower]; [split; cbn; ring|]. eapply Ceq_trans; [|exact IH].
  eapply Ceq_trans; [|apply Cmult_1_l]. eapply Ceq_trans; [|apply Cmult_proper; [apply (Cinv_correct z N)|apply Ceq_refl]]. split; cbn; ring.
Qed.

Lemma pow_loop_ofC n r b e : 0 <= e < 2 ^ Z.of_nat n -> c_pow_loop n (ofC r) (ofC b) e = Some (ofC (Cmult r (Cpower b (Z.to_nat e)))).
Proof.
  revert r b e. induction n as [|n IH]; intros r b e H.
  - assert (e = 0) as -> by (cbn in H; lia). cbn [c_pow_loop Z.eqb Z.to_nat Cpower]. f_equal. apply ofC_proper, Ceq_sym. eapply Ceq_trans; [apply Cmult_comm|apply Cmult_1_l].
  - cbn [c_pow_loop]. destruct (Z.eqb_spec e 0) as [->|N]; [cbn [Z.to_nat Cpower]; f_equal; apply ofC_proper, Ceq_sym; eapply Ceq_trans; [apply Cmult_comm|apply Cmult_1_l]|].
    rewrite Nat2Z.inj_succ, Z.pow_succ_r in H by lia. pose proof (Z.div_mod e 2 ltac:(lia)) as D. assert (Hh : 0 <= e / 2 < 2 ^ Z.of_nat n) by (split; [apply Z.div_pos; lia|apply Z.div_lt_upper_bound; lia]).
    assert (O : Z.odd e = negb (e mod 2 =? 0)) by (rewrite Zmod_odd; now destruct (Z.odd e)).
    assert (R : (if Z.odd e then c_mul (ofC r) (ofC b) else Some (ofC r)) = Some (ofC (if Z.odd e then Cmult r b else r))) by (destruct (Z.odd e); [apply cmul_ofC|done]). rewrite R. cbn [bind]. clear R.
    assert (Gl : forall b', (e / 2 = 0 \/ b' = Cmult b b) -> Ceq (Cmult (if Z.odd e then Cmult r b else r) (Cpower b' (Z.to_nat (e / 2)))) (Cmult r (Cpower b (Z.to_nat e)))).
    { intros b' Hb. assert (P : Ceq (Cpower b' (Z.to_nat (e / 2))) (Cpower b (Z.to_nat (e / 2) + Z.to_nat (e / 2)))) by (destruct Hb as [-> | ->]; [apply Ceq_refl|apply Cpower_square]).
      eapply Ceq_trans; [apply Cmult_proper; [apply Ceq_refl|exact P]|]. pose proof (Z.mod_pos_bound e 2 ltac:(lia)). rewrite O. destruct (Z.eqb_spec (e mod 2) 0) as [M|M]; cbn [negb].
      - replace (Z.to_nat e) with (Z.to_nat (e / 2) + Z.to_nat (e / 2))%nat by lia. apply Ceq_refl.
      - replace (Z.to_nat e) with (S (Z.to_nat (e / 2) + Z.to_nat (e / 2)))%nat by lia. cbn [Cpower]. apply Ceq_sym, Cmult_assoc. }
    destruct (Z.ltb_spec 0 (e / 2)).
    + rewrite cmul_ofC. cbn [bind]. rewrite IH by done. f_equal. apply ofC_proper, Gl. tauto.
    + cbn [bind]. rewrite IH by done. f_equal. apply ofC_proper, Gl. left. lia.
Qed.
Lemma cpow_nonneg d z e : 0 <= e < 2 ^ 31 -> c_pow d (ofC z) e = Some (Some (ofC (Cpower z (Z.to_nat e)))).
Proof.
  intros H. assert (E : c_pow d (ofC z) e = bind (c_pow_loop 32 c_one (ofC z) e) (fun r => Some (Some r))) by (destruct d; cbn [c_pow]; (destruct (Z.ltb_spec e 0); [lia|done])).
  rewrite E, one_ofC, pow_loop_ofC by (change (2 ^ Z.of_nat 32) with (2 ^ 32); lia). cbn [bind]. do 2 f_equal. apply ofC_proper, Cmult_1_l.
Qed.
Lemma neg_i32_val e : - 2 ^ 31 < e < 2 ^ 31 -> neg_i32 e = - e.
Proof. intros H. unfold neg_i32. rewrite Z.mod_small by lia. lia. Qed.

(** ** C51 *)
Theorem C51_constants : Ceq (cval c_zero) C0 /\ Ceq (cval c_one) C1 /\ Ceq (cval c_i) (0%Q, 1%Q) /\ ccanon c_zero /\ ccanon c_one /\ ccanon c_i.
Proof.
  assert (c_zero = ofC C0) as -> by (unfold c_zero; rewrite rat_zero_ofQ; done). assert (c_i = ofC (0%Q, 1%Q)) as -> by (unfold c_i; rewrite rat_zero_ofQ, rat_one_ofQ; done). rewrite one_ofC.
  split; [apply cval_ofC|]. split; [apply cval_ofC|]. split; [apply cval_ofC|]. split; [apply ccanon_ofC|]. split; apply ccanon_ofC.
Qed.
(** Sums, differences and products are exact and never panic. *)
Theorem C51_ring x y : ccanon x -> ccanon y -> exists s d p, c_add x y = Some s /\ c_sub x y = Some d /\ c_mul x y = Some p /\ ccanon s /\ ccanon d /\ ccanon p /\
  Ceq (cval s) (Cplus (cval x) (cval y)) /\ Ceq (cval d) (Cminus (cval x) (cval y)) /\ Ceq (cval p) (Cmult (cval x) (cval y)).
Proof.
  intros Hx Hy. exists (ofC (Cplus (cval x) (cval y))), (ofC (Cminus (cval x) (cval y))), (ofC (Cmult (cval x) (cval y))). rewrite <- cadd_ofC, <- csub_ofC, <- cmul_ofC, (ofC_cval x Hx), (ofC_cval y Hy).
  split; [done|]. split; [done|]. split; [done|]. split; [apply ccanon_ofC|]. split; [apply ccanon_ofC|]. split; [apply ccanon_ofC|]. split; [apply cval_ofC|]. split; apply cval_ofC.
Qed.
(** The square of the imaginary unit is minus one. *)
Theorem C51_i_squared : exists p, c_mul c_i c_i = Some p /\ p = c_negated c_one.
Proof. exists (c_negated c_one). vm_compute. done. Qed.
Theorem C51_conjugate_norm x : ccanon x -> ccanon (c_conjugate x) /\ ccanon (c_negated x) /\ Ceq (cval (c_conjugate x)) (fst (cval x), (- snd (cval x))%Q) /\ Ceq (cval (c_negated x)) ((- fst (cval x))%Q, (- snd (cval x))%Q) /\
  (exists n, c_norm_sqr x = Some n /\ rcanon n /\ (rval n == fst (cval x) * fst (cval x) + snd (cval x) * snd (cval x))%Q) /\
  (c_is_zero x = true <-> Ceq (cval x) C0) /\ (c_is_real x = true <-> (snd (cval x) == 0)%Q).
Proof.
  intros Hx. set (z := cval x). rewrite <- (ofC_cval x Hx). fold z. clearbody z. clear x Hx. unfold c_conjugate, c_negated, c_is_zero, c_is_real. cbn [c_re c_im ofC]. rewrite !rnegated_ofQ, !ris_zero_ofQ.
  split; [split; apply rcanon_ofQ|]. split; [split; apply rcanon_ofQ|]. split; [split; apply rval_ofQ|]. split; [split; apply rval_ofQ|].
  split; [exists (ofQ (Cnorm z)); split; [apply norm_ofC|]; split; [apply rcanon_ofQ|apply rval_ofQ]|]. unfold Ceq, C0. cbn [fst snd]. destruct (Qis0_spec (fst z)), (Qis0_spec (snd z)); cbn [andb]; (split; split); try done; tauto.
Qed.
(** Every number but zero has an inverse, found exactly; division is multiplication by it. *)
Theorem C51_recip x : ccanon x -> (Ceq (cval x) C0 /\ c_recip x = Some None) \/ (~ Ceq (cval x) C0 /\ exists r, c_recip x = Some (Some r) /\ ccanon r /\ Ceq (Cmult (cval r) (cval x)) C1).
Proof.
  intros Hx. pose proof (recip_ofC (cval x)) as E. rewrite (ofC_cval x Hx) in E. rewrite E. rewrite <- Cnorm_zero. destruct (Qis0_spec (Cnorm (cval x))) as [Z0|N]; [left; done|right]. split; [done|]. eexists. split; [reflexivity|]. split; [apply ccanon_ofC|].
  rewrite Cnorm_zero in N. eapply Ceq_trans; [apply Cmult_proper; [apply cval_ofC|apply Ceq_refl]|now apply Cinv_correct].
Qed.
Theorem C51_div x y : ccanon x -> ccanon y -> (Ceq (cval y) C0 /\ c_div x y = Some None) \/ (~ Ceq (cval y) C0 /\ exists r, c_div x y = Some (Some r) /\ ccanon r /\ Ceq (Cmult (cval r) (cval y)) (cval x)).
Proof.
  intros Hx Hy. unfold c_div. pose proof (recip_ofC (cval y)) as E. rewrite (ofC_cval y Hy) in E. rewrite E. cbn [bind]. rewrite <- Cnorm_zero. destruct (Qis0_spec (Cnorm (cval y))) as [Z0|N]; [left; done|right]. split; [done|].
  pose proof (cmul_ofC (cval x) (Cinv (cval y))) as M. rewrite (ofC_cval x Hx) in M. rewrite M. cbn [bind]. eexists. split; [reflexivity|]. split; [apply ccanon_ofC|]. rewrite Cnorm_zero in N.
  eapply Ceq_trans; [apply Cmult_proper; [apply cval_ofC|apply Ceq_refl]|]. eapply Ceq_trans; [apply Ceq_sym, Cmult_assoc|]. eapply Ceq_trans; [apply Cmult_proper; [apply Ceq_refl|apply (Cinv_correct _ N)]|]. eapply Ceq_trans; [apply Cmult_comm|apply Cmult_1_l].
Qed.
(** Powers, for every exponent but the least [i32]: refused only for zero to a negative power. One
    level of recursion is enough. *)
Theorem C51_pow_partial x e d : ccanon x -> - 2 ^ 31 < e < 2 ^ 31 -> (0 < d)%nat ->
  (0 <= e -> exists r, c_pow d x e = Some (Some r) /\ ccanon r /\ Ceq (cval r) (Cpower (cval x) (Z.to_nat e))) /\
  (e < 0 -> Ceq (cval x) C0 -> c_pow d x e = Some None) /\
  (e < 0 -> ~ Ceq (cval x) C0 -> exists r, c_pow d x e = Some (Some r) /\ ccanon r /\ Ceq (Cmult (cval r) (Cpower (cval x) (Z.to_nat (- e)))) C1).
Proof.
  intros Hx He Hd. set (z := cval x). rewrite <- (ofC_cval x Hx). fold z. clearbody z. clear x Hx. split; [|split].
  - intros H. eexists. split; [apply cpow_nonneg; lia|]. split; [apply ccanon_ofC|apply cval_ofC].
  - intros H Z0. destruct d as [|d]; [lia|]. cbn [c_pow]. destruct (Z.ltb_spec e 0); [|lia]. rewrite recip_ofC. cbn [bind]. apply Cnorm_zero in Z0. destruct (Qis0_spec (Cnorm z)); done.
  - intros H N. destruct d as [|d]; [lia|]. cbn [c_pow]. destruct (Z.ltb_spec e 0); [|lia]. rewrite recip_ofC. cbn [bind]. pose proof N as N'. rewrite <- Cnorm_zero in N'. destruct (Qis0_spec (Cnorm z)); [done|].
    rewrite neg_i32_val, cpow_nonneg by lia. eexists. split; [reflexivity|]. split; [apply ccanon_ofC|]. eapply Ceq_trans; [apply Cmult_proper; [apply cval_ofC|apply Ceq_refl]|]. now apply Cinv_power.
Qed.
(** The least exponent is its own negation: the recursion never ends (a debug build panics). *)
Lemma neg_i32_min : neg_i32 (- 2 ^ 31) = - 2 ^ 31. Proof. reflexivity. Qed.
Lemma pow_min_diverges d z : ~ Ceq z C0 -> c_pow d (ofC z) (- 2 ^ 31) = None.
Proof.
  revert z. induction d as [|d IH]; intros z N; [done|]. cbn [c_pow]. change (- 2 ^ 31 <? 0) with true. cbn match. rewrite recip_ofC. cbn [bind]. pose proof N as N'. rewrite <- Cnorm_zero in N'. destruct (Qis0_spec (Cnorm z)); [done|].
  rewrite neg_i32_min. apply IH. intros Z0. pose proof (Cinv_correct z N) as I. assert (W : Ceq (Cmult (Cinv z) z) C0). { eapply Ceq_trans; [apply Cmult_proper; [exact Z0|apply Ceq_refl]|]. split; cbn; ring. }
  destruct I as [I _], W as [W _]. rewrite W in I. cbn in I. lra.
Qed.
Theorem C51_pow_least_refuted : exists x, ccanon x /\ ~ Ceq (cval x) C0 /\ forall d, c_pow d x (- 2 ^ 31) = None.
Proof.
  assert (N : ~ Ceq C1 C0) by (intros [E _]; cbn in E; lra). exists (ofC C1). split; [apply ccanon_ofC|]. split; [|intros d; now apply pow_min_diverges].
  intros E. apply N. eapply Ceq_trans; [apply Ceq_sym, cval_ofC|exact E].
Qed.
Theorem C51_equality x y : ccanon x -> ccanon y -> (c_eqb x y = true <-> Ceq (cval x) (cval y)) /\ (x = y <-> Ceq (cval x) (cval y)).
Proof.
  intros Hx Hy. assert (E : c_eqb x y = true <-> x = y) by (unfold c_eqb; rewrite andb_true_iff, !rat_eqb_iff; destruct x, y; cbn; split; [intros [-> ->]; done|intros [= -> ->]; done]). rewrite E.
  assert (W : x = y <-> Ceq (cval x) (cval y)); [|done]. split; [intros ->; apply Ceq_refl|]. intros H. rewrite <- (ofC_cval x Hx), <- (ofC_cval y Hy). now apply ofC_proper.
Qed.

(** ** Text *)
Definition numchar (c : Z) : Prop := is_digit c \/ c = 43 \/ c = 45 \/ c = 47.
Lemma numchar_plain c : numchar c -> is_space c = false /\ c <> 105.
Proof.
  intros [H|[-> |[-> | ->]]]; [|done..]. unfold is_digit in H. unfold is_space. destruct (Z.leb_spec c 13); [lia|]. rewrite andb_false_r. destruct (Z.eqb_spec c 32); [lia|]. split; [done|lia].
Qed.
Lemma int_text_numchar t z : int_text t z -> t <> [] /\ Forall numchar t.
Proof.
  intros (sg & ds & -> & Hs & N & F & _). split; [destruct sg, ds; done|]. apply Forall_app. split; [|eapply Forall_impl; [exact F|]; intros c Hc; left; exact Hc].
  destruct Hs as [-> |[-> | ->]]; [constructor| |]; (apply Forall_cons_2; [|constructor]); unfold numchar; tauto.
Qed.
Lemma built_Z z : built (of_Z z).
Proof. destruct (C27_every_integer z) as (b & Hb & V). rewrite <- V, of_Z_bval; [done|]. now apply C27_canonical. Qed.
Lemma rbuilt_Q q : rbuilt (ofQ q).
Proof.
  destruct (ofQ_parts q) as (n & d & E & P & G & V). apply (rbuilt_new (of_Z n) (of_Z d)); [apply built_Z|apply built_Z|]. rewrite new_of_Z. destruct (Z.eqb_spec d 0); [lia|]. do 2 f_equal. apply ofQ_proper. rewrite V. now apply Qfrac_pos.
Qed.
Lemma show_any q : exists s, rat_show (ofQ q) = Some s /\ rat_parse s = Some (Some (ofQ q)) /\ s <> [] /\ Forall numchar s.
Proof.
  destruct (C28_text_roundtrip _ (rbuilt_Q q)) as (s & E & P & n & d & _ & _ & a & b & Ta & Tb & Es). exists s. split; [done|]. split; [done|]. destruct (int_text_numchar a n Ta) as [Na Fa]. destruct (int_text_numchar b _ Tb) as [Nb Fb].
  destruct (d =? 1)%positive; subst s; [done|]. split; [destruct a; done|]. apply Forall_app. split; [done|]. apply Forall_cons_2; [unfold numchar; tauto|done].
Qed.
Lemma show_digits z : 0 <= z -> exists ds, bi_show (of_Z z) = Some ds /\ Forall is_digit ds /\ ds <> [] /\ dec_value ds = z.
Proof. intros H. destruct (show_of_Z z) as (ds & E & (F & N & _) & V). exists ds. replace (z <? 0) with false in E by (symmetry; apply Z.ltb_ge; lia). rewrite Z.abs_eq in V by done. done. Qed.
Definition slashdigit (c : Z) : Prop := is_digit c \/ c = 47.
Definition sgn_of (sg : list Z) (q : Q) : Q := if bool_decide (sg = [45]) then (- q)%Q else q.
Lemma show_mag q : (0 <= q)%Q -> exists m, rat_show (ofQ q) = Some m /\ m <> [] /\ Forall slashdigit m /\ forall sg, sg = [] \/ sg = [43] \/ sg = [45] -> rat_parse (sg ++ m) = Some (Some (ofQ (sgn_of sg q))).
Proof.
  intros Hq. unfold rat_show, rat_is_integer. destruct (ofQ_parts q) as (n & d & E & P & G & V). rewrite E. cbn [r_num r_den ratz]. rewrite one_of_Z, eqb_of_Z.
  assert (Hn : 0 <= n). { destruct (Z.le_gt_cases 0 n) as [|H]; [done|]. apply (q_neg n d q P V) in H. lra. }
  destruct (show_digits n Hn) as (a & Ea & Fa & Na & Va). destruct (show_digits d ltac:(lia)) as (b & Eb & Fb & Nb & Vb). rewrite Ea, Eb.
  assert (Ta : forall sg, sg = [] \/ sg = [43] \/ sg = [45] -> int_text (sg ++ a) (if bool_decide (sg = [45]) then - n else n)). { intros sg Hs. exists sg, a. split; [done|]. split; [done|]. split; [done|]. split; [done|]. now rewrite Va. }
  assert (Tb : int_text b d). { exists [], b. split; [done|]. split; [tauto|]. split; [done|]. split; [done|]. now rewrite Vb. }
  assert (Sa : Forall slashdigit a) by (eapply Forall_impl; [exact Fa|]; intros; left; done).
  destruct (Z.eqb_spec d 1) as [D1|D1].
  - exists a. split; [done|]. split; [done|]. split; [done|]. intros sg Hs. pose proof (text_int [] (sg ++ a) [] _ ltac:(constructor) ltac:(constructor) (Ta sg Hs)) as T. rewrite app_nil_l, app_nil_r in T. rewrite (parse_text _ _ T). do 2 f_equal. apply ofQ_proper.
    rewrite D1 in V. unfold sgn_of. case_bool_decide; rewrite V; [rewrite inject_Z_opp; reflexivity|reflexivity].
  - exists (a ++ [47] ++ b). split; [done|]. split; [destruct a; done|]. split; [apply Forall_app; split; [done|]; apply Forall_cons_2; [right; done|]; eapply Forall_impl; [exact Fb|]; intros; left; done|].
    intros sg Hs. pose proof (text_frac [] (sg ++ a) [] [] b [] _ d ltac:(constructor) ltac:(constructor) ltac:(constructor) ltac:(constructor) (Ta sg Hs) Tb ltac:(lia)) as T. cbn [app] in T. rewrite !app_nil_r in T. rewrite app_assoc. cbn [app]. rewrite (parse_text _ _ T). do 2 f_equal. apply ofQ_proper.
    unfold sgn_of. pose proof (Qfrac_pos n d P) as W. unfold Qfrac in W. case_bool_decide; rewrite V, <- W; [rewrite inject_Z_opp; field; apply inj_neq0; lia|reflexivity].
Qed.
Lemma slashdigit_plain c : slashdigit c -> numchar c /\ c <> 43 /\ c <> 45.
Proof. unfold slashdigit, numchar, is_digit. intros [H| ->]; lia. Qed.
Lemma last_sign_none i s : Forall (fun c => c <> 43 /\ c <> 45) s -> last_sign i s = None.
Proof. intros H. revert i. induction H as [|c s [N1 N2] H IH]; intros i; cbn; [done|]. rewrite IH. destruct (Z.eqb_spec c 43); [done|]. destruct (Z.eqb_spec c 45); [done|]. now rewrite andb_false_r. Qed.
Lemma last_sign_some i a c m : (c = 43 \/ c = 45) -> Forall (fun c => c <> 43 /\ c <> 45) m -> (0 < i + length a)%nat -> last_sign i (a ++ c :: m) = Some (i + length a)%nat.
Proof.
  intros Hc Hm. revert i. induction a as [|x a IH]; intros i L; cbn [app last_sign length] in *.
  - rewrite last_sign_none by done. destruct i as [|i]; [lia|]. cbn [Nat.ltb Nat.leb andb]. destruct Hc as [-> | ->]; cbn; f_equal; lia.
  - rewrite IH by lia. f_equal. lia.
Qed.
Lemma trim_id s : Forall (fun c => is_space c = false) s -> trim s = s.
Proof.
  intros F. destruct s as [|c s]; [done|]. assert (N : c :: s <> []) by done. destruct (hd_chars _ _ N F) as [H1 H2]. rewrite <- (app_nil_r (c :: s)) at 1. change ((c :: s) ++ []) with ([] ++ (c :: s) ++ []). apply trim_mid'; try done; constructor.
Qed.
(** Parsing a text that ends in "i". *)
Lemma parse_imag body : Forall numchar body -> c_parse (body ++ [105]) =
  let '(real_str, imag_str) := match last_sign 0 body with Some i => (take i body, drop i body) | None => ([], body) end in
  bind (match real_str with [] => Some (Some rat_zero) | _ => rat_parse real_str end) (fun re =>
  match re with
  | None => Some None
  | Some re =>
      bind (match imag_str with
            | [] => Some (Some rat_one)
            | [c] => if c =? 43 then Some (Some rat_one) else if c =? 45 then Some (Some (rat_from_i64 (-1))) else rat_parse imag_str
            | _ => rat_parse imag_str
            end) (fun im => Some (match im with Some im => Some (Cx re im) | None => None end))
  end).
Proof.
  intros F. unfold c_parse. rewrite trim_id.
  - rewrite rev_app_distr. cbn [rev app]. change (negb (105 =? 105)) with false. cbn match. now rewrite rev_involutive.
  - apply Forall_app. split; [eapply Forall_impl; [exact F|]; intros c Hc; now apply numchar_plain|]. apply Forall_cons_2; [done|constructor].
Qed.
Lemma parse_mag_long sg m : sg = [] \/ sg = [43] \/ sg = [45] -> m <> [] -> Forall slashdigit m ->
  match sg ++ m with [] => Some (Some rat_one) | [c] => if c =? 43 then Some (Some rat_one) else if c =? 45 then Some (Some (rat_from_i64 (-1))) else rat_parse (sg ++ m) | _ => rat_parse (sg ++ m) end = rat_parse (sg ++ m).
Proof.
  intros Hs N F. destruct Hs as [-> |[-> | ->]]; cbn [app]; destruct m as [|c [|c' m]]; try done. inversion F as [|? ? Hc _]; subst. apply slashdigit_plain in Hc as (_ & N1 & N2). destruct (Z.eqb_spec c 43); [done|]. destruct (Z.eqb_spec c 45); done.
Qed.
Lemma neg1_ofQ : rat_from_i64 (-1) = ofQ (- (1)). Proof. rewrite from_i64_ofQ by (unfold is_i64; lia). reflexivity. Qed.
(** Display never panics and is read back as the same number. *)
Theorem C51_text_roundtrip x : ccanon x -> exists s, c_show x = Some s /\ c_parse s = Some (Some x).
Proof.
  intros Hx. rewrite <- (ofC_cval x Hx). generalize (cval x). clear x Hx. intros [a b]. unfold c_show, ofC. cbn [c_re c_im fst snd]. rewrite !ris_zero_ofQ, ris_negative_ofQ, rabs_ofQ.
  destruct (show_any a) as (ra & Ea & Pa & Na & Fa). destruct (Qis0_spec b) as [Zb|Nb].
  - exists ra. split; [done|]. unfold c_parse. rewrite trim_id by (eapply Forall_impl; [exact Fa|]; intros c Hc; now apply numchar_plain). destruct (rev ra) as [|l r] eqn:Er; [apply (f_equal (@rev Z)) in Er; rewrite rev_involutive in Er; done|].
    assert (Hl : l <> 105). { assert (Fr : Forall numchar (rev ra)) by now apply List.Forall_rev. rewrite Er in Fr. inversion Fr as [|? ? Hc _]; subst. now apply numchar_plain. } destruct (Z.eqb_spec l 105); [done|]. cbn [negb]. rewrite Pa. cbn [bind]. unfold c_from_rational. rewrite rat_zero_ofQ. do 3 f_equal. apply ofQ_proper. now rewrite Zb.
  - destruct (show_mag (Qabs b) (Qabs_nonneg b)) as (m & Em & Nm & Fm & Pm). rewrite Em.
    assert (Fm' : Forall (fun c => c <> 43 /\ c <> 45) m) by (eapply Forall_impl; [exact Fm|]; intros c Hc; now apply slashdigit_plain).
    assert (Fn : Forall numchar m) by (eapply Forall_impl; [exact Fm|]; intros c Hc; now apply slashdigit_plain).
    assert (U : rat_eqb (ofQ (Qabs b)) rat_one = true <-> (Qabs b == 1)%Q). { rewrite rat_eqb_iff, rat_one_ofQ. split; [apply ofQ_inj|apply ofQ_proper]. }
    assert (SB : forall sg, (if Qneg b then sg = [45] else sg = [] \/ sg = [43]) -> (sgn_of sg (Qabs b) == b)%Q).
    { intros sg Hs. unfold sgn_of. destruct (Qneg_spec b) as [Hn|Hn]; [subst sg; rewrite bool_decide_eq_true_2 by done; rewrite Qabs_neg by lra; ring|]. rewrite bool_decide_eq_false_2 by (destruct Hs; subst; done). apply Qabs_pos. lra. }
    assert (Sg : forall sg, (if Qneg b then sg = [45] else sg = [] \/ sg = [43]) -> sg = [] \/ sg = [43] \/ sg = [45]) by (intros sg; destruct (Qneg b); tauto).
    (* the imaginary part, given its text *)
    assert (IM : forall sg, (if Qneg b then sg = [45] else sg = [] \/ sg = [43]) -> forall txt, txt = sg ++ (if rat_eqb (ofQ (Qabs b)) rat_one then [] else m) ->
      match txt with [] => Some (Some rat_one) | [c] => if c =? 43 then Some (Some rat_one) else if c =? 45 then Some (Some (rat_from_i64 (-1))) else rat_parse txt | _ => rat_parse txt end = Some (Some (ofQ b))).
    { intros sg Hs txt ->. destruct (rat_eqb (ofQ (Qabs b)) rat_one) eqn:Eu.
      - clear Eu. pose proof (proj1 U eq_refl) as Eu. rewrite app_nil_r. destruct (Qneg_spec b) as [Hn|Hn].
        + subst sg. cbn. do 2 f_equal. rewrite neg1_ofQ. apply ofQ_proper. rewrite Qabs_neg in Eu by lra. lra.
        + rewrite Qabs_pos in Eu by lra. assert (O : rat_one = ofQ b) by (rewrite rat_one_ofQ; apply ofQ_proper; now symmetry). destruct Hs as [-> | ->]; cbn; now rewrite O.
      - rewrite parse_mag_long by (try done; now apply Sg). rewrite Pm by now apply Sg. do 2 f_equal. apply ofQ_proper. now apply SB. }
    destruct (Qis0_spec a) as [Za|Za].
    + (* purely imaginary *)
      set (sg := if Qneg b then [45] else [] : list Z). set (body := sg ++ (if rat_eqb (ofQ (Qabs b)) rat_one then [] else m)).
      exists (body ++ [105]). split. { unfold body, sg. destruct (Qneg b), (rat_eqb (ofQ (Qabs b)) rat_one); cbn [bind app]; rewrite ?app_nil_r; done. }
      rewrite parse_imag. 2:{ unfold body, sg. destruct (Qneg b), (rat_eqb (ofQ (Qabs b)) rat_one); cbn [app]; try (constructor; fail); try done; apply Forall_cons_2; try done; try (constructor; fail); unfold numchar; tauto. }
      assert (LS : last_sign 0 body = None). { unfold body, sg. destruct (Qneg b); cbn [app]; [|destruct (rat_eqb (ofQ (Qabs b)) rat_one); [done|now apply last_sign_none]]. cbn [last_sign Nat.ltb Nat.leb andb]. destruct (rat_eqb (ofQ (Qabs b)) rat_one); [done|]. now rewrite last_sign_none. }
      rewrite LS. cbn [bind]. rewrite (IM sg ltac:(unfold sg; destruct (Qneg b); tauto) body eq_refl). cbn [bind]. do 2 f_equal. rewrite rat_zero_ofQ. f_equal. apply ofQ_proper. now symmetry.
    + (* both parts *)
      set (c := if Qneg b then 45 else 43). set (tl := if rat_eqb (ofQ (Qabs b)) rat_one then [] else m).
      assert (Hc : c = 43 \/ c = 45) by (unfold c; destruct (Qneg b); tauto).
      assert (Ft : Forall (fun c => c <> 43 /\ c <> 45) tl /\ Forall numchar tl) by (unfold tl; destruct (rat_eqb (ofQ (Qabs b)) rat_one); [split; constructor|done]).
      exists ((ra ++ c :: tl) ++ [105]). split. { rewrite Ea. cbn [bind]. unfold tl, c. destruct (rat_eqb (ofQ (Qabs b)) rat_one); cbn [bind app]; rewrite <- app_assoc; done. }
      rewrite parse_imag. 2:{ apply Forall_app. split; [done|]. apply Forall_cons_2; [unfold numchar; tauto|apply Ft]. }
      rewrite (last_sign_some 0 ra c tl Hc (proj1 Ft)) by (destruct ra; [done|cbn; lia]). cbn [Nat.add]. rewrite take_app, drop_app. destruct ra as [|r0 ra']; [done|]. rewrite Pa. cbn [bind].
      rewrite (IM [c] ltac:(unfold c; destruct (Qneg b); tauto) (c :: tl) eq_refl). reflexivity.
Qed.

(** ** Examples *)
Definition cx (a b : Z) : complex := Cx (rat_from_i64 a) (rat_from_i64 b).
Example ex_canon : ccanon (cx 3 (-4)).
Proof. split; apply C28_lowest_terms, rbuilt_i64; unfold is_i64; lia. Qed.
Example ex_mul : c_mul (cx 1 1) (cx 1 (-1)) = Some (cx 2 0). Proof. vm_compute. reflexivity. Qed.
Example ex_recip : c_recip (cx 3 (-4)) = Some (Some (Cx (Rat (bi_from_i64 3) (bi_from_i64 25)) (Rat (bi_from_i64 4) (bi_from_i64 25)))). Proof. vm_compute. reflexivity. Qed.
Example ex_pow : c_pow 1 (cx 0 1) (-3) = Some (Some (cx 0 1)) /\ c_pow 1 (cx 1 1) 8 = Some (Some (cx 16 0)) /\ c_pow 1 (cx 0 0) (-1) = Some None. Proof. vm_compute. done. Qed.
Example ex_show : c_show (cx 3 (-4)) = Some [51; 45; 52; 105] /\ c_show (cx 0 (-1)) = Some [45; 105] /\ c_parse [51; 45; 52; 105] = Some (Some (cx 3 (-4))) /\ c_parse [105; 105] = Some None. Proof. vm_compute. done. Qed.
