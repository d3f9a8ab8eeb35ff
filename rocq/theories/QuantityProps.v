(** C85: dimensions form a group of exact exponents as long as nothing overflows. C86: quantities convert exactly. *)
From Coq Require Import ZArith List Lia QArith Qabs Lqa Znumtheory.
From stdpp Require Import list option.
From Verif Require Import MachInt BigIntModel BigIntProofs BigIntZ RationalModel RationalQ RationalProps QuantityModel.
Open Scope Z_scope.

(** ** Exponents *)
(** Numbers whose negation is an [i32] too. *)
Definition fits (x : Z) : Prop := - 2 ^ 31 < x < 2 ^ 31.
Definition lowest (e : exponent) : Prop := fits (e_num e) /\ fits (e_den e) /\ 0 < e_den e /\ Z.gcd (e_num e) (e_den e) = 1.
Definition evalue (e : exponent) : Q := e_num e # Z.to_pos (e_den e).
Ltac low := unfold lowest, fits; repeat split; vm_compute; reflexivity.
Lemma w32_fits x : fits x -> w32 x = x.
Proof. unfold fits, w32. intros H. rewrite Z.mod_small by lia. lia. Qed.
Lemma igcd_loop_ok k : forall n a b, 0 <= a -> 0 <= b < 2 ^ Z.of_nat k -> (2 * k + 1 <= n)%nat -> igcd_loop n a b = Z.gcd a b.
Proof.
  induction k as [|k IH]; intros n a b Ha Hb Hn.
  - destruct n as [|n]; [lia|]. cbn [igcd_loop]. destruct (Z.eqb_spec b 0) as [->|N]; [rewrite Z.gcd_0_r, Z.abs_eq by done; done|cbn in Hb; lia].
  - assert (S : forall x y, 0 <= x -> 0 < y -> Z.gcd y (Z.rem x y) = Z.gcd x y /\ 0 <= Z.rem x y < y).
    { intros x y Hx Hy. split; [|apply Z.rem_bound_pos; lia]. rewrite Z.rem_mod_nonneg by lia. rewrite (Z.gcd_comm x y), Z.gcd_comm. apply Z.gcd_mod. lia. }
    destruct n as [|[|n]]; [lia|lia|]. cbn [igcd_loop]. destruct (Z.eqb_spec b 0) as [->|N]; [rewrite Z.gcd_0_r, Z.abs_eq by done; done|].
    destruct (S a b ltac:(lia) ltac:(lia)) as [G R]. destruct (Z.eqb_spec (Z.rem a b) 0) as [E|N2]; [rewrite <- G, E, Z.gcd_0_r, Z.abs_eq by lia; done|].
    set (c := Z.rem a b) in *. destruct (S b c ltac:(lia) ltac:(lia)) as [G2 R2]. rewrite IH; [rewrite G2, G; done|lia| |lia].
    split; [lia|]. rewrite Nat2Z.inj_succ, Z.pow_succ_r in Hb by lia. rewrite Z.rem_mod_nonneg in * by lia. pose proof (Z.div_mod b c ltac:(lia)). assert (1 <= b / c) by (apply Z.div_le_lower_bound; lia). nia.
Qed.
Lemma igcd_ok a b : fits a -> fits b -> igcd a b = Z.gcd a b.
Proof.
  intros Ha Hb. unfold igcd. rewrite !w32_fits by (unfold fits in *; lia). rewrite (igcd_loop_ok 31); [rewrite Z.gcd_abs_l, Z.gcd_abs_r; done|lia|unfold fits in *; cbn; lia|lia].
Qed.
Lemma quot_fits x g : fits x -> 0 < g -> fits (Z.quot x g).
Proof. intros H G. unfold fits in *. pose proof (Z.quot_abs x g ltac:(lia)) as E. rewrite (Z.abs_eq g) in E by lia. assert (Z.quot (Z.abs x) g <= Z.abs x) by (rewrite Z.quot_div_nonneg by lia; apply Z.div_le_upper_bound; nia). lia. Qed.
(** [exp_new] gives the fraction in lowest terms, and panics for a zero denominator only. *)
Theorem C85_new n d : fits n -> fits d -> (d = 0 -> exp_new n d = None) /\ (d <> 0 -> exists e, exp_new n d = Some e /\ lowest e /\ (evalue e * inject_Z d == inject_Z n)%Q).
Proof.
  intros Hn Hd. unfold exp_new. split; [intros ->; done|]. intros N. destruct (Z.eqb_spec d 0) as [|_]; [done|].
  assert (K : forall n d, fits n -> fits d -> 0 < d -> exists e, (if n =? 0 then Some exp_zero else Some (Exp (Z.quot n (igcd n d)) (Z.quot d (igcd n d)))) = Some e /\ lowest e /\ e_num e * d = n * e_den e).
  { clear. intros n d Hn Hd Hp. destruct (Z.eqb_spec n 0) as [->|Nz].
    - exists exp_zero. split; [done|]. split; [low|cbn; lia].
    - rewrite igcd_ok by done. assert (G : 0 < Z.gcd n d) by (pose proof (Z.gcd_nonneg n d); destruct (Z.eq_dec (Z.gcd n d) 0) as [C|]; [apply Z.gcd_eq_0 in C; lia|lia]).
      destruct (Z.gcd_divide_l n d) as [a Ea]. destruct (Z.gcd_divide_r n d) as [b Eb]. set (g := Z.gcd n d) in *.
      assert (Qa : Z.quot n g = a) by (rewrite Ea at 1; apply Z.quot_mul; lia). assert (Qb : Z.quot d g = b) by (rewrite Eb at 1; apply Z.quot_mul; lia).
      eexists. split; [reflexivity|]. split; [|cbn [e_num e_den]; rewrite Qa, Qb; nia]. split; [now apply quot_fits|]. split; [now apply quot_fits|]. cbn [e_num e_den]. rewrite Qa, Qb. split; [nia|].
      pose proof (Z.gcd_mul_mono_r_nonneg a b g ltac:(lia)) as M. rewrite <- Ea, <- Eb in M. fold g in M. apply (Z.mul_reg_r _ _ g); lia. }
  assert (V : forall e m c, lowest e -> 0 < c -> e_num e * c = m * e_den e -> (evalue e * inject_Z c == inject_Z m)%Q).
  { intros e m c (_ & _ & P & _) Hc E. unfold evalue, Qeq. cbn. rewrite Pos.mul_1_r, Z.mul_1_r. rewrite Z2Pos.id by lia. lia. }
  destruct (Z.ltb_spec d 0) as [L|L].
  - rewrite !w32_fits by (unfold fits in *; lia). destruct (K (- n) (- d)) as (e & E & Le & Q); [unfold fits in *; lia|unfold fits in *; lia|lia|]. exists e. split; [exact E|]. split; [done|].
    pose proof (V e (- n) (- d) Le ltac:(lia) Q) as W. rewrite !inject_Z_opp in W. lra.
  - destruct (K n d Hn Hd ltac:(lia)) as (e & E & Le & Q). exists e. split; [exact E|]. split; [done|]. apply V; [done|lia|done].
Qed.
(** One representation for each value. *)
Theorem C85_unique a b : lowest a -> lowest b -> (evalue a == evalue b)%Q -> a = b.
Proof.
  intros (_ & _ & Pa & Ga) (_ & _ & Pb & Gb) E. unfold evalue, Qeq in E. cbn in E. rewrite !Z2Pos.id in E by lia. destruct a as [n d], b as [m c]. cbn [e_num e_den] in *.
  assert (D1 : (d | c)) by (apply (Z.gauss d n c); [exists m; lia|rewrite Z.gcd_comm; done]). assert (D2 : (c | d)) by (apply (Z.gauss c m d); [exists n; lia|rewrite Z.gcd_comm; done]).
  assert (d = c) by (apply Z.divide_antisym_nonneg; lia || done). subst c. f_equal. nia.
Qed.
Lemma exp_eqb_spec a b : exp_eqb a b = true <-> a = b.
Proof. unfold exp_eqb. rewrite andb_true_iff, !Z.eqb_eq. destruct a, b; cbn. split; [intros [-> ->]; done|intros [= -> ->]; done]. Qed.
(** The intermediate numbers of a sum; they all fit when both parts of both exponents are below [2 ^ 15]. *)
Definition room (a b : exponent) : Prop := fits (e_num a * e_den b) /\ fits (e_num b * e_den a) /\ fits (e_num a * e_den b + e_num b * e_den a) /\ fits (e_num a * e_den b - e_num b * e_den a) /\ fits (e_den a * e_den b).
Definition small (e : exponent) : Prop := - 2 ^ 15 < e_num e < 2 ^ 15 /\ e_den e < 2 ^ 15.
Lemma small_room a b : lowest a -> lowest b -> small a -> small b -> room a b.
Proof. unfold room, fits, small, lowest. intros (_ & _ & ? & _) (_ & _ & ? & _) [? ?] [? ?]. assert (A : forall x y, - 2 ^ 15 < x < 2 ^ 15 -> 0 < y < 2 ^ 15 -> - 2 ^ 30 < x * y < 2 ^ 30) by (intros; nia). pose proof (A (e_num a) (e_den b)). pose proof (A (e_num b) (e_den a)). pose proof (A (e_den a) (e_den b)). lia. Qed.
Lemma quotient e n d : lowest e -> 0 < d -> (evalue e * inject_Z d == inject_Z n)%Q -> (evalue e == inject_Z n / inject_Z d)%Q.
Proof. intros _ Hd E. rewrite <- E. field. intros C. unfold Qeq in C. cbn in C. lia. Qed.
Lemma evalue_frac e : lowest e -> (evalue e == inject_Z (e_num e) / inject_Z (e_den e))%Q.
Proof. intros (_ & _ & P & _). unfold evalue. rewrite (Qmake_Qdiv (e_num e)). rewrite Z2Pos.id by lia. reflexivity. Qed.
Lemma den_neq e : lowest e -> ~ (inject_Z (e_den e) == 0)%Q.
Proof. intros (_ & _ & P & _) C. unfold Qeq in C. cbn in C. lia. Qed.
Theorem C85_exponents a b k : lowest a -> lowest b -> fits k ->
  (room a b -> exists s d, exp_add a b = Some s /\ exp_sub a b = Some d /\ lowest s /\ lowest d /\ (evalue s == evalue a + evalue b)%Q /\ (evalue d == evalue a - evalue b)%Q) /\
  (lowest (exp_neg a) /\ (evalue (exp_neg a) == - evalue a)%Q) /\
  (fits (e_num a * k) -> exists p, exp_scale a k = Some p /\ lowest p /\ (evalue p == evalue a * inject_Z k)%Q) /\
  (fits (e_den a * k) -> k <> 0 -> exists r, exp_div_int a k = Some r /\ lowest r /\ (evalue r * inject_Z k == evalue a)%Q).
Proof.
  intros La Lb Hk. pose proof La as (Fa & Fda & Pa & Ga). pose proof Lb as (Fb & Fdb & Pb & Gb). pose proof (den_neq a La) as Na. pose proof (den_neq b Lb) as Nb. split; [|split; [|split]].
  - intros (R1 & R2 & R3 & R4 & R5). unfold exp_add, exp_sub. rewrite !w32_fits by (rewrite ?w32_fits by done; done).
    destruct (proj2 (C85_new _ _ R3 R5) ltac:(nia)) as (s & Es & Ls & Vs). destruct (proj2 (C85_new _ _ R4 R5) ltac:(nia)) as (d & Ed & Ld & Vd). exists s, d. split; [done|]. split; [done|]. split; [done|]. split; [done|].
    apply quotient in Vs; [|done|nia]. apply quotient in Vd; [|done|nia]. rewrite Vs, Vd, (evalue_frac a La), (evalue_frac b Lb). unfold Z.sub. rewrite !inject_Z_plus, !inject_Z_opp, !inject_Z_mult. split; field; done.
  - unfold exp_neg. rewrite w32_fits by (unfold fits in *; lia). split; [unfold lowest, fits in *; cbn [e_num e_den]; rewrite Z.gcd_opp_l; lia|]. unfold evalue, Qeq. cbn. lia.
  - intros F. unfold exp_scale. rewrite w32_fits by done. destruct (proj2 (C85_new _ _ F Fda) ltac:(lia)) as (p & E & L & V). exists p. split; [done|]. split; [done|]. apply quotient in V; [|done|lia]. rewrite V, (evalue_frac a La), inject_Z_mult. field. done.
  - intros F K. unfold exp_div_int. rewrite w32_fits by done. destruct (proj2 (C85_new _ _ Fa F) ltac:(nia)) as (r & E & L & V). exists r. split; [done|]. split; [done|]. rewrite inject_Z_mult in V. rewrite (evalue_frac a La), <- V. field. done.
Qed.
(** An overflow gives a wrong exponent (the release build), and a zero denominator a panic. *)
Theorem C85_overflow_refuted : exists a b s, lowest a /\ lowest b /\ exp_add a b = Some s /\ ~ (evalue s == evalue a + evalue b)%Q.
Proof. exists (Exp (2 ^ 30) 1), (Exp (2 ^ 30) 1), (Exp (- 2 ^ 31) 1). split; [low|]. split; [low|]. split; [vm_compute; done|]. intros C. vm_compute in C. done. Qed.
Theorem C85_overflow_panic_refuted : exists a b, lowest a /\ lowest b /\ exp_add a b = None.
Proof. exists (Exp 1 (2 ^ 16)), (Exp 1 (2 ^ 16)). split; [low|]. split; [low|]. vm_compute. done. Qed.

(** ** Dimensions *)
Definition dim (d : list exponent) : Prop := length d = 10%nat /\ Forall lowest d.
Definition rooms (a b : list exponent) : Prop := Forall (fun p => room (fst p) (snd p)) (combine a b).
(** The exponent on an axis. *)
Definition at_ (d : list exponent) (i : nat) : Q := evalue (nth i d exp_zero).
Lemma map_opt_spec {A B} (f : A -> option B) l r : map_opt f l = Some r <-> Forall2 (fun a b => f a = Some b) l r.
Proof.
  revert r. induction l as [|a l IH]; intros r; cbn [map_opt]; [split; [intros [= <-]; constructor|intros H; inversion H; done]|].
  destruct (f a) as [b|] eqn:E; [|split; [done|intros H; inversion H; congruence]]. destruct (map_opt f l) as [q|] eqn:Q.
  - split; [intros [= <-]; constructor; [done|now apply IH]|]. intros H. inversion H as [|? ? ? ? E1 H1]; subst. apply IH in H1. congruence.
  - split; [done|]. intros H. inversion H as [|? ? ? ? E1 H1]; subst. apply IH in H1. congruence.
Qed.
Lemma map_opt_some {A B} (f : A -> option B) (P : A -> B -> Prop) l : Forall (fun a => exists b, f a = Some b /\ P a b) l -> exists r, map_opt f l = Some r /\ Forall2 P l r.
Proof. induction 1 as [|a l (b & E & H) _ (r & Er & Hr)]; [exists []; done|]. exists (b :: r). cbn [map_opt]. rewrite E, Er. split; [done|]. now constructor. Qed.
Lemma combine_Forall (P Q : exponent -> Prop) a b : Forall P a -> Forall Q b -> Forall (fun p => P (fst p) /\ Q (snd p)) (combine a b).
Proof. intros Ha. revert b. induction Ha as [|x a Hx _ IH]; intros b Hb; [constructor|]. destruct Hb; [constructor|]. constructor; [done|]. now apply IH. Qed.
Lemma Forall2_nth {A B} (P : A -> B -> Prop) l r i da db : Forall2 P l r -> (i < length l)%nat -> P (nth i l da) (nth i r db).
Proof. intros H. revert i. induction H as [|a b l r Hab _ IH]; intros i Hi; [cbn in Hi; lia|]. destruct i; [done|]. apply IH. cbn in Hi. lia. Qed.
Lemma Forall2_len {A B} (P : A -> B -> Prop) l r : Forall2 P l r -> length l = length r.
Proof. induction 1; cbn; congruence. Qed.
Lemma dim_low d i : dim d -> lowest (nth i d exp_zero).
Proof. intros [L F]. destruct (nth_in_or_default i d exp_zero) as [I | ->]; [rewrite List.Forall_forall in F; auto|low]. Qed.
Lemma dim_ext a b : dim a -> dim b -> (forall i, (i < 10)%nat -> (at_ a i == at_ b i)%Q) -> a = b.
Proof. intros Ha Hb H. apply (nth_ext _ _ exp_zero exp_zero); [rewrite (proj1 Ha), (proj1 Hb); done|]. intros i Hi. rewrite (proj1 Ha) in Hi. apply C85_unique; [now apply dim_low|now apply dim_low|now apply H]. Qed.
(** Products add exponents, quotients subtract them, reciprocals negate them, powers scale them, roots divide them. *)
Theorem C85_mul_div a b : dim a -> dim b -> rooms a b -> exists m d, dim_mul a b = Some m /\ dim_div a b = Some d /\ dim m /\ dim d /\
  forall i, (i < 10)%nat -> (at_ m i == at_ a i + at_ b i)%Q /\ (at_ d i == at_ a i - at_ b i)%Q.
Proof.
  intros [La Fa] [Lb Fb] R. pose proof (combine_Forall _ _ _ _ Fa Fb) as C. rewrite List.Forall_forall in C. unfold rooms in R. rewrite List.Forall_forall in R. assert (F0 : fits 0) by (unfold fits; lia).
  destruct (map_opt_some (fun p => exp_add (fst p) (snd p)) (fun p s => lowest s /\ (evalue s == evalue (fst p) + evalue (snd p))%Q) (combine a b)) as (m & Em & Hm).
  { apply List.Forall_forall. intros p Hp. destruct (C p Hp) as [C1 C2]. destruct (proj1 (C85_exponents _ _ 0 C1 C2 F0) (R p Hp)) as (s & d & ? & ? & ? & ? & ? & ?). eauto. }
  destruct (map_opt_some (fun p => exp_sub (fst p) (snd p)) (fun p s => lowest s /\ (evalue s == evalue (fst p) - evalue (snd p))%Q) (combine a b)) as (d & Ed & Hd).
  { apply List.Forall_forall. intros p Hp. destruct (C p Hp) as [C1 C2]. destruct (proj1 (C85_exponents _ _ 0 C1 C2 F0) (R p Hp)) as (s & d & ? & ? & ? & ? & ? & ?). eauto. }
  assert (L : length (combine a b) = 10%nat) by (rewrite combine_length, La, Lb; done).
  assert (D : forall (P : exponent * exponent -> exponent -> Prop) r, Forall2 (fun p s => lowest s /\ P p s) (combine a b) r -> dim r).
  { intros P r H. split; [rewrite <- (Forall2_len _ _ _ H); done|]. clear -H. induction H as [|? ? ? ? [? _] _ IH]; constructor; done. }
  exists m, d. split; [done|]. split; [done|]. split; [exact (D _ _ Hm)|]. split; [exact (D _ _ Hd)|]. intros i Hi.
  pose proof (Forall2_nth _ _ _ i (exp_zero, exp_zero) exp_zero Hm ltac:(lia)) as [_ V1]. pose proof (Forall2_nth _ _ _ i (exp_zero, exp_zero) exp_zero Hd ltac:(lia)) as [_ V2].
  rewrite combine_nth in V1, V2 by congruence. cbn [fst snd] in *. done.
Qed.
Theorem C85_recip a : dim a -> dim (dim_recip a) /\ forall i, (i < 10)%nat -> (at_ (dim_recip a) i == - at_ a i)%Q.
Proof.
  intros Ha. assert (F0 : fits 0) by (unfold fits; lia). assert (N : forall e, lowest e -> lowest (exp_neg e) /\ (evalue (exp_neg e) == - evalue e)%Q) by (intros e He; exact (proj1 (proj2 (C85_exponents e e 0 He He F0)))).
  split; [split; [unfold dim_recip; rewrite map_length; apply Ha|]|].
  - unfold dim_recip. apply List.Forall_map. eapply List.Forall_impl; [|exact (proj2 Ha)]. intros e He. now apply N.
  - intros i Hi. unfold at_, dim_recip. change exp_zero with (exp_neg exp_zero) at 1. rewrite map_nth. apply N. now apply dim_low.
Qed.
Theorem C85_power a k : dim a -> fits k -> Forall (fun e => fits (e_num e * k)) a -> exists p, dim_powi a k = Some p /\ dim p /\ forall i, (i < 10)%nat -> (at_ p i == at_ a i * inject_Z k)%Q.
Proof.
  intros [La Fa] Hk R. rewrite List.Forall_forall in Fa, R. destruct (map_opt_some (fun e => exp_scale e k) (fun e s => lowest s /\ (evalue s == evalue e * inject_Z k)%Q) a) as (m & Em & Hm).
  { apply List.Forall_forall. intros e He. destruct (proj1 (proj2 (proj2 (C85_exponents e e k (Fa e He) (Fa e He) Hk))) (R e He)) as (s & ? & ? & ?). eauto. }
  exists m. split; [done|]. split; [split; [rewrite <- (Forall2_len _ _ _ Hm); done|clear -Hm; induction Hm as [|? ? ? ? [? _] _ IH]; constructor; done]|]. intros i Hi. exact (proj2 (Forall2_nth _ _ _ i exp_zero exp_zero Hm ltac:(lia))).
Qed.
Theorem C85_root a k : dim a -> fits k -> k <> 0 -> Forall (fun e => fits (e_den e * k)) a -> exists r, dim_root a k = Some r /\ dim r /\ forall i, (i < 10)%nat -> (at_ r i * inject_Z k == at_ a i)%Q.
Proof.
  intros [La Fa] Hk Nk R. rewrite List.Forall_forall in Fa, R. destruct (map_opt_some (fun e => exp_div_int e k) (fun e s => lowest s /\ (evalue s * inject_Z k == evalue e)%Q) a) as (m & Em & Hm).
  { apply List.Forall_forall. intros e He. destruct (proj2 (proj2 (proj2 (C85_exponents e e k (Fa e He) (Fa e He) Hk))) (R e He) Nk) as (s & ? & ? & ?). eauto. }
  exists m. split; [done|]. split; [split; [rewrite <- (Forall2_len _ _ _ Hm); done|clear -Hm; induction Hm as [|? ? ? ? [? _] _ IH]; constructor; done]|]. intros i Hi. exact (proj2 (Forall2_nth _ _ _ i exp_zero exp_zero Hm ltac:(lia))).
Qed.
(** The root of a power is the dimension itself. *)
Theorem C85_root_power a k p : dim a -> fits k -> k <> 0 -> Forall (fun e => fits (e_num e * k)) a -> dim_powi a k = Some p -> Forall (fun e => fits (e_den e * k)) p -> dim_root p k = Some a.
Proof.
  intros Ha Hk Nk R E R2. destruct (C85_power a k Ha Hk R) as (p' & E' & Dp & V). rewrite E in E'. injection E' as <-. destruct (C85_root p k Dp Hk Nk R2) as (r & Er & Dr & W). rewrite Er. f_equal. apply dim_ext; [done|done|].
  intros i Hi. specialize (V i Hi). specialize (W i Hi). rewrite V in W. assert (N : ~ (inject_Z k == 0)%Q) by (intros C; unfold Qeq in C; cbn in C; lia). apply (proj1 (Qmult_inj_r _ _ _ N)) in W. done.
Qed.
(** The group laws. *)
Theorem C85_commutative a b : dim_mul a b = dim_mul b a.
Proof.
  unfold dim_mul. revert b. induction a as [|x a IH]; intros [|y b]; try done. cbn [combine map_opt fst snd]. rewrite IH. unfold exp_add. rewrite (Z.mul_comm (e_den x)), (Z.add_comm (w32 (e_num x * e_den y))). done.
Qed.
Theorem C85_associative a b c ab bc : dim a -> dim b -> dim c -> rooms a b -> rooms b c -> dim_mul a b = Some ab -> dim_mul b c = Some bc -> rooms ab c -> rooms a bc -> dim_mul ab c = dim_mul a bc.
Proof.
  intros Ha Hb Hc R1 R2 E1 E2 R3 R4. destruct (C85_mul_div a b Ha Hb R1) as (m1 & ? & F1 & ? & D1 & ? & V1). destruct (C85_mul_div b c Hb Hc R2) as (m2 & ? & F2 & ? & D2 & ? & V2).
  rewrite E1 in F1. rewrite E2 in F2. injection F1 as <-. injection F2 as <-. destruct (C85_mul_div ab c D1 Hc R3) as (m3 & ? & F3 & ? & D3 & ? & V3). destruct (C85_mul_div a bc Ha D2 R4) as (m4 & ? & F4 & ? & D4 & ? & V4).
  rewrite F3, F4. f_equal. apply dim_ext; [done|done|]. intros i Hi. destruct (V1 i Hi), (V2 i Hi), (V3 i Hi), (V4 i Hi). lra.
Qed.
Lemma dimless_dim : dim dimensionless.
Proof. split; [done|]. unfold dimensionless. apply List.Forall_forall. intros e He. apply repeat_spec in He as ->. low. Qed.
Lemma at_dimless i : at_ dimensionless i = (0 # 1)%Q.
Proof. unfold at_, dimensionless. rewrite nth_repeat || (destruct (nth_in_or_default i (repeat exp_zero 10) exp_zero) as [I | ->]; [apply repeat_spec in I as ->|]); done. Qed.
Lemma is_dimless_spec d : dim d -> is_dimensionless d = true <-> d = dimensionless.
Proof.
  intros H. unfold is_dimensionless. split; [|intros ->; done]. intros E. rewrite forallb_forall in E. apply dim_ext; [done|apply dimless_dim|]. intros i Hi. rewrite at_dimless. unfold at_.
  assert (Z0 : exp_is_zero (nth i d exp_zero) = true) by (apply E, nth_In; rewrite (proj1 H); done). unfold exp_is_zero in Z0. apply Z.eqb_eq in Z0. unfold evalue. rewrite Z0. reflexivity.
Qed.
Theorem C85_identity a : dim a -> dim_mul a dimensionless = Some a /\ dim_div a dimensionless = Some a.
Proof.
  intros Ha. assert (R : rooms a dimensionless).
  { unfold rooms. pose proof (combine_Forall lowest (fun e => e = exp_zero) a dimensionless (proj2 Ha)) as C. eapply List.Forall_impl; [|apply C; apply List.Forall_forall; intros e He; now apply repeat_spec in He].
    intros [x y] [(F1 & F2 & P & _) E]. cbn [fst snd] in *. subst y. unfold room, fits in *. cbn [e_num e_den exp_zero]. lia. }
  destruct (C85_mul_div a dimensionless Ha dimless_dim R) as (m & d & Em & Ed & Dm & Dd & V). rewrite Em, Ed. split; f_equal; (apply dim_ext; [done|done|]); intros i Hi; destruct (V i Hi) as [V1 V2]; rewrite at_dimless in *; lra.
Qed.
Theorem C85_inverse a : dim a -> rooms a a -> rooms a (dim_recip a) -> exists m d, dim_mul a (dim_recip a) = Some m /\ dim_div a a = Some d /\ is_dimensionless m = true /\ is_dimensionless d = true.
Proof.
  intros Ha R1 R2. destruct (C85_recip a Ha) as [Dr Vr]. destruct (C85_mul_div a (dim_recip a) Ha Dr R2) as (m & ? & Em & ? & Dm & ? & V). destruct (C85_mul_div a a Ha Ha R1) as (? & d & ? & Ed & ? & Dd & W). exists m, d. split; [done|]. split; [done|].
  split; (apply is_dimless_spec; [done|]; apply dim_ext; [done|apply dimless_dim|]; intros i Hi; rewrite at_dimless); [destruct (V i Hi) as [V1 _]; rewrite (Vr i Hi) in V1; lra|destruct (W i Hi) as [_ V2]; lra].
Qed.
(** Small exponents leave room. *)
Theorem C85_room a b : dim a -> dim b -> Forall small a -> Forall small b -> rooms a b.
Proof.
  intros [_ Fa] [_ Fb] Sa Sb. unfold rooms. pose proof (combine_Forall _ _ _ _ Fa Fb) as C1. pose proof (combine_Forall _ _ _ _ Sa Sb) as C2. rewrite List.Forall_forall in *. intros p Hp. destruct (C1 p Hp), (C2 p Hp). now apply small_room.
Qed.
Example C85_ex : exists area speed, dim_mul (dim_base 0) (dim_base 0) = Some area /\ dim_root area 2 = Some (dim_base 0) /\ dim_div (dim_base 0) (dim_base 2) = Some speed /\ dim_mul speed (dim_base 2) = Some (dim_base 0) /\ rooms area speed.
Proof. eexists _, _. split; [vm_compute; reflexivity|]. split; [vm_compute; reflexivity|]. split; [vm_compute; reflexivity|]. split; [vm_compute; reflexivity|]. unfold rooms. cbn [combine]. repeat constructor; unfold fits; cbn; lia. Qed.
Example C85_half_ex : exp_add (Exp 1 2) (Exp 1 3) = Some (Exp 5 6) /\ exp_new 2 (-4) = Some (Exp (-1) 2).
Proof. vm_compute. done. Qed.

(** ** C86: quantities *)
Definition unit_ok (u : unit_) : Prop := rcanon (u_scale u) /\ rcanon (u_offset u) /\ ~ (rval (u_scale u) == 0)%Q.
Lemma dim_eqb_spec a b : dim_eqb a b = true <-> a = b.
Proof.
  revert b. induction a as [|x a IH]; intros [|y b]; cbn [dim_eqb]; try done. rewrite andb_true_iff, exp_eqb_spec, IH. split; [intros [-> ->]; done|intros [= -> ->]; done].
Qed.
Lemma dim_dec (a b : list exponent) : {a = b} + {a <> b}.
Proof. destruct (dim_eqb a b) eqn:E; [left; now apply dim_eqb_spec|right; intros C; apply dim_eqb_spec in C; congruence]. Qed.
Lemma rat_ops x y : rcanon x -> rcanon y ->
  rat_add x y = Some (ofQ (rval x + rval y)) /\ rat_sub x y = Some (ofQ (rval x - rval y)) /\ rat_mul x y = Some (ofQ (rval x * rval y)) /\ rat_div x y = Some (if Qis0 (rval y) then None else Some (ofQ (rval x / rval y))).
Proof. intros Hx Hy. pose proof (add_ofQ (rval x) (rval y)) as A. pose proof (sub_ofQ (rval x) (rval y)) as B. pose proof (rmul_ofQ (rval x) (rval y)) as C. pose proof (div_ofQ (rval x) (rval y)) as D. rewrite (ofQ_rval x Hx), (ofQ_rval y Hy) in A, B, C, D. done. Qed.
(** Building a quantity and reading it back in a unit of its dimension. *)
Theorem C86_of v u : rcanon v -> unit_ok u -> exists q, q_of v u = Some q /\ q_dim q = u_dim u /\ rcanon (q_mag q) /\ (rval (q_mag q) == rval v * rval (u_scale u) + rval (u_offset u))%Q.
Proof.
  intros Hv (Hs & Ho & _). unfold q_of. destruct (rat_ops v (u_scale u) Hv Hs) as (_ & _ & -> & _). cbn. destruct (rat_ops (ofQ (rval v * rval (u_scale u))) (u_offset u) (rcanon_ofQ _) Ho) as (-> & _). cbn. eexists. split; [reflexivity|].
  cbn. split; [done|]. split; [apply rcanon_ofQ|]. rewrite !rval_ofQ. reflexivity.
Qed.
Theorem C86_in_unit q u : rcanon (q_mag q) -> unit_ok u ->
  (q_dim q <> u_dim u -> in_unit q u = Some None) /\
  (q_dim q = u_dim u -> exists r, in_unit q u = Some (Some r) /\ rcanon r /\ (rval r * rval (u_scale u) + rval (u_offset u) == rval (q_mag q))%Q).
Proof.
  intros Hq (Hs & Ho & N). unfold in_unit. split.
  - intros D. destruct (dim_eqb (q_dim q) (u_dim u)) eqn:E; [apply dim_eqb_spec in E; done|done].
  - intros D. rewrite (proj2 (dim_eqb_spec _ _) D). cbn [negb]. destruct (rat_ops (q_mag q) (u_offset u) Hq Ho) as (_ & -> & _). cbn. destruct (rat_ops (ofQ (rval (q_mag q) - rval (u_offset u))) (u_scale u) (rcanon_ofQ _) Hs) as (_ & _ & _ & ->).
    destruct (Qis0_spec (rval (u_scale u))) as [C|_]; [done|]. eexists. split; [reflexivity|]. split; [apply rcanon_ofQ|]. rewrite !rval_ofQ. field. done.
Qed.
Lemma unit_inj u r s : unit_ok u -> rcanon r -> rcanon s -> (rval r * rval (u_scale u) + rval (u_offset u) == rval s * rval (u_scale u) + rval (u_offset u))%Q -> r = s.
Proof. intros (_ & _ & N) Hr Hs E. apply rational_inj; [done|done|]. apply (proj1 (Qmult_inj_r _ _ _ N)). lra. Qed.
Theorem C86_round v u q : rcanon v -> unit_ok u -> q_of v u = Some q -> in_unit q u = Some (Some v).
Proof.
  intros Hv U E. destruct (C86_of v u Hv U) as (q' & E' & D & C & V). rewrite E in E'. injection E' as <-. destruct (proj2 (C86_in_unit q u C U) D) as (r & Er & Cr & W). rewrite Er. do 2 f_equal. apply (unit_inj u); [done|done|done|]. rewrite W, V. reflexivity.
Qed.
(** Reading in one unit and building again gives the quantity back, so conversions compose without loss. *)
Theorem C86_lossless q u r : rcanon (q_mag q) -> unit_ok u -> in_unit q u = Some (Some r) -> q_of r u = Some q.
Proof.
  intros Hq U E. destruct (dim_dec (q_dim q) (u_dim u)) as [D|D]; [|rewrite (proj1 (C86_in_unit q u Hq U) D) in E; done]. destruct (proj2 (C86_in_unit q u Hq U) D) as (r' & Er & Cr & W). rewrite E in Er. injection Er as <-.
  destruct (C86_of r u Cr U) as (q' & Eq & D' & C' & V). rewrite Eq. f_equal. destruct q as [m d], q' as [m' d']. cbn in *. f_equal; [|congruence]. apply rational_inj; [done|done|]. rewrite V, W. reflexivity.
Qed.
(** Sum and difference within a dimension, product and quotient across them. *)
Theorem C86_add_sub a b : rcanon (q_mag a) -> rcanon (q_mag b) ->
  (q_dim a <> q_dim b -> q_add a b = Some None /\ q_sub a b = Some None) /\
  (q_dim a = q_dim b -> exists s d, q_add a b = Some (Some s) /\ q_sub a b = Some (Some d) /\ q_dim s = q_dim a /\ q_dim d = q_dim a /\ rcanon (q_mag s) /\ rcanon (q_mag d) /\
     (rval (q_mag s) == rval (q_mag a) + rval (q_mag b))%Q /\ (rval (q_mag d) == rval (q_mag a) - rval (q_mag b))%Q).
Proof.
  intros Ha Hb. unfold q_add, q_sub. destruct (rat_ops _ _ Ha Hb) as (-> & -> & _). split.
  - intros D. destruct (dim_eqb (q_dim a) (q_dim b)) eqn:E; [apply dim_eqb_spec in E; done|done].
  - intros D. rewrite (proj2 (dim_eqb_spec _ _) D). cbn. eexists _, _. split; [reflexivity|]. split; [reflexivity|]. cbn. repeat split; try done; try apply rcanon_ofQ; apply rval_ofQ.
Qed.
Theorem C86_mul_div a b : rcanon (q_mag a) -> rcanon (q_mag b) -> dim (q_dim a) -> dim (q_dim b) -> rooms (q_dim a) (q_dim b) ->
  (exists p, q_mul a b = Some p /\ rcanon (q_mag p) /\ (rval (q_mag p) == rval (q_mag a) * rval (q_mag b))%Q /\ dim (q_dim p) /\ forall i, (i < 10)%nat -> (at_ (q_dim p) i == at_ (q_dim a) i + at_ (q_dim b) i)%Q) /\
  ((rval (q_mag b) == 0)%Q -> q_div a b = Some None) /\
  (~ (rval (q_mag b) == 0)%Q -> exists p, q_div a b = Some (Some p) /\ rcanon (q_mag p) /\ (rval (q_mag p) == rval (q_mag a) / rval (q_mag b))%Q /\ dim (q_dim p) /\ forall i, (i < 10)%nat -> (at_ (q_dim p) i == at_ (q_dim a) i - at_ (q_dim b) i)%Q).
Proof.
  intros Ha Hb Da Db R. destruct (C85_mul_div _ _ Da Db R) as (m & d & Em & Ed & Dm & Dd & V). unfold q_mul, q_div. destruct (rat_ops _ _ Ha Hb) as (_ & _ & -> & ->). rewrite Em, Ed. cbn. split; [|split].
  - eexists. split; [reflexivity|]. cbn. split; [apply rcanon_ofQ|]. split; [apply rval_ofQ|]. split; [done|]. intros i Hi. apply V. done.
  - intros Z. now destruct (Qis0_spec (rval (q_mag b))).
  - intros N. destruct (Qis0_spec (rval (q_mag b))) as [C|_]; [done|]. cbn. eexists. split; [reflexivity|]. cbn. split; [apply rcanon_ofQ|]. split; [apply rval_ofQ|]. split; [done|]. intros i Hi. apply V. done.
Qed.
(** In a linear unit the numbers add up; in an affine one they do not: 10 and 10 degrees make 293.15. *)
Theorem C86_linear_sum u v w a b s : unit_ok u -> (rval (u_offset u) == 0)%Q -> rcanon v -> rcanon w -> q_of v u = Some a -> q_of w u = Some b -> q_add a b = Some (Some s) ->
  exists r, in_unit s u = Some (Some r) /\ (rval r == rval v + rval w)%Q.
Proof.
  intros U Z Hv Hw Ea Eb Es. destruct (C86_of v u Hv U) as (a' & Ea' & Da & Ca & Va). destruct (C86_of w u Hw U) as (b' & Eb' & Db & Cb & Vb). rewrite Ea in Ea'. rewrite Eb in Eb'. injection Ea' as <-. injection Eb' as <-.
  destruct (proj2 (C86_add_sub a b Ca Cb) ltac:(congruence)) as (s' & d & Es' & _ & Ds & _ & Cs & _ & Vs & _). rewrite Es in Es'. injection Es' as <-.
  destruct (proj2 (C86_in_unit s u Cs U) ltac:(congruence)) as (r & Er & Cr & W). exists r. split; [done|]. destruct U as (_ & _ & N). apply (proj1 (Qmult_inj_r _ _ _ N)). rewrite Vs, Va, Vb in W. lra.
Qed.
Definition celsius : option unit_ := o ← expect (rat_from_ratio_i64 5463 20); Some (Unit_ (dim_base 4) rat_one o).
Theorem C86_affine_sum_refuted : exists u v a s r, celsius = Some u /\ q_of v u = Some a /\ q_add a a = Some (Some s) /\ in_unit s u = Some (Some r) /\ rat_add v v <> Some r.
Proof. eexists _, (rat_from_i64 10), _, _, _. split; [vm_compute; reflexivity|]. split; [vm_compute; reflexivity|]. split; [vm_compute; reflexivity|]. split; [vm_compute; reflexivity|]. vm_compute. congruence. Qed.

(** ** The most readable unit *)
(** [m] is the better magnitude: the least of those at or above one if there are any, else the greatest. *)
Definition better (m n : Q) : Prop := ((1 <= Qabs m)%Q /\ ((1 <= Qabs n)%Q -> (Qabs m <= Qabs n)%Q)) \/ ((Qabs m < 1)%Q /\ (Qabs n <= Qabs m)%Q).
Lemma ge_one_spec x : rcanon x -> ge_one (rat_abs x) = true <-> (1 <= Qabs (rval x))%Q.
Proof.
  intros H. unfold ge_one. rewrite <- (ofQ_rval x H) at 1. rewrite rabs_ofQ, rat_one_ofQ, rcmp_ofQ. rewrite Qle_alt. rewrite <- (Qcompare_antisym 1). destruct (1 ?= Qabs (rval x))%Q; cbn; split; congruence.
Qed.
Lemma takes_spec m n : rcanon m -> rcanon n -> if takes m n then better (rval m) (rval n) else better (rval n) (rval m).
Proof.
  intros Hm Hn. unfold takes, better. pose proof (ge_one_spec m Hm) as G1. pose proof (ge_one_spec n Hn) as G2. assert (C : rat_cmp (rat_abs m) (rat_abs n) = (Qabs (rval m) ?= Qabs (rval n))%Q) by (rewrite <- (ofQ_rval m Hm), <- (ofQ_rval n Hn) at 1; rewrite !rabs_ofQ; apply rcmp_ofQ). rewrite C.
  destruct (Qcompare_spec (Qabs (rval m)) (Qabs (rval n))) as [K|K|K]; destruct (ge_one (rat_abs m)), (ge_one (rat_abs n));
    try (pose proof (proj1 G1 eq_refl)); try (pose proof (proj1 G2 eq_refl));
    try (assert (~ (1 <= Qabs (rval m))%Q) by (intros X; apply G1 in X; discriminate)); try (assert (~ (1 <= Qabs (rval n))%Q) by (intros X; apply G2 in X; discriminate)); lra.
Qed.
Lemma better_trans a b c : better a b -> better b c -> better a c.
Proof. unfold better. destruct (Qlt_le_dec (Qabs a) 1), (Qlt_le_dec (Qabs b) 1), (Qlt_le_dec (Qabs c) 1); lra. Qed.
Lemma better_refl a : better a a.
Proof. unfold better. destruct (Qlt_le_dec (Qabs a) 1); [right|left]; split; lra. Qed.
Definition chosen (q : quantity) (ladder : list unit_) (best : option (rational * unit_)) : Prop :=
  match best with
  | None => forall u, In u ladder -> q_dim q <> u_dim u
  | Some (m, u) => In u ladder /\ in_unit q u = Some (Some m) /\ forall u' m', In u' ladder -> in_unit q u' = Some (Some m') -> better (rval m) (rval m')
  end.
Lemma best_loop_spec q : rcanon (q_mag q) -> forall todo seen best, Forall unit_ok seen -> Forall unit_ok todo -> chosen q seen best -> exists r, best_loop q todo best = Some r /\ chosen q (seen ++ todo) r.
Proof.
  intros Hq. induction todo as [|u todo IH]; intros seen best Os Ot H; [exists best; rewrite app_nil_r; done|]. apply List.Forall_cons_iff in Ot as [Ou Ot]. cbn [best_loop].
  replace (seen ++ u :: todo) with ((seen ++ [u]) ++ todo) by (rewrite <- app_assoc; done). assert (Os' : Forall unit_ok (seen ++ [u])) by (apply List.Forall_app; split; [done|constructor; [done|constructor]]).
  assert (K : forall v m', In v seen -> in_unit q v = Some (Some m') -> rcanon m').
  { intros v m' Hv E. rewrite List.Forall_forall in Os. destruct (dim_dec (q_dim q) (u_dim v)) as [D|D]; [|rewrite (proj1 (C86_in_unit q v Hq (Os v Hv)) D) in E; done]. destruct (proj2 (C86_in_unit q v Hq (Os v Hv)) D) as (r & Er & Cr & _). congruence. }
  destruct (dim_dec (q_dim q) (u_dim u)) as [D|D].
  - destruct (proj2 (C86_in_unit q u Hq Ou) D) as (r & Er & Cr & _). rewrite Er. cbn. apply IH; [done|done|]. destruct best as [[m v]|]; cbn in H.
    + destruct H as (Iv & Ev & Hb). pose proof (takes_spec r m Cr (K v m Iv Ev)) as T. destruct (takes r m); cbn.
      * split; [apply in_or_app; right; now left|]. split; [done|]. intros u' m' I' E'. apply in_app_or in I' as [I'|[<-|[]]]; [eapply better_trans; [exact T|now apply (Hb u')]|]. rewrite Er in E'. injection E' as <-. apply better_refl.
      * split; [apply in_or_app; now left|]. split; [done|]. intros u' m' I' E'. apply in_app_or in I' as [I'|[<-|[]]]; [now apply (Hb u')|]. rewrite Er in E'. injection E' as <-. done.
    + cbn. split; [apply in_or_app; right; now left|]. split; [done|]. intros u' m' I' E'. apply in_app_or in I' as [I'|[<-|[]]]; [|rewrite Er in E'; injection E' as <-; apply better_refl].
      exfalso. rewrite List.Forall_forall in Os. rewrite (proj1 (C86_in_unit q u' Hq (Os u' I')) (H u' I')) in E'. done.
  - rewrite (proj1 (C86_in_unit q u Hq Ou) D). cbn. apply IH; [done|done|]. destruct best as [[m v]|]; cbn in *.
    + destruct H as (Iv & Ev & Hb). split; [apply in_or_app; now left|]. split; [done|]. intros u' m' I' E'. apply in_app_or in I' as [I'|[<-|[]]]; [now apply (Hb u')|]. rewrite (proj1 (C86_in_unit q u Hq Ou) D) in E'. done.
    + intros u' I'. apply in_app_or in I' as [I'|[<-|[]]]; [now apply H|done].
Qed.
Theorem C86_best q ladder : rcanon (q_mag q) -> Forall unit_ok ladder -> exists r, in_best_unit q ladder = Some r /\
  match r with
  | None => forall u, In u ladder -> q_dim q <> u_dim u
  | Some (m, u) => In u ladder /\ q_of m u = Some q /\ forall u' m', In u' ladder -> in_unit q u' = Some (Some m') -> better (rval m) (rval m')
  end.
Proof.
  intros Hq H. destruct (best_loop_spec q Hq ladder [] None) as (r & E & C); [constructor|done|intros u []|]. exists r. split; [exact E|]. cbn [app] in C. destruct r as [[m u]|]; [|exact C]. destruct C as (I & Eu & B). split; [done|]. split; [|done].
  apply C86_lossless; [done|rewrite List.Forall_forall in H; now apply H|done].
Qed.
Definition metre : unit_ := linear (dim_base 0) rat_one.
Definition kilometre : unit_ := linear (dim_base 0) (rat_from_i64 1000).
Example C86_units_ex : unit_ok metre /\ unit_ok kilometre.
Proof. unfold unit_ok, metre, kilometre, linear. cbn [u_scale u_offset]. rewrite rat_one_ofQ, rat_zero_ofQ, from_i64_ofQ by (unfold is_i64; lia). split; (split; [apply rcanon_ofQ|]; split; [apply rcanon_ofQ|]; intros C; rewrite rval_ofQ in C; discriminate C). Qed.
Example C86_ex : exists q r, q_of (rat_from_i64 1500) metre = Some q /\ in_best_unit q [metre; kilometre] = Some (Some (r, kilometre)) /\ rat_add r r = Some (rat_from_i64 3) /\ in_unit q (linear (dim_base 1) rat_one) = Some None.
Proof. eexists _, _. split; [vm_compute; reflexivity|]. split; [vm_compute; reflexivity|]. split; vm_compute; reflexivity. Qed.
