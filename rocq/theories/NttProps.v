(* C105: the ML-KEM number-theoretic transform computes the polynomial
   arithmetic of FIPS 203.

   The statements speak about the entry points of
   /repo/crates/logicaffeine_system/src/ntt.rs and ordinary sums of integers
   reduced modulo 3329. *)
From Coq Require Import ZArith List Lia Bool Zdiv Setoid Morphisms.
Import ListNotations.
From Verif Require Import NttModel NttProofs NttAvx NttAlg.
Open Scope Z_scope.

(* ---------- the specification ---------- *)

(* seven bits read backwards *)
Fixpoint bits_back (n : nat) (i acc : Z) : Z :=
  match n with
  | O => acc
  | S n' => bits_back n' (i / 2) (2 * acc + i mod 2)
  end.
Definition rev7 (i : nat) : Z := bits_back 7 (Z.of_nat i) 0.

(* FIPS 203, section 4.3: the i-th pair of coefficients of the transform is the
   polynomial modulo X^2 - 17^(2 rev7(i) + 1) *)
Definition gamma (i : nat) : Z := 17 ^ (2 * rev7 i + 1).
Definition coeff (l : list Z) (i : nat) : Z := nth i l 0.

Definition fips_ntt (f out : list Z) : Prop :=
  length out = 256%nat /\
  forall i, (i < 128)%nat ->
  coeff out (2 * i) = sum 128 (fun j => coeff f (2 * j) * gamma i ^ Z.of_nat j) mod 3329 /\
  coeff out (2 * i + 1) = sum 128 (fun j => coeff f (2 * j + 1) * gamma i ^ Z.of_nat j) mod 3329.

(* coefficient k of the product modulo X^256 + 1 *)
Definition negacyclic (a b : list Z) (k : nat) : Z :=
  sum 256 (fun i => sum 256 (fun j =>
    if (i + j =? k)%nat then coeff a i * coeff b j
    else if (i + j =? k + 256)%nat then - (coeff a i * coeff b j) else 0)).

Definition product (a b : list Z) : list Z :=
  map (fun k => negacyclic a b k mod 3329) (seq 0 256).

(* 256 coefficients in [0, q) *)
Definition reduced (l : list Z) : Prop := length l = 256%nat /\ Forall (fun x => 0 <= x < 3329) l.

(* ---------- helpers ---------- *)

Lemma reduced_get l i : reduced l -> (i < 256)%nat -> 0 <= get l i < 3329.
Proof. intros [L F] H. rewrite Forall_forall in F. apply F. unfold get. apply nth_In. lia. Qed.

Lemma mod_reduced l : length l = 256%nat -> reduced (map (fun x => x mod Q) l).
Proof.
  intros H. split; [now rewrite map_length|]. rewrite Forall_forall. intros x Hx.
  apply in_map_iff in Hx. destruct Hx as (y & <- & _). apply Z.mod_pos_bound. unfold Q. lia.
Qed.

Lemma forward_length r : length (forward r) = 256%nat.
Proof. apply level_length. Qed.
Lemma backward_length r : length (backward r) = 256%nat.
Proof. apply ilevel_length. Qed.

Lemma ntt_any (avx2 : bool) r : length r = 256%nat -> (if avx2 then ntt_avx2 r else ntt_scalar r) = forward r.
Proof. intros H. destruct avx2; [now apply ntt_avx2_forward | now apply ntt_scalar_forward]. Qed.
Lemma inv_any avx2 r : length r = 256%nat -> inv_ntt_inplace avx2 r = map (fun x => fqmul x 1441) (backward r).
Proof. intros H. destruct avx2; [now apply invntt_avx2_backward | now apply invntt_scalar_backward]. Qed.

Lemma small_reduced l : reduced l -> small Q (map w16 l).
Proof.
  intros H i Hi. pose proof (reduced_get l i H Hi). destruct H as [L _].
  rewrite get_map by lia. rewrite w16_id by lia. unfold Q. lia.
Qed.
Lemma feq_reduced l : reduced l -> feq (get (map w16 l)) (get l).
Proof.
  intros H i Hi. pose proof (reduced_get l i H Hi). destruct H as [L _].
  rewrite get_map by lia. rewrite w16_id by lia. reflexivity.
Qed.

Lemma ntt_out avx2 f : length f = 256%nat -> exists out, mlkem_ntt avx2 f = Some out /\ reduced out /\
  feq (get out) (FF (get f)).
Proof.
  intros H. unfold mlkem_ntt. rewrite H. cbn [Nat.eqb].
  set (r := map (fun x => w16 (x mod Q)) f).
  assert (L : length r = 256%nat) by (unfold r; now rewrite map_length).
  eexists. split; [reflexivity|]. rewrite ntt_any by auto.
  assert (B : forall i, (i < 256)%nat -> get r i = get f i mod Q).
  { intros i Hi. unfold r. rewrite get_map by lia.
    pose proof (Z.mod_pos_bound (get f i) Q ltac:(unfold Q; lia)).
    rewrite w16_id; [reflexivity | unfold Q in *; lia]. }
  assert (S : small Q r).
  { intros i Hi. rewrite B by auto. pose proof (Z.mod_pos_bound (get f i) Q ltac:(unfold Q; lia)). lia. }
  split; [apply mod_reduced, forward_length|].
  destruct (forward_FF r S) as [E _]. intros i Hi.
  rewrite get_map by (rewrite forward_length; lia). rewrite qeq_mod. rewrite (E i Hi).
  apply FF_feq; [|auto]. intros j Hj. rewrite B by auto. apply qeq_mod.
Qed.

Lemma inv_out avx2 f : reduced f -> exists out, mlkem_inv_ntt avx2 f = Some out /\ reduced out /\
  feq (get out) (fun i => 169 * 1441 * GG (get f) i).
Proof.
  intros H. unfold mlkem_inv_ntt. pose proof H as [L _]. rewrite L. cbn [Nat.eqb].
  eexists. split; [reflexivity|]. rewrite inv_any by (now rewrite map_length).
  destruct (backward_GG _ (small_reduced f H)) as [E S].
  split; [apply mod_reduced; rewrite map_length; apply backward_length|].
  intros i Hi. rewrite get_map by (rewrite map_length, backward_length; lia). rewrite qeq_mod.
  rewrite get_map by (rewrite backward_length; lia).
  pose proof (S i Hi). rewrite fqmul_qeq; [|unfold Q in *; lia|reflexivity].
  rewrite (E i Hi). rewrite (GG_feq _ _ (feq_reduced f H) i Hi). apply qeq_intro with 0. ring.
Qed.

(* two reduced lists with congruent coefficients are equal *)
Lemma reduced_eq a b : reduced a -> reduced b -> feq (get a) (get b) -> a = b.
Proof.
  intros Ha Hb H. pose proof Ha as [La _]. pose proof Hb as [Lb _].
  apply get_ext; [lia|]. rewrite La. intros i Hi. pose proof (H i Hi) as E. apply qeq_get in E.
  rewrite !Z.mod_small in E; [auto| |].
  - apply (reduced_get b i Hb Hi).
  - apply (reduced_get a i Ha Hi).
Qed.

Lemma map_mod_reduced f : reduced (map (fun k => f k mod 3329) (seq 0 256)).
Proof.
  split; [now rewrite map_length, seq_length|]. rewrite Forall_forall. intros x Hx.
  apply in_map_iff in Hx. destruct Hx as (y & <- & _). apply Z.mod_pos_bound. lia.
Qed.

Lemma gamma_root i : (i < 128)%nat -> croot (128 + i) == gamma i.
Proof.
  intros H. assert (C : forallb (fun i => Z.eqb (croot (128 + i) mod Q) (gamma i mod Q)) (seq 0 128) = true)
    by (vm_compute; reflexivity).
  rewrite forallb_forall in C. split. apply Z.eqb_eq. apply C. apply in_seq. lia.
Qed.

Lemma FF_gamma a i o : (i < 128)%nat -> (o < 2)%nat ->
  FF a (2 * i + o)%nat == sum 128 (fun j => a (2 * j + o)%nat * gamma i ^ Z.of_nat j).
Proof.
  intros Hi Ho. rewrite (FF_eval a (2 * i + o)%nat) by lia.
  replace ((2 * i + o) mod 2)%nat with o by (apply Nat.mod_unique with i; lia).
  replace ((2 * i + o) / 2)%nat with i by (apply Nat.div_unique with o; lia).
  apply sum_qeq. intros t _. rewrite (qeq_pow _ _ t (gamma_root i Hi)).
  now replace (o + t * 2)%nat with (2 * t + o)%nat by lia.
Qed.

(* ---------- the base multiply ---------- *)

Lemma bmul_spec a0 a1 b0 b1 z c : 0 <= a0 < Q -> 0 <= a1 < Q -> 0 <= b0 < Q -> 0 <= b1 < Q ->
  Z.abs z < Q -> z == 65536 * c ->
  Z.abs (fst (bmul a0 a1 b0 b1 z)) < 2 * Q /\ Z.abs (snd (bmul a0 a1 b0 b1 z)) < 2 * Q /\
  fst (bmul a0 a1 b0 b1 z) == 169 * (a0 * b0 + c * (a1 * b1)) /\
  snd (bmul a0 a1 b0 b1 z) == 169 * (a0 * b1 + a1 * b0).
Proof.
  intros H1 H2 H3 H4 Hz E. unfold bmul. cbn [fst snd].
  destruct (fqmul_spec a1 b1) as [R1 _]; [unfold Q in *; lia..|].
  destruct (fqmul_spec (fqmul a1 b1) z) as [R2 _]; [unfold Q in *; lia..|].
  destruct (fqmul_spec a0 b0) as [R3 _]; [unfold Q in *; lia..|].
  destruct (fqmul_spec a0 b1) as [R4 _]; [unfold Q in *; lia..|].
  destruct (fqmul_spec a1 b0) as [R5 _]; [unfold Q in *; lia..|].
  rewrite !w16_id by (unfold Q in *; lia).
  split; [unfold Q in *; lia|]. split; [unfold Q in *; lia|].
  rewrite (fqmul_qeq (fqmul a1 b1) z) by (unfold Q in *; lia).
  rewrite (fqmul_qeq a1 b1), (fqmul_qeq a0 b0), (fqmul_qeq a0 b1), (fqmul_qeq a1 b0) by (unfold Q in *; lia).
  rewrite E. split; [|apply qeq_intro with 0; ring].
  apply qeq_intro with (169 * a1 * b1 * c * 3327). unfold Q. ring.
Qed.

Lemma basemul_step_length a b r i : length (basemul_step a b r i) = length r.
Proof. unfold basemul_step. now rewrite !set_length. Qed.

Definition bm_at (a b : list Z) (x : nat) : Z :=
  let i := (x / 4)%nat in let z := zeta (64 + i) in
  let c := bmul (get a (4 * i)) (get a (4 * i + 1)) (get b (4 * i)) (get b (4 * i + 1)) z in
  let d := bmul (get a (4 * i + 2)) (get a (4 * i + 3)) (get b (4 * i + 2)) (get b (4 * i + 3)) (w16 (- z)) in
  match (x mod 4)%nat with O => fst c | 1%nat => snd c | 2%nat => fst d | _ => snd d end.

Lemma basemul_get a b x : (x < 256)%nat -> get (basemul_scalar a b) x = bm_at a b x.
Proof.
  intros Hx. unfold basemul_scalar.
  assert (G : forall m, (m <= 64)%nat ->
    get (fold_left (basemul_step a b) (seq 0 m) (repeat 0 256)) x =
    if (x <? 4 * m)%nat then bm_at a b x else 0).
  { induction m as [|m IH]; intros Hm.
    - cbn [seq fold_left]. unfold get. rewrite nth_repeat. destruct (Nat.ltb_spec x (4 * 0)); [lia|auto].
    - rewrite seq_S, fold_left_app. cbn [fold_left Nat.add].
      set (r := fold_left (basemul_step a b) (seq 0 m) (repeat 0 256)) in *.
      assert (L : length r = 256%nat).
      { unfold r. rewrite fold_length by apply basemul_step_length. apply repeat_length. }
      unfold basemul_step. rewrite !get_set by (rewrite ?set_length; lia).
      rewrite IH by lia.
      pose proof (Nat.div_mod x 4 ltac:(lia)) as D. pose proof (Nat.mod_upper_bound x 4 ltac:(lia)) as U.
      destruct (Nat.eq_dec (x / 4) m) as [Em|Em].
      + unfold bm_at. rewrite Em. cbv zeta.
        destruct (Nat.ltb_spec x (4 * S m)) as [_|]; [|lia].
        rewrite Em in D.
        destruct (x mod 4)%nat as [|[|[|[|]]]] eqn:M; [..|lia];
          repeat match goal with |- context [(?p =? ?q)%nat] => destruct (Nat.eqb_spec p q); try lia end; reflexivity.
      + repeat match goal with |- context [(?p =? ?q)%nat] => destruct (Nat.eqb_spec p q); try lia end.
        destruct (Nat.ltb_spec x (4 * m)), (Nat.ltb_spec x (4 * S m)); auto; lia. }
  rewrite G by lia. destruct (Nat.ltb_spec x (4 * 64)); [auto|lia].
Qed.

Lemma basemul_length a b : length (basemul_scalar a b) = 256%nat.
Proof. unfold basemul_scalar. rewrite fold_length by apply basemul_step_length. apply repeat_length. Qed.

Lemma zeta_zp k : zeta k == 65536 * zp k.
Proof. unfold zp. rewrite qeq_mod. apply qeq_intro with (- 3327 * zeta k). unfold Q. ring. Qed.

Lemma w16_neg_zeta k : w16 (- zeta k) = - zeta k.
Proof. pose proof (zeta_small k). apply w16_id. unfold Q in *. lia. Qed.

Lemma basemul_spec a b : reduced a -> reduced b ->
  small (2 * Q) (basemul_scalar (map w16 a) (map w16 b)) /\
  forall m, (m < 128)%nat ->
  get (basemul_scalar (map w16 a) (map w16 b)) (2 * m) ==
    169 * (get a (2 * m) * get b (2 * m) + croot (128 + m) * (get a (2 * m + 1) * get b (2 * m + 1))) /\
  get (basemul_scalar (map w16 a) (map w16 b)) (2 * m + 1) ==
    169 * (get a (2 * m) * get b (2 * m + 1) + get a (2 * m + 1) * get b (2 * m)).
Proof.
  intros Ha Hb.
  assert (Ga : forall i, (i < 256)%nat -> get (map w16 a) i = get a i /\ 0 <= get a i < Q).
  { intros i Hi. pose proof (reduced_get a i Ha Hi). destruct Ha as [L _].
    rewrite get_map by lia. rewrite w16_id by lia. split; [auto|unfold Q; lia]. }
  assert (Gb : forall i, (i < 256)%nat -> get (map w16 b) i = get b i /\ 0 <= get b i < Q).
  { intros i Hi. pose proof (reduced_get b i Hb Hi). destruct Hb as [L _].
    rewrite get_map by lia. rewrite w16_id by lia. split; [auto|unfold Q; lia]. }
  assert (K : forall m, (m < 128)%nat ->
    Z.abs (get (basemul_scalar (map w16 a) (map w16 b)) (2 * m)) < 2 * Q /\
    Z.abs (get (basemul_scalar (map w16 a) (map w16 b)) (2 * m + 1)) < 2 * Q /\
  get (basemul_scalar (map w16 a) (map w16 b)) (2 * m) ==
    169 * (get a (2 * m) * get b (2 * m) + croot (128 + m) * (get a (2 * m + 1) * get b (2 * m + 1))) /\
  get (basemul_scalar (map w16 a) (map w16 b)) (2 * m + 1) ==
    169 * (get a (2 * m) * get b (2 * m + 1) + get a (2 * m + 1) * get b (2 * m))).
  { intros m Hm. rewrite !basemul_get by lia. unfold bm_at.
    pose proof (Nat.div_mod m 2 ltac:(lia)) as D. pose proof (Nat.mod_upper_bound m 2 ltac:(lia)) as U.
    set (i := (m / 2)%nat) in *.
    destruct (Nat.eq_dec (m mod 2) 0) as [E|E].
    - assert (Em : m = (2 * i)%nat) by lia. 
      replace (2 * m / 4)%nat with i by (apply Nat.div_unique with 0%nat; lia).
      replace ((2 * m) mod 4)%nat with 0%nat by (apply Nat.mod_unique with i; lia).
      replace ((2 * m + 1) / 4)%nat with i by (apply Nat.div_unique with 1%nat; lia).
      replace ((2 * m + 1) mod 4)%nat with 1%nat by (apply Nat.mod_unique with i; lia).
      cbv zeta. replace (4 * i)%nat with (2 * m)%nat by lia.
      replace (128 + m)%nat with (2 * (64 + i))%nat by lia.
      rewrite (croot_even (64 + i)) by lia.
      destruct (Ga (2 * m)%nat ltac:(lia)) as [-> ?]. destruct (Ga (2 * m + 1)%nat ltac:(lia)) as [-> ?].
      destruct (Gb (2 * m)%nat ltac:(lia)) as [-> ?]. destruct (Gb (2 * m + 1)%nat ltac:(lia)) as [-> ?].
      apply bmul_spec; auto using zeta_small, zeta_zp.
    - assert (Em : m = (2 * i + 1)%nat) by lia.
      replace (2 * m / 4)%nat with i by (apply Nat.div_unique with 2%nat; lia).
      replace ((2 * m) mod 4)%nat with 2%nat by (apply Nat.mod_unique with i; lia).
      replace ((2 * m + 1) / 4)%nat with i by (apply Nat.div_unique with 3%nat; lia).
      replace ((2 * m + 1) mod 4)%nat with 3%nat by (apply Nat.mod_unique with i; lia).
      cbv zeta. replace (4 * i + 2)%nat with (2 * m)%nat by lia. replace (4 * i + 3)%nat with (2 * m + 1)%nat by lia.
      replace (128 + m)%nat with (2 * (64 + i) + 1)%nat by lia.
      rewrite (croot_odd (64 + i)) by lia. rewrite w16_neg_zeta.
      destruct (Ga (2 * m)%nat ltac:(lia)) as [-> ?]. destruct (Ga (2 * m + 1)%nat ltac:(lia)) as [-> ?].
      destruct (Gb (2 * m)%nat ltac:(lia)) as [-> ?]. destruct (Gb (2 * m + 1)%nat ltac:(lia)) as [-> ?].
      apply bmul_spec; auto.
      + rewrite Z.abs_opp. apply zeta_small.
      + rewrite zeta_zp. apply qeq_intro with 0. ring. }
  split.
  - intros x Hx. pose proof (Nat.div_mod x 2 ltac:(lia)) as D. pose proof (Nat.mod_upper_bound x 2 ltac:(lia)) as U.
    destruct (K (x / 2)%nat ltac:(apply Nat.div_lt_upper_bound; lia)) as (K1 & K2 & _).
    destruct (Nat.eq_dec (x mod 2) 0).
    + replace x with (2 * (x / 2))%nat by lia. exact K1.
    + replace x with (2 * (x / 2) + 1)%nat by lia. exact K2.
  - intros m Hm. destruct (K m Hm) as (_ & _ & K3 & K4). auto.
Qed.

Lemma even_odd (P : nat -> Prop) : (forall m, (m < 128)%nat -> P (2 * m)%nat /\ P (2 * m + 1)%nat) ->
  forall x, (x < 256)%nat -> P x.
Proof.
  intros H x Hx. pose proof (Nat.div_mod x 2 ltac:(lia)) as D. pose proof (Nat.mod_upper_bound x 2 ltac:(lia)) as U.
  destruct (H (x / 2)%nat ltac:(apply Nat.div_lt_upper_bound; lia)) as [P1 P2].
  destruct (Nat.eq_dec (x mod 2) 0).
  - replace x with (2 * (x / 2))%nat by lia. exact P1.
  - replace x with (2 * (x / 2) + 1)%nat by lia. exact P2.
Qed.

Lemma negacyclic_pmul a b k : (k < 256)%nat -> negacyclic a b k = pmul 256 (-1) (get a) (get b) k.
Proof.
  intros Hk. unfold negacyclic, pmul. apply sum_eq. intros i Hi. apply sum_eq. intros j Hj.
  unfold mono, coeff, get. destruct (Nat.lt_ge_cases (i + j) 256).
  - rewrite Nat.mod_small, Nat.div_small by lia.
    destruct (Nat.eqb_spec (i + j) k); [cbn [Z.of_nat]; rewrite Z.pow_0_r; ring|].
    destruct (Nat.eqb_spec (i + j) (k + 256)); [lia|ring].
  - replace ((i + j) mod 256)%nat with (i + j - 256)%nat by (apply Nat.mod_unique with 1%nat; lia).
    replace ((i + j) / 256)%nat with 1%nat by (apply Nat.div_unique with (i + j - 256)%nat; lia).
    change (Z.of_nat 1) with 1. rewrite Z.pow_1_r.
    destruct (Nat.eqb_spec (i + j) k); [lia|].
    destruct (Nat.eqb_spec (i + j) (k + 256)), (Nat.eqb_spec (i + j - 256) k); try lia; ring.
Qed.

Lemma product_reduced a b : reduced (product a b).
Proof. apply map_mod_reduced. Qed.

Lemma product_prodd a b : prodd 256 1 (get a) (get b) (get (product a b)).
Proof.
  intros m k Hm Hk. assert (m = 0%nat) by lia. subst m. cbn [Nat.mul Nat.add].
  unfold product. rewrite get_map_seq by lia. change 3329 with Q. rewrite qeq_mod.
  rewrite negacyclic_pmul by auto. reflexivity.
Qed.

(* the base multiply of two transforms is the transform of the product, up to 2^16 *)
Lemma basemul_product a b fa fb : reduced fa -> reduced fb ->
  feq (get fa) (FF (get a)) -> feq (get fb) (FF (get b)) ->
  feq (get (basemul_scalar (map w16 fa) (map w16 fb))) (fun i => 169 * FF (get (product a b)) i).
Proof.
  intros Ra Rb Ea Eb. destruct (basemul_spec fa fb Ra Rb) as [_ B].
  pose proof (FF_prod _ _ _ (product_prodd a b)) as P. unfold prodd in P. unfold feq in Ea, Eb.
  unfold feq. apply even_odd. intros m Hm. destruct (B m Hm) as [B0 B1]. split.
  - rewrite B0. rewrite !Ea, !Eb by lia.
    pose proof (P m 0%nat Hm ltac:(lia)) as P0. rewrite Nat.add_0_r, Nat.mul_comm in P0. rewrite P0.
    unfold pmul, mono. cbn [sum Nat.add Nat.modulo Nat.divmod Nat.div fst snd Nat.sub Nat.eqb].
    change (Z.of_nat 0) with 0. change (Z.of_nat 1) with 1. rewrite Z.pow_0_r, Z.pow_1_r.
    rewrite Nat.add_0_r. apply qeq_intro with 0. ring.
  - rewrite B1. rewrite !Ea, !Eb by lia.
    pose proof (P m 1%nat Hm ltac:(lia)) as P0. rewrite (Nat.mul_comm m 2) in P0. rewrite P0.
    unfold pmul, mono. cbn [sum Nat.add Nat.modulo Nat.divmod Nat.div fst snd Nat.sub Nat.eqb].
    change (Z.of_nat 0) with 0. change (Z.of_nat 1) with 1. rewrite ?Z.pow_0_r, ?Z.pow_1_r.
    rewrite Nat.add_0_r. apply qeq_intro with 0. ring.
Qed.

Lemma base_mul_out fa fb : reduced fa -> reduced fb ->
  mlkem_base_mul fa fb = Some (map (fun x => x mod Q) (basemul_scalar (map w16 fa) (map w16 fb))).
Proof. intros [La _] [Lb _]. unfold mlkem_base_mul. rewrite La, Lb. reflexivity. Qed.

(* ---------- the theorems ---------- *)

(* The reductions.  Montgomery: the result is below q in absolute value and is
   the argument divided by 2^16 modulo q.  Barrett: any i16 goes to its
   representative of least absolute value.  cadd_q: the representative in [0, q). *)
Theorem C105_reductions :
  (forall a, - (32768 * 3329) <= a < 32768 * 3329 ->
     -3329 < montgomery_reduce a < 3329 /\ (montgomery_reduce a * 65536) mod 3329 = a mod 3329) /\
  (forall a, -32768 <= a < 32768 ->
     -1664 <= barrett_reduce a <= 1664 /\ barrett_reduce a mod 3329 = a mod 3329) /\
  (forall x, -3329 < x < 3329 -> cadd_q x = x mod 3329).
Proof.
  split; [|split].
  - intros a Ha. destruct (mont_spec a) as [R [k E]]; [unfold Q; lia|]. split; [exact R|].
    rewrite E, Z.mul_comm. change Q with 3329. apply Z_mod_plus_full.
  - intros a Ha. destruct (barrett_spec a Ha) as [R [k E]]. split; [exact R|].
    rewrite E, Z.mul_comm. change Q with 3329. apply Z_mod_plus_full.
  - exact cadd_spec.
Qed.

(* The sixteen-lane transforms give exactly the array of the scalar ones. *)
Theorem C105_simd : forall r, length r = 256%nat ->
  ntt_avx2 r = ntt_scalar r /\ invntt_avx2 r = invntt_scalar r.
Proof.
  intros r H. now rewrite ntt_avx2_forward, ntt_scalar_forward, invntt_avx2_backward, invntt_scalar_backward.
Qed.

(* mlkemNtt of any 256 integers is the transform of FIPS 203, in [0, q), on
   every processor. *)
Theorem C105_forward : forall avx2 f, length f = 256%nat ->
  exists out, mlkem_ntt avx2 f = Some out /\ fips_ntt f out.
Proof.
  intros avx2 f H. destruct (ntt_out avx2 f H) as (out & E & R & P). exists out. split; [exact E|].
  split; [apply R|]. intros i Hi.
  assert (K : forall o, (o < 2)%nat ->
    coeff out (2 * i + o) = sum 128 (fun j => coeff f (2 * j + o) * gamma i ^ Z.of_nat j) mod 3329).
  { intros o Ho. pose proof (P (2 * i + o)%nat ltac:(lia)) as C. rewrite (FF_gamma _ i o Hi Ho) in C.
    apply qeq_get in C. rewrite Z.mod_small in C; [exact C|]. apply (reduced_get out _ R). lia. }
  split; [|apply K; lia]. pose proof (K 0%nat ltac:(lia)) as K0. rewrite Nat.add_0_r in K0. rewrite K0.
  apply (f_equal (fun x => x mod 3329)). apply sum_eq. intros j _. now rewrite Nat.add_0_r.
Qed.

(* The inverse transform undoes the transform up to the factor 2^16 = 2285, in
   both orders. *)
Theorem C105_inverse : forall v1 v2 f, length f = 256%nat ->
  exists g, mlkem_ntt v1 f = Some g /\
  mlkem_inv_ntt v2 g = Some (map (fun x => (x * 2285) mod 3329) f).
Proof.
  intros v1 v2 f H. destruct (ntt_out v1 f H) as (g & E & R & P). exists g. split; [exact E|].
  destruct (inv_out v2 g R) as (out & E2 & R2 & P2). rewrite E2. f_equal.
  assert (R3 : reduced (map (fun x => (x * 2285) mod 3329) f)).
  { split; [now rewrite map_length|]. rewrite Forall_forall. intros x Hx.
    apply in_map_iff in Hx. destruct Hx as (y & <- & _). apply Z.mod_pos_bound. lia. }
  apply reduced_eq; auto. intros i Hi. rewrite (P2 i Hi). cbv beta.
  rewrite get_map by lia. change 3329 with Q. rewrite qeq_mod.
  assert (E3 : GG (get g) i == 128 * 1 * get f i).
  { rewrite <- (GG_FF 1 (get f) i Hi). apply GG_feq; [|auto]. intros j Hj. rewrite (P j Hj).
    apply qeq_intro with 0. ring. }
  rewrite E3. apply qeq_intro with (9363 * get f i). unfold Q. lia.
Qed.

Theorem C105_inverse_back : forall v1 v2 g, reduced g ->
  exists f, mlkem_inv_ntt v1 g = Some f /\
  mlkem_ntt v2 f = Some (map (fun x => (x * 2285) mod 3329) g).
Proof.
  intros v1 v2 g H. destruct (inv_out v1 g H) as (f & E & R & P). exists f. split; [exact E|].
  destruct (ntt_out v2 f (proj1 R)) as (out & E2 & R2 & P2). rewrite E2. f_equal.
  assert (R3 : reduced (map (fun x => (x * 2285) mod 3329) g)).
  { destruct H as [L _]. split; [now rewrite map_length|]. rewrite Forall_forall. intros x Hx.
    apply in_map_iff in Hx. destruct Hx as (y & <- & _). apply Z.mod_pos_bound. lia. }
  apply reduced_eq; auto. intros i Hi. rewrite (P2 i Hi).
  rewrite get_map by (destruct H; lia). change 3329 with Q. rewrite qeq_mod.
  rewrite (FF_feq _ _ P i Hi). rewrite (FF_GG (169 * 1441) (get g) i Hi). cbv beta.
  apply qeq_intro with (9363 * get g i). unfold Q. lia.
Qed.

(* Transform both, multiply, transform back: exactly the product of the two
   polynomials modulo X^256 + 1 and q, with no factor left over. *)
Theorem C105_product : forall v1 v2 v3 a b, length a = 256%nat -> length b = 256%nat ->
  exists fa fb c, mlkem_ntt v1 a = Some fa /\ mlkem_ntt v2 b = Some fb /\
  mlkem_base_mul fa fb = Some c /\ mlkem_inv_ntt v3 c = Some (product a b).
Proof.
  intros v1 v2 v3 a b Ha Hb. destruct (ntt_out v1 a Ha) as (fa & Ea & Ra & Pa).
  destruct (ntt_out v2 b Hb) as (fb & Eb & Rb & Pb).
  exists fa, fb. eexists. split; [exact Ea|]. split; [exact Eb|].
  split; [now apply base_mul_out|].
  assert (Rc := mod_reduced _ (basemul_length (map w16 fa) (map w16 fb))).
  destruct (inv_out v3 _ Rc) as (out & E & R & P). rewrite E. f_equal.
  apply reduced_eq; auto using product_reduced. intros i Hi. rewrite (P i Hi). cbv beta.
  assert (E3 : GG (get (map (fun x => x mod Q) (basemul_scalar (map w16 fa) (map w16 fb)))) i ==
               128 * 169 * get (product a b) i).
  { rewrite <- (GG_FF 169 (get (product a b)) i Hi). apply GG_feq; [|auto]. intros j Hj.
    rewrite get_map by (rewrite basemul_length; lia). rewrite qeq_mod.
    now apply (basemul_product a b fa fb Ra Rb Pa Pb). }
  rewrite E3. apply qeq_intro with (1582463 * get (product a b) i). unfold Q. lia.
Qed.

(* toMont multiplies reduced coefficients by 2^16; after a base multiply it
   gives exactly the transform of the product. *)
Theorem C105_to_mont : forall l, Forall (fun x => 0 <= x < 3329) l ->
  mlkem_to_mont l = map (fun x => (x * 65536) mod 3329) l.
Proof.
  intros l H. unfold mlkem_to_mont. apply map_ext_in. intros x Hx. rewrite Forall_forall in H.
  specialize (H x Hx). destruct (mont_spec (x * 1353)) as [R [k E]]; [unfold Q; lia|].
  set (m := montgomery_reduce (x * 1353)) in *.
  assert (M : m == x * 65536).
  { transitivity (169 * (m * 65536)); [apply qeq_intro with (-3327 * m); unfold Q; lia|].
    rewrite E. apply qeq_intro with (169 * k + 49 * x). unfold Q. lia. }
  apply qeq_get in M. change Q with 3329 in *. rewrite <- M.
  rewrite (Z.quot_rem' m 3329) at 2. rewrite Z.add_comm, Z.mul_comm. now rewrite Z_mod_plus_full.
Qed.

Theorem C105_transformed_product : forall v1 v2 v3 a b, length a = 256%nat -> length b = 256%nat ->
  exists fa fb c, mlkem_ntt v1 a = Some fa /\ mlkem_ntt v2 b = Some fb /\
  mlkem_base_mul fa fb = Some c /\ Some (mlkem_to_mont c) = mlkem_ntt v3 (product a b).
Proof.
  intros v1 v2 v3 a b Ha Hb. destruct (ntt_out v1 a Ha) as (fa & Ea & Ra & Pa).
  destruct (ntt_out v2 b Hb) as (fb & Eb & Rb & Pb).
  exists fa, fb. eexists. split; [exact Ea|]. split; [exact Eb|].
  split; [now apply base_mul_out|].
  assert (Rc := mod_reduced _ (basemul_length (map w16 fa) (map w16 fb))).
  destruct (ntt_out v3 (product a b) (proj1 (product_reduced a b))) as (out & E & R & P). rewrite E. f_equal.
  rewrite C105_to_mont by apply Rc.
  set (c := map (fun x => x mod Q) (basemul_scalar (map w16 fa) (map w16 fb))) in *.
  assert (R3 : reduced (map (fun x => (x * 65536) mod 3329) c)).
  { destruct Rc as [L _]. split; [now rewrite map_length|]. rewrite Forall_forall. intros x Hx.
    apply in_map_iff in Hx. destruct Hx as (y & <- & _). apply Z.mod_pos_bound. lia. }
  apply reduced_eq; auto. intros i Hi. rewrite (P i Hi).
  rewrite get_map by (destruct Rc; lia). change 3329 with Q. rewrite qeq_mod. unfold c.
  rewrite get_map by (rewrite basemul_length; lia). rewrite qeq_mod.
  rewrite (basemul_product a b fa fb Ra Rb Pa Pb i Hi). cbv beta.
  apply qeq_intro with (3327 * FF (get (product a b)) i). unfold Q. lia.
Qed.

(* The Word16 entry points agree with the Int ones on reduced coefficients. *)
Theorem C105_word16 : forall avx2 a b, reduced a -> reduced b ->
  mlkem_ntt_w16 avx2 a = mlkem_ntt avx2 a /\
  Some (mlkem_inv_ntt_w16 avx2 a) = mlkem_inv_ntt avx2 a /\
  Some (mlkem_base_mul_w16 a b) = mlkem_base_mul a b /\
  mlkem_to_mont_w16 a = mlkem_to_mont a.
Proof.
  intros avx2 a b Ha Hb. pose proof Ha as [La Fa]. pose proof Hb as [Lb Fb].
  assert (U : forall l, map (fun x => u16 (x mod Q)) l = map (fun x => x mod Q) l).
  { intros l. apply map_ext. intros x. unfold u16.
    pose proof (Z.mod_pos_bound x Q ltac:(unfold Q; lia)). apply Z.mod_small. unfold Q in *. lia. }
  assert (T : forall l, length l = 256%nat -> firstn 256 (l ++ repeat 0 256) = l).
  { intros l L. rewrite <- L at 1. rewrite firstn_app, Nat.sub_diag, firstn_all, firstn_O. apply app_nil_r. }
  split; [|split; [|split]].
  - unfold mlkem_ntt_w16, mlkem_ntt. rewrite La. cbn [Nat.eqb]. rewrite U.
    assert (E : map w16 a = map (fun x => w16 (x mod Q)) a).
    { apply map_ext_in. intros x Hx. rewrite Forall_forall in Fa. specialize (Fa x Hx).
      rewrite (Z.mod_small x) by (unfold Q; lia). reflexivity. }
    now rewrite E.
  - unfold mlkem_inv_ntt_w16, mlkem_inv_ntt. rewrite La. cbn [Nat.eqb]. rewrite T by auto. now rewrite U.
  - unfold mlkem_base_mul_w16. rewrite base_mul_out by auto. rewrite !T by auto. f_equal.
    apply get_ext; [now rewrite !map_length|]. rewrite map_length, basemul_length. intros i Hi.
    rewrite !get_map by (rewrite basemul_length; lia).
    destruct (basemul_spec a b Ha Hb) as [S _]. pose proof (S i Hi) as B.
    destruct (barrett_spec (get (basemul_scalar (map w16 a) (map w16 b)) i)) as [R [k E]]; [unfold Q in *; lia|].
    rewrite cadd_spec by (unfold Q in *; lia). rewrite E, Z.mul_comm. apply Z_mod_plus_full.
  - rewrite C105_to_mont by auto. unfold mlkem_to_mont_w16. apply map_ext_in. intros x Hx.
    rewrite Forall_forall in Fa. specialize (Fa x Hx). rewrite w16_id by lia.
    destruct (mont_spec (x * 1353)) as [R [k E]]; [unfold Q; lia|].
    rewrite cadd_spec by auto. set (m := montgomery_reduce (x * 1353)) in *.
    apply (qeq_get m). transitivity (169 * (m * 65536)); [apply qeq_intro with (-3327 * m); unfold Q; lia|].
    rewrite E. apply qeq_intro with (169 * k + 49 * x). unfold Q. lia.
Qed.

(* Coefficient-wise addition and subtraction of reduced coefficients. *)
Theorem C105_add_sub : forall a b,
  Forall (fun x => 0 <= x < 3329) a -> Forall (fun x => 0 <= x < 3329) b ->
  mlkem_add_mod_q_w16 a b = map (fun '(x, y) => (x + y) mod 3329) (combine a b) /\
  mlkem_sub_mod_q_w16 a b = map (fun '(x, y) => (x - y) mod 3329) (combine a b).
Proof.
  intros a b Ha Hb. rewrite Forall_forall in Ha, Hb. split; apply map_ext_in; intros [x y] Hxy.
  - pose proof (Ha x (in_combine_l _ _ _ _ Hxy)). pose proof (Hb y (in_combine_r _ _ _ _ Hxy)).
    unfold u16. rewrite (Z.mod_small (x + y) 65536) by lia. unfold Q.
    destruct (Z.leb_spec 3329 (x + y)).
    + apply Z.mod_unique with 1; lia.
    + symmetry. apply Z.mod_small. lia.
  - pose proof (Ha x (in_combine_l _ _ _ _ Hxy)). pose proof (Hb y (in_combine_r _ _ _ _ Hxy)).
    unfold u16, Q. destruct (Z.ltb_spec (x - y) 0).
    + rewrite Z.mod_small by lia. apply Z.mod_unique with (-1); lia.
    + rewrite !Z.mod_small by lia. reflexivity.
Qed.

(* Unlike the transform, the base multiply and the inverse do not reduce their
   input: with a coefficient outside i16 a release build multiplies another
   number. *)
Theorem C105_unreduced_refuted : exists a b c, length a = 256%nat /\ length b = 256%nat /\
  mlkem_base_mul a b = Some c /\
  (coeff c 0 * 65536) mod 3329 <> (coeff a 0 * coeff b 0) mod 3329 /\
  coeff a 1 = 0 /\ coeff b 1 = 0.
Proof.
  exists (40000 :: repeat 0 255), (1 :: repeat 0 255). eexists.
  split; [reflexivity|]. split; [reflexivity|]. split; [reflexivity|].
  split; [|split; reflexivity]. vm_compute. discriminate.
Qed.

(* ---------- examples ---------- *)

(* X^255 times X^2 is -X; with both processors *)
Definition ex_a : list Z := repeat 0 255 ++ [1].
Definition ex_b : list Z := [0; 0; 1] ++ repeat 0 253.

Example C105_product_ex :
  match mlkem_ntt true ex_a, mlkem_ntt false ex_b with
  | Some fa, Some fb =>
    match mlkem_base_mul fa fb with
    | Some c => mlkem_inv_ntt true c = Some ([0; 3328] ++ repeat 0 254)
    | None => False
    end
  | _, _ => False
  end.
Proof. vm_compute. reflexivity. Qed.

Example C105_forward_ex : fips_ntt ex_b (match mlkem_ntt false ex_b with Some o => o | None => [] end) /\
  coeff (match mlkem_ntt false ex_b with Some o => o | None => [] end) 2 = 3312.
Proof.
  destruct (C105_forward false ex_b eq_refl) as (o & E & P). rewrite E. split; [exact P|].
  revert E. vm_compute. intros E. injection E as <-. reflexivity.
Qed.

Example C105_hypotheses_ex : reduced ex_a /\ reduced ex_b /\
  mlkem_ntt false ([1; 2] : list Z) = None /\
  montgomery_reduce 1000000 = -14 /\ barrett_reduce 32767 = -523 /\ cadd_q (-523) = 2806 /\
  mlkem_add_mod_q_w16 [3000; 5] [3000; 6] = [2671; 11] /\ mlkem_sub_mod_q_w16 [1; 9] [2; 4] = [3328; 5].
Proof.
  assert (R : forall l, length l = 256%nat -> forallb (fun x => (0 <=? x) && (x <? 3329))%bool l = true -> reduced l).
  { intros l H K. split; [auto|]. rewrite Forall_forall. intros x Hx. rewrite forallb_forall in K.
    specialize (K x Hx). lia. }
  split; [apply R; reflexivity|]. split; [apply R; reflexivity|].
  vm_compute. repeat split.
Qed.
