(* The tables of the byte field define a field *)
From Coq Require Import NArith List Lia Bool Arith Ring Eqdep_dec.
Import ListNotations.
From Verif Require Import BmModel.

(* the tables the code fills are the ones used *)
Lemma gf256_tables_eq : gf256_tables = (gf256_log, gf256_exp).
Proof. vm_compute. reflexivity. Qed.

Definition mul3 (x : N) : N := N.lxor x (gf256_xtime x).
Lemma exp_step : forallb (fun i => N.eqb (exp_at (S i)) (mul3 (exp_at i))) (seq 0 511) = true.
Proof. vm_compute. reflexivity. Qed.
Lemma exp_0 : exp_at 0 = 1%N. Proof. reflexivity. Qed.
Lemma exp_255 : exp_at 255 = 1%N. Proof. vm_compute. reflexivity. Qed.
Lemma exp_bound : forallb (fun i => N.ltb (exp_at i) 256 && negb (N.eqb (exp_at i) 0)) (seq 0 512) = true.
Proof. vm_compute. reflexivity. Qed.
Lemma exp_log : forallb (fun k => (N.eqb (exp_at (log_at (N.of_nat k))) (N.of_nat k)) && (log_at (N.of_nat k) <? 255)) (seq 1 255) = true.
Proof. vm_compute. reflexivity. Qed.

Lemma xtime_linear a b : gf256_xtime (N.lxor a b) = N.lxor (gf256_xtime a) (gf256_xtime b).
Proof.
  unfold gf256_xtime. rewrite N.shiftl_lxor.
  assert (T : forall x, N.eqb (N.land x 128) 0 = negb (N.testbit x 7)).
  { intros x. change 128%N with (2 ^ 7)%N. destruct (N.testbit x 7) eqn:E.
    - apply N.eqb_neq. intros Z. apply (f_equal (fun y => N.testbit y 7)) in Z. rewrite N.land_spec, E in Z. discriminate.
    - apply N.eqb_eq, N.bits_inj. intros i. rewrite N.land_spec, N.bits_0, N.pow2_bits_eqb.
      destruct (N.eqb_spec 7 i) as [<-|]; [rewrite E; reflexivity|apply andb_false_r]. }
  rewrite !T, N.lxor_spec.
  assert (D : forall x y m, N.land (N.lxor x y) m = N.lxor (N.land x m) (N.land y m)).
  { intros x y m. apply N.bits_inj. intros i. rewrite N.land_spec, !N.lxor_spec, !N.land_spec.
    destruct (N.testbit x i), (N.testbit y i), (N.testbit m i); reflexivity. }
  rewrite D. generalize (N.land (N.shiftl a 1) 255) as u, (N.land (N.shiftl b 1) 255) as v. intros u v.
  apply N.bits_inj. intros i. destruct (N.testbit a 7), (N.testbit b 7); cbn [xorb negb];
    rewrite !N.lxor_spec, ?N.bits_0; destruct (N.testbit u i), (N.testbit v i), (N.testbit 27 i); reflexivity.
Qed.
Lemma mul3_linear a b : mul3 (N.lxor a b) = N.lxor (mul3 a) (mul3 b).
Proof.
  unfold mul3. rewrite xtime_linear. rewrite !N.lxor_assoc. f_equal. rewrite <- !N.lxor_assoc. f_equal. apply N.lxor_comm.
Qed.
Definition iter (k : nat) (x : N) : N := Nat.iter k mul3 x.
Lemma iter_linear k a b : iter k (N.lxor a b) = N.lxor (iter k a) (iter k b).
Proof. induction k as [|k IH]; [reflexivity|]. change (mul3 (iter k (N.lxor a b)) = N.lxor (mul3 (iter k a)) (mul3 (iter k b))). rewrite IH. apply mul3_linear. Qed.
Lemma iter_add k l x : iter (k + l) x = iter k (iter l x).
Proof. induction k as [|k IH]; [reflexivity|]. change (iter (S k + l) x) with (mul3 (iter (k + l) x)). rewrite IH. reflexivity. Qed.
Lemma iter_zero k : iter k 0 = 0%N.
Proof. induction k as [|k IH]; [reflexivity|]. change (iter (S k) 0) with (mul3 (iter k 0)). rewrite IH. reflexivity. Qed.
Lemma exp_iter i : i < 512 -> exp_at i = iter i 1.
Proof.
  induction i as [|i IH]; intros H; [reflexivity|]. change (iter (S i) 1) with (mul3 (iter i 1)). rewrite <- IH by lia.
  pose proof exp_step as E. rewrite forallb_forall in E. apply N.eqb_eq. apply (E i). apply in_seq. lia.
Qed.
Lemma log_spec a : (a < 256)%N -> a <> 0%N -> log_at a < 255 /\ iter (log_at a) 1 = a.
Proof.
  intros H0 H1. pose proof exp_log as E. rewrite forallb_forall in E. specialize (E (N.to_nat a)).
  rewrite N2Nat.id in E. assert (I : In (N.to_nat a) (seq 1 255)) by (apply in_seq; lia).
  apply E in I. apply andb_prop in I as [I1 I2]. apply N.eqb_eq in I1. apply Nat.ltb_lt in I2.
  split; [exact I2|]. rewrite <- exp_iter by (apply Nat.lt_trans with 255; [exact I2|apply Nat.ltb_lt; reflexivity]). exact I1.
Qed.
Lemma exp_spec i : i < 512 -> (exp_at i < 256)%N /\ exp_at i <> 0%N.
Proof.
  intros H. pose proof exp_bound as E. rewrite forallb_forall in E. assert (I : In i (seq 0 512)) by (apply in_seq; lia).
  apply E in I. apply andb_prop in I as [I1 I2]. split; [apply N.ltb_lt; exact I1|]. intros Z. rewrite Z in I2. discriminate.
Qed.
Lemma log_sum a b : (a < 256)%N -> a <> 0%N -> (b < 256)%N -> b <> 0%N -> log_at a + log_at b < 512.
Proof. intros. destruct (log_spec a), (log_spec b); auto. lia. Qed.

Lemma mul_iter a b : (a < 256)%N -> a <> 0%N -> (b < 256)%N -> gf256_mul a b = iter (log_at a) b.
Proof.
  intros Ha Na Hb. unfold gf256_mul. destruct (N.eqb_spec a 0); [contradiction|]. destruct (N.eqb_spec b 0) as [->|Nb]; cbn [orb].
  - symmetry. apply iter_zero.
  - rewrite exp_iter by (apply log_sum; assumption). rewrite iter_add. destruct (log_spec b Hb Nb) as [_ ->]. reflexivity.
Qed.
Lemma mul_comm a b : gf256_mul a b = gf256_mul b a.
Proof. unfold gf256_mul. rewrite orb_comm, Nat.add_comm. reflexivity. Qed.
Lemma mul_bound a b : (a < 256)%N -> (b < 256)%N -> (gf256_mul a b < 256)%N.
Proof.
  intros Ha Hb. unfold gf256_mul. destruct (N.eqb_spec a 0), (N.eqb_spec b 0); cbn [orb]; try reflexivity.
  apply exp_spec, log_sum; assumption.
Qed.
Lemma mul_nonzero a b : (a < 256)%N -> (b < 256)%N -> a <> 0%N -> b <> 0%N -> gf256_mul a b <> 0%N.
Proof.
  intros Ha Hb Na Nb. unfold gf256_mul. destruct (N.eqb_spec a 0); [contradiction|]. destruct (N.eqb_spec b 0); [contradiction|]. cbn [orb].
  apply exp_spec, log_sum; assumption.
Qed.
Lemma mul_0_l b : gf256_mul 0 b = 0%N. Proof. reflexivity. Qed.
Lemma mul_0_r b : gf256_mul b 0 = 0%N. Proof. rewrite mul_comm. reflexivity. Qed.
Lemma mul_assoc a b c : (a < 256)%N -> (b < 256)%N -> (c < 256)%N -> gf256_mul a (gf256_mul b c) = gf256_mul (gf256_mul a b) c.
Proof.
  intros Ha Hb Hc. destruct (N.eq_dec a 0) as [->|Na]; [reflexivity|]. destruct (N.eq_dec b 0) as [->|Nb]; [rewrite mul_0_l, !mul_0_r; reflexivity|].
  destruct (N.eq_dec c 0) as [->|Nc]; [rewrite !mul_0_r; reflexivity|].
  rewrite (mul_comm (gf256_mul a b) c). rewrite !mul_iter by (auto using mul_bound).
  destruct (log_spec b Hb Nb) as [_ Eb], (log_spec c Hc Nc) as [_ Ec]. 
  transitivity (iter (log_at a) (iter (log_at b) (iter (log_at c) 1))); [rewrite Ec; reflexivity|].
  transitivity (iter (log_at c) (iter (log_at a) (iter (log_at b) 1))); [|rewrite Eb; reflexivity].
  rewrite <- !iter_add. f_equal. lia.
Qed.
Lemma lxor_bound a b : (a < 256)%N -> (b < 256)%N -> (N.lxor a b < 256)%N.
Proof.
  intros Ha Hb. destruct (N.eq_dec (N.lxor a b) 0) as [E|NE]; [rewrite E; reflexivity|].
  change 256%N with (2 ^ 8)%N. apply N.log2_lt_pow2; [lia|].
  apply N.le_lt_trans with (N.max (N.log2 a) (N.log2 b)); [apply N.log2_lxor|].
  assert (L : forall x, (x < 256)%N -> (N.log2 x < 8)%N).
  { intros x Hx. destruct (N.eq_dec x 0) as [->|]; [reflexivity|]. apply N.log2_lt_pow2; [lia|exact Hx]. }
  apply N.max_lub_lt; apply L; assumption.
Qed.
Lemma mul_distr a b c : (a < 256)%N -> (b < 256)%N -> (c < 256)%N ->
  gf256_mul (N.lxor a b) c = N.lxor (gf256_mul a c) (gf256_mul b c).
Proof.
  intros Ha Hb Hc. rewrite !(mul_comm _ c). destruct (N.eq_dec c 0) as [->|Nc]; [reflexivity|].
  rewrite !mul_iter by (auto using lxor_bound). apply iter_linear.
Qed.
Lemma mul_1 b : (b < 256)%N -> gf256_mul 1 b = b.
Proof. intros Hb. rewrite mul_iter by (auto; lia). reflexivity. Qed.
Lemma inv_bound a : (gf256_inv a < 256)%N.
Proof. unfold gf256_inv. apply exp_spec. apply Nat.le_lt_trans with 255; [apply Nat.le_sub_l|apply Nat.ltb_lt; reflexivity]. Qed.
Lemma mul_inv a : (a < 256)%N -> a <> 0%N -> gf256_mul a (gf256_inv a) = 1%N.
Proof.
  intros Ha Na. destruct (log_spec a Ha Na) as [Hl _]. rewrite mul_iter by (auto using inv_bound).
  unfold gf256_inv. rewrite exp_iter by (apply Nat.le_lt_trans with 255; [apply Nat.le_sub_l|apply Nat.ltb_lt; reflexivity]).
  rewrite <- iter_add. replace (log_at a + (255 - log_at a)) with 255 by lia.
  rewrite <- exp_iter by (apply Nat.ltb_lt; reflexivity). apply exp_255.
Qed.
Lemma mul_2 b : (b < 256)%N -> gf256_mul 2 b = gf256_xtime b.
Proof.
  intros Hb.
  assert (E : forallb (fun k => N.eqb (gf256_mul 2 (N.of_nat k)) (gf256_xtime (N.of_nat k))) (seq 0 256) = true) by (vm_compute; reflexivity).
  rewrite forallb_forall in E. specialize (E (N.to_nat b)). rewrite N2Nat.id in E. apply N.eqb_eq, E. apply in_seq. lia.
Qed.

(* u8 *)
Definition u8 : Type := {a : N | N.ltb a 256 = true}.
Definition val (a : u8) : N := proj1_sig a.
Lemma val_lt a : (val a < 256)%N. Proof. destruct a as [a H]. apply N.ltb_lt. exact H. Qed.
Lemma u8_eq (a b : u8) : val a = val b -> a = b.
Proof. destruct a as [a H], b as [b H']. cbn [val proj1_sig]. intros <-. f_equal. apply UIP_dec. apply bool_dec. Qed.
Definition byte (a : N) (H : (a < 256)%N) : u8 := exist _ a (proj2 (N.ltb_lt a 256) H).
Definition gzero : u8 := exist _ 0%N eq_refl.
Definition gone : u8 := exist _ 1%N eq_refl.
Definition gadd (a b : u8) : u8 := byte (N.lxor (val a) (val b)) (lxor_bound _ _ (val_lt a) (val_lt b)).
Definition gmul (a b : u8) : u8 := byte (gf256_mul (val a) (val b)) (mul_bound _ _ (val_lt a) (val_lt b)).
Definition ginv (a : u8) : u8 := byte (gf256_inv (val a)) (inv_bound _).
Definition geqb (a b : u8) : bool := N.eqb (val a) (val b).

Lemma gring : ring_theory gzero gone gadd gmul gadd (fun x => x) (@eq u8).
Proof.
  constructor; intros; apply u8_eq; cbn [val gadd gmul byte gzero gone proj1_sig].
  - apply N.lxor_0_l.
  - apply N.lxor_comm.
  - symmetry. apply N.lxor_assoc.
  - apply mul_1, val_lt.
  - apply mul_comm.
  - apply mul_assoc; apply val_lt.
  - apply mul_distr; apply val_lt.
  - reflexivity.
  - apply N.lxor_nilpotent.
Qed.
Lemma ginv_r a : a <> gzero -> gmul a (ginv a) = gone.
Proof. intros H. apply u8_eq. apply mul_inv; [apply val_lt|]. intros E. apply H, u8_eq, E. Qed.
Lemma geqb_eq a b : geqb a b = true <-> a = b.
Proof. unfold geqb. rewrite N.eqb_eq. split; [apply u8_eq|intros ->; reflexivity]. Qed.
