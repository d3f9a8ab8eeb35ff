(** The tables make bytes a field. *)
From Coq Require Import NArith List Lia Strings.Byte Ring.
From stdpp Require Import list.
From Verif Require Import FecModel.
Open Scope nat_scope.

(** ** Bytes and exclusive or *)
Lemma u8_val n : Byte.to_N (u8 n) = (n mod 256)%N.
Proof.
  unfold u8. destruct (Byte.of_N (n mod 256)) eqn:E; cbn; [now apply Byte.to_of_N|]. apply Byte.of_N_None_iff in E. pose proof (N.mod_lt n 256 ltac:(done)). lia.
Qed.
Lemma to_N_inj a b : Byte.to_N a = Byte.to_N b -> a = b.
Proof. intros E. assert (Some a = Some b) as [= ->]; [|done]. now rewrite <- !Byte.of_to_N, E. Qed.
Lemma to_N_lt a : (Byte.to_N a < 256)%N. Proof. pose proof (Byte.to_N_bounded a). lia. Qed.
Lemma lxor_lt a b : (a < 256)%N -> (b < 256)%N -> (N.lxor a b < 256)%N.
Proof.
  intros Ha Hb. assert (K : forall x, (x < 256)%N <-> N.shiftr x 8 = 0%N). { intros x. rewrite N.shiftr_div_pow2. change (2 ^ 8)%N with 256%N. split; intros H; [now apply N.div_small|]. destruct (N.lt_ge_cases x 256) as [|G]; [done|]. pose proof (N.div_str_pos x 256). lia. }
  apply K. rewrite N.shiftr_lxor. apply K in Ha, Hb. now rewrite Ha, Hb.
Qed.
Lemma xor_val a b : Byte.to_N (xor a b) = N.lxor (Byte.to_N a) (Byte.to_N b).
Proof. unfold xor. rewrite u8_val. apply N.mod_small. apply lxor_lt; apply to_N_lt. Qed.
Lemma xor_comm a b : xor a b = xor b a. Proof. apply to_N_inj. rewrite !xor_val. apply N.lxor_comm. Qed.
Lemma xor_assoc a b c : xor a (xor b c) = xor (xor a b) c. Proof. apply to_N_inj. rewrite !xor_val. symmetry. apply N.lxor_assoc. Qed.
Lemma xor_0_l a : xor x00 a = a. Proof. apply to_N_inj. rewrite xor_val. apply N.lxor_0_l. Qed.
Lemma xor_0_r a : xor a x00 = a. Proof. rewrite xor_comm. apply xor_0_l. Qed.
Lemma xor_self a : xor a a = x00. Proof. apply to_N_inj. rewrite xor_val. apply N.lxor_nilpotent. Qed.
Lemma xor_zero a b : xor a b = x00 <-> a = b.
Proof. split; [|intros ->; apply xor_self]. intros E. rewrite <- (xor_0_r a), <- (xor_self b), xor_assoc, E. apply xor_0_l. Qed.
Lemma is0_spec a : Bool.reflect (a = x00) (is0 a).
Proof. unfold is0. destruct (Byte.eqb a x00) eqn:E; constructor; [now apply Byte.byte_dec_bl|]. intros ->. done. Qed.
Lemma is0_false a : a <> x00 -> is0 a = false. Proof. destruct (is0_spec a); done. Qed.

(** ** Multiplication by the generator *)
Definition xt (b : byte) : byte := let x := N.shiftl (Byte.to_N b) 1 in u8 (if (N.land x 256 =? 0)%N then x else N.lxor x 285).
(** The same, one bit at a time. *)
Lemma xt_spec b : Byte.to_N (xt b) = N.lxor (N.shiftl (Byte.to_N b) 1 mod 256) (if N.testbit (Byte.to_N b) 7 then 29 else 0)%N.
Proof. destruct b; vm_compute; reflexivity. Qed.
Lemma xt_linear a b : xt (xor a b) = xor (xt a) (xt b).
Proof.
  apply to_N_inj. rewrite xor_val, !xt_spec, xor_val. rewrite N.shiftl_lxor, N.lxor_spec. change 256%N with (2 ^ 8)%N. rewrite <- !N.land_ones.
  set (x := N.shiftl (Byte.to_N a) 1). set (y := N.shiftl (Byte.to_N b) 1).
  assert (D : N.land (N.lxor x y) (N.ones 8) = N.lxor (N.land x (N.ones 8)) (N.land y (N.ones 8))) by (apply N.bits_inj; intros i; rewrite N.lxor_spec, !N.land_spec, N.lxor_spec; destruct (N.testbit x i), (N.testbit y i), (N.testbit (N.ones 8) i); done).
  rewrite D. set (p := N.land x _). set (q := N.land y _). destruct (N.testbit (Byte.to_N a) 7), (N.testbit (Byte.to_N b) 7); cbn [xorb]; rewrite ?N.lxor_0_r.
  - rewrite <- !N.lxor_assoc. rewrite (N.lxor_assoc p 29 q), (N.lxor_comm 29 q), <- N.lxor_assoc. rewrite N.lxor_assoc, N.lxor_nilpotent, N.lxor_0_r. done.
  - rewrite !N.lxor_assoc. f_equal. apply N.lxor_comm.
  - now rewrite N.lxor_assoc.
  - done.
Qed.
Definition X (i : nat) : byte := Nat.iter i xt x01.
Definition xts (i : nat) (a : byte) : byte := Nat.iter i xt a.
Lemma xts_X i j : xts i (X j) = X (i + j). Proof. unfold xts, X. symmetry. induction i as [|i IH]; [done|]. cbn [Nat.add Nat.iter nat_rect] in *. now f_equal. Qed.
Lemma xts_linear i a b : xts i (xor a b) = xor (xts i a) (xts i b).
Proof. induction i as [|i IH]; [done|]. change (xt (xts i (xor a b)) = xor (xt (xts i a)) (xt (xts i b))). now rewrite IH, xt_linear. Qed.
Lemma xts_0 i : xts i x00 = x00. Proof. induction i as [|i IH]; [done|]. change (xt (xts i x00) = x00). rewrite IH. reflexivity. Qed.
Lemma xts_xts i j a : xts i (xts j a) = xts (i + j) a. Proof. unfold xts. symmetry. induction i as [|i IH]; [done|]. cbn [Nat.add Nat.iter nat_rect] in *. now f_equal. Qed.

(** ** The tables *)
Fixpoint iterates (n : nat) (b : byte) : list byte := match n with O => [] | S n => b :: iterates n (xt b) end.
Lemma iterates_length n b : length (iterates n b) = n. Proof. revert b. induction n as [|n IH]; intros b; cbn; [done|now rewrite IH]. Qed.
Lemma nth_iterates n b i : (i < n)%nat -> nth i (iterates n b) x00 = xts i b.
Proof.
  revert b i. induction n as [|n IH]; intros b i H; [lia|]. destruct i as [|i]; [done|]. cbn [nth iterates]. rewrite IH by lia. unfold xts. rewrite <- Nat.iter_succ_r. done.
Qed.
Definition all_bytes : list byte := map (fun n => u8 (N.of_nat n)) (seq 0 256).
Definition tables_ok (t : list byte * list byte) : bool :=
  let '(exp, log) := t in
  forallb (fun p => Byte.eqb (fst p) (snd p)) (combine (take 510 exp) (iterates 510 x01)) && (length (take 510 exp) =? 510) &&
  Byte.eqb (nth 255 exp x00) x01 && forallb (fun b => negb (is0 b)) (take 255 exp) &&
  forallb (fun a => is0 a || (Byte.eqb (nth (Byte.to_nat (nth (Byte.to_nat a) log x00)) exp x00) a && (Byte.to_nat (nth (Byte.to_nat a) log x00) <? 255))) all_bytes.
Lemma tables : tables_ok gf = true. Proof. vm_compute. reflexivity. Qed.
Lemma forallb_nth {A} (f : A -> bool) l d i : forallb f l = true -> (i < length l)%nat -> f (nth i l d) = true.
Proof. intros H L. rewrite forallb_forall in H. apply H. now apply nth_In. Qed.
Lemma eqb_eq a b : Byte.eqb a b = true <-> a = b.
Proof. split; [apply Byte.byte_dec_bl|intros ->; destruct b; reflexivity]. Qed.
Lemma exp_X i : (i < 510)%nat -> gf_exp i = X i.
Proof.
  intros H. pose proof tables as T. unfold gf_exp. destruct gf as [exp log]. cbn [fst tables_ok] in *. rewrite !andb_true_iff in T. destruct T as ((((T1 & T2) & _) & _) & _). apply Nat.eqb_eq in T2.
  assert (LI : length (iterates 510 x01) = 510%nat) by apply iterates_length.
  assert (L : (i < length (combine (take 510 exp) (iterates 510 x01)))%nat) by (rewrite combine_length, T2, LI; lia).
  pose proof (forallb_nth _ _ (x00, x00) i T1 L) as E. cbv beta in E. rewrite combine_nth in E by (rewrite T2, LI; done). cbn [fst snd] in E. apply eqb_eq in E. rewrite nth_iterates in E by done. change (X i) with (xts i x01). rewrite <- E.
  rewrite <- (take_drop 510 exp) at 1. rewrite app_nth1 by (rewrite T2; lia). done.
Qed.
Lemma X_255 : X 255 = x01.
Proof.
  rewrite <- exp_X by lia. pose proof tables as T. unfold gf_exp. destruct gf as [exp log]. cbn [fst tables_ok] in *. rewrite !andb_true_iff in T. destruct T as ((((T1 & T2) & T3) & _) & _). now apply eqb_eq.
Qed.
Lemma X_period i : X (i + 255) = X i. Proof. rewrite <- xts_X, X_255. unfold xts, X. done. Qed.
Lemma X_nonzero i : X i <> x00.
Proof.
  induction i as [i IH] using lt_wf_ind. destruct (Nat.lt_ge_cases i 255) as [H|H]; [|replace i with (i - 255 + 255) by lia; rewrite X_period; apply IH; lia].
  rewrite <- exp_X by lia. pose proof tables as T. unfold gf_exp. destruct gf as [exp log]. cbn [fst tables_ok] in *. rewrite !andb_true_iff in T. destruct T as ((((T1 & T2) & T3) & T4) & _). apply Nat.eqb_eq in T2.
  assert (L : (i < length (take 255 exp))%nat) by (rewrite take_length; rewrite take_length in T2; lia). pose proof (forallb_nth _ _ x00 i T4 L) as E. cbv beta in E. rewrite <- (take_drop 255 exp). rewrite app_nth1 by done. intros Z0. rewrite Z0 in E. done.
Qed.
Lemma all_bytes_in a : In a all_bytes.
Proof.
  unfold all_bytes. apply in_map_iff. exists (Byte.to_nat a). pose proof (to_N_lt a) as H. split; [apply to_N_inj; rewrite u8_val; rewrite <- Byte.to_N_via_nat; now apply N.mod_small|]. apply in_seq. rewrite Byte.to_N_via_nat in H. lia.
Qed.
Lemma log_spec a : a <> x00 -> X (gf_log a) = a /\ (gf_log a < 255)%nat.
Proof.
  intros N0. assert (E : gf_exp (gf_log a) = a /\ (gf_log a < 255)%nat); [|rewrite <- exp_X by lia; done]. pose proof tables as T. unfold gf_exp, gf_log. destruct gf as [exp log]. cbn [fst snd tables_ok] in *. rewrite !andb_true_iff in T. destruct T as (_ & T5).
  rewrite forallb_forall in T5. specialize (T5 a (all_bytes_in a)). cbv beta in T5. rewrite (is0_false a N0) in T5. cbn [orb] in T5. rewrite andb_true_iff in T5. destruct T5 as [E L]. apply eqb_eq in E. apply Nat.ltb_lt in L. done.
Qed.

(** ** Field laws *)
Lemma mul_xts a b : b <> x00 -> gf_mul a b = xts (gf_log b) a.
Proof.
  intros N0. unfold gf_mul. rewrite (is0_false b N0), orb_false_r. destruct (is0_spec a) as [->|Na]; [now rewrite xts_0|]. destruct (log_spec a Na) as [Ea La], (log_spec b N0) as [Eb Lb]. rewrite exp_X by lia. rewrite <- Ea at 2. rewrite xts_X. f_equal. lia.
Qed.
Lemma mul_comm a b : gf_mul a b = gf_mul b a.
Proof. unfold gf_mul. rewrite orb_comm. destruct (is0 b || is0 a); [done|]. f_equal. lia. Qed.
Lemma mul_0_l a : gf_mul x00 a = x00. Proof. reflexivity. Qed.
Lemma mul_0_r a : gf_mul a x00 = x00. Proof. rewrite mul_comm. apply mul_0_l. Qed.
Lemma mul_X i j : gf_mul (X i) (X j) = X (i + j).
Proof.
  rewrite mul_xts by apply X_nonzero. rewrite xts_X. destruct (log_spec (X j) (X_nonzero j)) as [E _]. rewrite Nat.add_comm, <- xts_X, E. apply xts_X.
Qed.
Lemma mul_nonzero a b : a <> x00 -> b <> x00 -> gf_mul a b <> x00.
Proof. intros Na Nb. destruct (log_spec a Na) as [<- _], (log_spec b Nb) as [<- _]. rewrite mul_X. apply X_nonzero. Qed.
Lemma mul_zero a b : gf_mul a b = x00 -> a = x00 \/ b = x00.
Proof. intros E. destruct (Byte.byte_eq_dec a x00) as [|Na]; [tauto|]. destruct (Byte.byte_eq_dec b x00) as [|Nb]; [tauto|]. now destruct (mul_nonzero a b Na Nb). Qed.
Lemma mul_assoc a b c : gf_mul a (gf_mul b c) = gf_mul (gf_mul a b) c.
Proof.
  destruct (Byte.byte_eq_dec a x00) as [->|Na]; [now rewrite !mul_0_l|]. destruct (Byte.byte_eq_dec b x00) as [->|Nb]; [now rewrite mul_0_l, !mul_0_r, mul_0_l|]. destruct (Byte.byte_eq_dec c x00) as [->|Nc]; [now rewrite !mul_0_r|].
  destruct (log_spec a Na) as [<- _], (log_spec b Nb) as [<- _], (log_spec c Nc) as [<- _]. rewrite !mul_X. f_equal. lia.
Qed.
Lemma mul_1_l a : gf_mul x01 a = a.
Proof. destruct (Byte.byte_eq_dec a x00) as [->|Na]; [now rewrite mul_0_r|]. destruct (log_spec a Na) as [<- _]. change x01 with (X 0). now rewrite mul_X. Qed.
Lemma mul_xor_l a b c : gf_mul (xor a b) c = xor (gf_mul a c) (gf_mul b c).
Proof. destruct (Byte.byte_eq_dec c x00) as [->|Nc]; [rewrite !mul_0_r; symmetry; apply xor_self|]. rewrite !mul_xts by done. apply xts_linear. Qed.
Lemma byte_ring : ring_theory x00 x01 xor gf_mul xor (fun a => a) eq.
Proof.
  constructor; intros.
  - apply xor_0_l.
  - apply xor_comm.
  - apply xor_assoc.
  - apply mul_1_l.
  - apply mul_comm.
  - apply mul_assoc.
  - apply mul_xor_l.
  - reflexivity.
  - apply xor_self.
Qed.
Add Ring byte_ring : byte_ring.
Lemma div_mul a b : b <> x00 -> gf_mul (gf_div a b) b = a.
Proof.
  intros Nb. unfold gf_div. destruct (is0_spec a) as [->|Na]; [apply mul_0_l|]. destruct (log_spec a Na) as [Ea La], (log_spec b Nb) as [Eb Lb]. rewrite exp_X by lia. rewrite <- Eb at 2. rewrite mul_X. replace (gf_log a + 255 - gf_log b + gf_log b) with (gf_log a + 255) by lia. now rewrite X_period.
Qed.
Lemma inv_nonzero a : a <> x00 -> gf_div x01 a <> x00.
Proof. intros Na E. pose proof (div_mul x01 a Na) as H. rewrite E, mul_0_l in H. done. Qed.

(** ** Sums *)
Lemma xsum_ext n f g : (forall i, (i < n)%nat -> f i = g i) -> xsum n f = xsum n g.
Proof. induction n as [|n IH]; intros H; cbn; [done|]. rewrite IH by (intros; apply H; lia). now rewrite H by lia. Qed.
Lemma xsum_zero n f : (forall i, (i < n)%nat -> f i = x00) -> xsum n f = x00.
Proof. induction n as [|n IH]; intros H; cbn; [done|]. rewrite IH by (intros; apply H; lia). rewrite H by lia. reflexivity. Qed.
Lemma xsum_xor n f g : xsum n (fun i => xor (f i) (g i)) = xor (xsum n f) (xsum n g).
Proof. induction n as [|n IH]; cbn; [reflexivity|]. rewrite IH. ring. Qed.
Lemma xsum_mul n c f : xsum n (fun i => gf_mul c (f i)) = gf_mul c (xsum n f).
Proof. induction n as [|n IH]; cbn; [now rewrite mul_0_r|]. rewrite IH. ring. Qed.
Lemma xsum_swap n m f : xsum n (fun i => xsum m (fun j => f i j)) = xsum m (fun j => xsum n (fun i => f i j)).
Proof. induction n as [|n IH]; cbn; [symmetry; now apply xsum_zero|]. rewrite IH. symmetry. apply (xsum_xor m (fun j => xsum n (fun i => f i j)) (fun j => f n j)). Qed.
Lemma xsum_one n k f : (k < n)%nat -> (forall i, (i < n)%nat -> i <> k -> f i = x00) -> xsum n f = f k.
Proof.
  induction n as [|n IH]; intros H Z0; [lia|]. cbn. destruct (Nat.eq_dec k n) as [->|N].
  - rewrite xsum_zero; [apply xor_0_l|]. intros i Hi. apply Z0; lia.
  - rewrite IH by (try lia; intros; apply Z0; lia). rewrite (Z0 n) by lia. apply xor_0_r.
Qed.
Lemma xsum_two n k l f : (k < n)%nat -> (l < n)%nat -> k <> l -> (forall i, (i < n)%nat -> i <> k -> i <> l -> f i = x00) -> xsum n f = xor (f k) (f l).
Proof.
  intros Hk Hl N Z0. rewrite <- (xsum_ext n (fun i => xor (if i =? k then f k else x00) (if i =? k then x00 else f i))).
  - rewrite xsum_xor. f_equal.
    + rewrite (xsum_one n k) by (try done; intros i Hi Ni; apply Nat.eqb_neq in Ni; now rewrite Ni). now rewrite Nat.eqb_refl.
    + rewrite (xsum_one n l); [apply Nat.eqb_neq in N; now rewrite Nat.eqb_sym, N|done|]. intros i Hi Ni. destruct (Nat.eqb_spec i k); [done|]. now apply Z0.
  - intros i Hi. destruct (Nat.eqb_spec i k) as [->|]; [apply xor_0_r|apply xor_0_l].
Qed.
Lemma xsum_app n m f : xsum (n + m) f = xor (xsum n f) (xsum m (fun i => f (n + i))).
Proof. induction m as [|m IH]; cbn; [now rewrite Nat.add_0_r, xor_0_r|]. rewrite Nat.add_succ_r. cbn. rewrite IH. ring. Qed.
Lemma xsum_S_l n f : xsum (S n) f = xor (f 0) (xsum n (fun i => f (S i))).
Proof. induction n as [|n IH]; [cbn; ring|]. cbn in IH |- *. rewrite IH. ring. Qed.
