(* The algebra of the ML-KEM transform modulo q: what one level does to the
   residues, why the levels undo each other, and why they turn the product
   modulo X^256 + 1 into products modulo X^2 - c. *)
From Coq Require Import ZArith List Lia Bool Zdiv Setoid Morphisms.
Import ListNotations.
From Verif Require Import NttModel NttProofs.
Open Scope Z_scope.

Local Ltac dec := repeat match goal with
  | |- context [(?a =? ?b)%nat] => first
      [ replace (a =? b)%nat with true by (symmetry; apply Nat.eqb_eq; lia)
      | replace (a =? b)%nat with false by (symmetry; apply Nat.eqb_neq; lia)]
  | |- context [(?a <? ?b)%nat] => first
      [ replace (a <? b)%nat with true by (symmetry; apply Nat.ltb_lt; lia)
      | replace (a <? b)%nat with false by (symmetry; apply Nat.ltb_ge; lia)]
  end.

(* ---------- residues ---------- *)

(* congruence modulo q *)
Inductive qeq (a b : Z) : Prop := qeq_mk : eqm Q a b -> qeq a b.
Infix "==" := qeq (at level 70).

Lemma qeq_get a b : a == b -> a mod Q = b mod Q.
Proof. now intros []. Qed.

Global Instance qeq_equiv : Equivalence qeq.
Proof.
  split; [intros a; split; reflexivity | intros a b []; split; now symmetry | intros a b c [] []; split; etransitivity; eauto].
Qed.
Global Instance qeq_add : Proper (qeq ==> qeq ==> qeq) Z.add.
Proof. intros a b [H] c d [K]. split. now apply Zplus_eqm. Qed.
Global Instance qeq_sub : Proper (qeq ==> qeq ==> qeq) Z.sub.
Proof. intros a b [H] c d [K]. split. now apply Zminus_eqm. Qed.
Global Instance qeq_mul : Proper (qeq ==> qeq ==> qeq) Z.mul.
Proof. intros a b [H] c d [K]. split. now apply Zmult_eqm. Qed.
Global Instance qeq_opp : Proper (qeq ==> qeq) Z.opp.
Proof. intros a b [H]. split. now apply Zopp_eqm. Qed.

Lemma qeq_pow a b n : a == b -> a ^ Z.of_nat n == b ^ Z.of_nat n.
Proof.
  intros H. induction n as [|n IH]; [reflexivity|].
  rewrite Nat2Z.inj_succ, !Z.pow_succ_r by lia. now rewrite IH, H.
Qed.

Lemma qeq_intro a b k : a = b + Q * k -> a == b.
Proof. intros ->. split. unfold eqm. rewrite (Z.mul_comm Q). apply Z_mod_plus_full. Qed.

Lemma qeq_mod a : a mod Q == a.
Proof. split. unfold eqm. apply Z.mod_mod. unfold Q. lia. Qed.

Lemma qeq_w16 x : -32768 <= x < 32768 -> w16 x == x.
Proof. intros H. rewrite w16_id by auto. reflexivity. Qed.

(* the inverse of 2^16 *)
Lemma fqmul_qeq a b : -32768 <= a < 32768 -> Z.abs b < Q -> fqmul a b == 169 * (a * b).
Proof.
  intros Ha Hb. destruct (fqmul_spec a b Ha Hb) as [_ [k E]].
  transitivity (169 * (fqmul a b * 65536)).
  - apply qeq_intro with (- 3327 * fqmul a b). unfold Q. lia.
  - rewrite E. apply qeq_intro with (169 * k). ring.
Qed.

Lemma barrett_qeq a : -32768 <= a < 32768 -> barrett_reduce a == a.
Proof. intros H. destruct (barrett_spec a H) as [_ [k E]]. now apply qeq_intro with k. Qed.

(* ---------- sums ---------- *)

Fixpoint sum (n : nat) (f : nat -> Z) : Z :=
  match n with O => 0 | S n' => sum n' f + f n' end.

Lemma sum_eq n f g : (forall i, (i < n)%nat -> f i = g i) -> sum n f = sum n g.
Proof. induction n as [|n IH]; intros H; cbn; [reflexivity|]. rewrite IH by auto. now rewrite H by lia. Qed.

Lemma sum_qeq n f g : (forall i, (i < n)%nat -> f i == g i) -> sum n f == sum n g.
Proof. induction n as [|n IH]; intros H; cbn; [reflexivity|]. rewrite IH by auto. now rewrite H by lia. Qed.

Lemma sum_add n f g : sum n (fun i => f i + g i) = sum n f + sum n g.
Proof. induction n; cbn; lia. Qed.

Lemma sum_scal n c f : sum n (fun i => c * f i) = c * sum n f.
Proof. induction n; cbn; lia. Qed.

Lemma sum_app m n f : sum (m + n) f = sum m f + sum n (fun i => f (m + i)%nat).
Proof. induction n; [rewrite Nat.add_0_r; cbn; lia|]. rewrite Nat.add_succ_r. cbn. lia. Qed.

Lemma sum_double n f : sum (2 * n) f = sum n (fun t => f (2 * t)%nat + f (2 * t + 1)%nat).
Proof.
  induction n as [|n IH]; [reflexivity|].
  replace (2 * S n)%nat with (S (S (2 * n))) by lia. cbn [sum]. rewrite IH.
  replace (2 * n + 1)%nat with (S (2 * n)) by lia. lia.
Qed.

(* ---------- the roots ---------- *)

Definition zp (k : nat) : Z := (zeta k * 169) mod Q.

(* the root of the block at node [h] of the tree of moduli: X^n - croot h *)
Definition croot (h : nat) : Z :=
  if (h =? 1)%nat then -1
  else if (h mod 2 =? 0)%nat then zp (h / 2) else - zp (h / 2).

Lemma zp_square h : (1 <= h < 128)%nat -> zp h * zp h == croot h.
Proof.
  intros H. assert (C : forallb (fun h => Z.eqb ((zp h * zp h) mod Q) (croot h mod Q)) (seq 1 127) = true)
    by (vm_compute; reflexivity).
  rewrite forallb_forall in C. split. apply Z.eqb_eq. apply C. apply in_seq. lia.
Qed.

Lemma zp_inverse N b : In N [1;2;4;8;16;32;64]%nat -> (b < N)%nat ->
  zp (N + b) * zp (2 * N - 1 - b) == -1.
Proof.
  intros HN Hb.
  assert (C : forallb (fun N => forallb (fun b =>
            Z.eqb ((zp (N + b) * zp (2 * N - 1 - b)) mod Q) (-1 mod Q)) (seq 0 N))
            [1;2;4;8;16;32;64]%nat = true) by (vm_compute; reflexivity).
  rewrite forallb_forall in C. specialize (C N HN). rewrite forallb_forall in C.
  split. apply Z.eqb_eq. apply C. apply in_seq. lia.
Qed.

Lemma zeta_small k : Z.abs (zeta k) < Q.
Proof.
  destruct (Nat.lt_ge_cases k 128).
  - assert (C : forallb (fun k => Z.ltb (Z.abs (zeta k)) Q) (seq 0 128) = true) by (vm_compute; reflexivity).
    rewrite forallb_forall in C. apply Z.ltb_lt. apply C. apply in_seq. lia.
  - unfold zeta. rewrite nth_overflow by (cbn; lia). cbn. unfold Q. lia.
Qed.

Lemma fqmul_zeta k x : -32768 <= x < 32768 -> - Q < fqmul (zeta k) x < Q /\ fqmul (zeta k) x == zp k * x.
Proof.
  intros H. rewrite fqmul_comm. pose proof (zeta_small k). split; [now apply fqmul_spec|].
  rewrite fqmul_qeq by auto. unfold zp. rewrite qeq_mod.
  replace (169 * (x * zeta k)) with (zeta k * 169 * x) by ring. reflexivity.
Qed.

(* ---------- one level on residues ---------- *)

Definition F (len N : nat) (a : nat -> Z) (i : nat) : Z :=
  let z := zp (N + i / (2 * len)) in
  if (i mod (2 * len) <? len)%nat then a i + z * a (i + len)%nat else a (i - len)%nat - z * a i.

Definition G (len N : nat) (a : nat -> Z) (i : nat) : Z :=
  let z := zp (2 * N - 1 - i / (2 * len)) in
  if (i mod (2 * len) <? len)%nat then a i + a (i + len)%nat else z * (a i - a (i - len)%nat).

Definition feq (f g : nat -> Z) : Prop := forall i, (i < 256)%nat -> f i == g i.

Lemma feq_trans f g h : feq f g -> feq g h -> feq f h.
Proof. intros H1 H2 i Hi. etransitivity; [now apply H1 | now apply H2]. Qed.
Lemma feq_sym f g : feq f g -> feq g f.
Proof. intros H i Hi. symmetry. now apply H. Qed.

Definition small (B : Z) (r : list Z) : Prop := forall i, (i < 256)%nat -> Z.abs (get r i) < B.

Lemma croot_even h : (1 <= h)%nat -> croot (2 * h) = zp h.
Proof.
  intros H. unfold croot. dec. rewrite Nat.mul_comm, Nat.mod_mul, Nat.div_mul by lia. reflexivity.
Qed.
Lemma croot_odd h : (1 <= h)%nat -> croot (2 * h + 1) = - zp h.
Proof.
  intros H. unfold croot. dec.
  replace ((2 * h + 1) mod 2)%nat with 1%nat by (apply Nat.mod_unique with h; lia).
  replace ((2 * h + 1) / 2)%nat with h by (apply Nat.div_unique with 1%nat; lia). reflexivity.
Qed.

Section Level.
Variables (len N : nat).
Hypothesis HN : (2 * len * N = 256)%nat.

Lemma block_low i : (i < 256)%nat -> (i mod (2 * len) < len)%nat ->
  (i + len < 256)%nat /\ ((i + len) / (2 * len) = i / (2 * len))%nat /\
  ((i + len) mod (2 * len) = i mod (2 * len) + len)%nat /\ (i / (2 * len) < N)%nat.
Proof.
  intros Hi Hm. assert (Hl : (2 * len <> 0)%nat) by lia.
  pose proof (Nat.div_mod i (2 * len) Hl).
  assert (i / (2 * len) < N)%nat by (apply Nat.div_lt_upper_bound; lia).
  split; [nia|]. split; [|split; [|auto]]; symmetry.
  - apply Nat.div_unique with (i mod (2 * len) + len)%nat; lia.
  - apply Nat.mod_unique with (i / (2 * len))%nat; lia.
Qed.

Lemma block_high i : (i < 256)%nat -> (len <= i mod (2 * len))%nat ->
  (len <= i)%nat /\ ((i - len) / (2 * len) = i / (2 * len))%nat /\
  ((i - len) mod (2 * len) = i mod (2 * len) - len)%nat /\ (i / (2 * len) < N)%nat /\
  (i mod (2 * len) < 2 * len)%nat.
Proof.
  intros Hi Hm. assert (Hl : (2 * len <> 0)%nat) by lia.
  pose proof (Nat.div_mod i (2 * len) Hl). pose proof (Nat.mod_upper_bound i (2 * len) Hl).
  assert (i / (2 * len) < N)%nat by (apply Nat.div_lt_upper_bound; lia).
  split; [lia|]. split; [|split; [|auto]]; symmetry.
  - apply Nat.div_unique with (i mod (2 * len) - len)%nat; lia.
  - apply Nat.mod_unique with (i / (2 * len))%nat; lia.
Qed.

Lemma F_feq a b : feq a b -> feq (F len N a) (F len N b).
Proof.
  intros H i Hi. unfold feq in H. unfold F. destruct (Nat.ltb_spec (i mod (2 * len)) len).
  - destruct (block_low i Hi) as [B1 _]; auto. now rewrite !H by lia.
  - destruct (block_high i Hi) as [B1 _]; auto. now rewrite !H by lia.
Qed.

Lemma G_feq a b : feq a b -> feq (G len N a) (G len N b).
Proof.
  intros H i Hi. unfold feq in H. unfold G. destruct (Nat.ltb_spec (i mod (2 * len)) len).
  - destruct (block_low i Hi) as [B1 _]; auto. now rewrite !H by lia.
  - destruct (block_high i Hi) as [B1 _]; auto. now rewrite !H by lia.
Qed.

Lemma F_scal s a i : F len N (fun i => s * a i) i = s * F len N a i.
Proof. unfold F. destruct (_ <? _)%nat; ring. Qed.
Lemma G_scal s a i : G len N (fun i => s * a i) i = s * G len N a i.
Proof. unfold G. destruct (_ <? _)%nat; ring. Qed.

Hypothesis Hin : In N [1;2;4;8;16;32;64]%nat.

Lemma GF a : feq (G len N (F len N a)) (fun i => 2 * a i).
Proof.
  intros i Hi. unfold G. destruct (Nat.ltb_spec (i mod (2 * len)) len) as [L|L].
  - destruct (block_low i Hi L) as (B1 & B2 & B3 & B4).
    unfold F. rewrite B2, B3. dec. rewrite Nat.add_sub.
    apply qeq_intro with 0. ring.
  - destruct (block_high i Hi L) as (B1 & B2 & B3 & B4 & B5).
    unfold F. rewrite B2, B3. dec. rewrite Nat.sub_add by lia.
    pose proof (zp_inverse N (i / (2 * len)) Hin B4) as Z.
    set (z := zp (N + i / (2 * len))) in *. set (z' := zp (2 * N - 1 - i / (2 * len))) in *.
    replace (z' * (a (i - len)%nat - z * a i - (a (i - len)%nat + z * a i)))
      with (-2 * (z * z') * a i) by ring.
    rewrite Z. apply qeq_intro with 0. ring.
Qed.

Lemma FG a : feq (F len N (G len N a)) (fun i => 2 * a i).
Proof.
  intros i Hi. unfold F. destruct (Nat.ltb_spec (i mod (2 * len)) len) as [L|L].
  - destruct (block_low i Hi L) as (B1 & B2 & B3 & B4).
    unfold G. rewrite B2, B3. dec. rewrite Nat.add_sub.
    pose proof (zp_inverse N (i / (2 * len)) Hin B4) as Z.
    set (z := zp (N + i / (2 * len))) in *. set (z' := zp (2 * N - 1 - i / (2 * len))) in *.
    rewrite Z.mul_assoc, Z. apply qeq_intro with 0. ring.
  - destruct (block_high i Hi L) as (B1 & B2 & B3 & B4 & B5).
    unfold G. rewrite B2, B3. dec. rewrite Nat.sub_add by lia.
    pose proof (zp_inverse N (i / (2 * len)) Hin B4) as Z.
    set (z := zp (N + i / (2 * len))) in *. set (z' := zp (2 * N - 1 - i / (2 * len))) in *.
    rewrite Z.mul_assoc, Z. apply qeq_intro with 0. ring.
Qed.

(* the machine level agrees with the level on residues while nothing overflows *)
Lemma level_F B r : small B r -> B + Q <= 32768 ->
  small (B + Q) (level len N r) /\ feq (get (level len N r)) (F len N (get r)).
Proof.
  intros S HB.
  assert (K : forall i, (i < 256)%nat ->
    Z.abs (get (level len N r) i) < B + Q /\ get (level len N r) i == F len N (get r) i).
  { intros i Hi. unfold level. rewrite get_map_seq by lia. unfold flevel, F.
    destruct (Nat.ltb_spec (i mod (2 * len)) len) as [L|L].
    - destruct (block_low i Hi L) as (B1 & _ & _ & _).
      pose proof (S i Hi). pose proof (S (i + len)%nat B1).
      destruct (fqmul_zeta (N + i / (2 * len)) (get r (i + len))) as [R E]; [unfold Q in *; lia|].
      rewrite w16_id by (unfold Q in *; lia). split; [unfold Q in *; lia|]. now rewrite E.
    - destruct (block_high i Hi L) as (B1 & _).
      pose proof (S i Hi). pose proof (S (i - len)%nat ltac:(lia)).
      destruct (fqmul_zeta (N + i / (2 * len)) (get r i)) as [R E]; [unfold Q in *; lia|].
      rewrite w16_id by (unfold Q in *; lia). split; [unfold Q in *; lia|]. now rewrite E. }
  split; intros i Hi; apply K; auto.
Qed.

Lemma ilevel_G r : small Q r ->
  small Q (ilevel len (2 * N - 1) r) /\ feq (get (ilevel len (2 * N - 1) r)) (G len N (get r)).
Proof.
  intros S.
  assert (K : forall i, (i < 256)%nat ->
    Z.abs (get (ilevel len (2 * N - 1) r) i) < Q /\ get (ilevel len (2 * N - 1) r) i == G len N (get r) i).
  { intros i Hi. unfold ilevel. rewrite get_map_seq by lia. unfold ilevel_at, G.
    destruct (Nat.ltb_spec (i mod (2 * len)) len) as [L|L].
    - destruct (block_low i Hi L) as (B1 & _ & _ & _).
      pose proof (S i Hi). pose proof (S (i + len)%nat B1).
      rewrite w16_id by (unfold Q in *; lia).
      destruct (barrett_spec (get r i + get r (i + len))) as [R _]; [unfold Q in *; lia|].
      split; [unfold Q in *; lia|]. apply barrett_qeq. unfold Q in *; lia.
    - destruct (block_high i Hi L) as (B1 & _).
      pose proof (S i Hi). pose proof (S (i - len)%nat ltac:(lia)).
      rewrite w16_id by (unfold Q in *; lia).
      destruct (fqmul_zeta (2 * N - 1 - i / (2 * len)) (get r i - get r (i - len))) as [R E]; [unfold Q in *; lia|].
      split; [unfold Q in *; lia|]. exact E. }
  split; intros i Hi; apply K; auto.
Qed.

(* evaluation: one level halves the block and squares roots away *)
Definition evald (n : nat) (M : nat) (a0 a : nat -> Z) : Prop :=
  forall i, (i < 256)%nat ->
  a i == sum M (fun t => a0 (i mod n + t * n)%nat * croot (M + i / n) ^ Z.of_nat t).

Lemma HN1 : (1 <= N <= 64)%nat.
Proof. cbn in Hin. lia. Qed.

Lemma pow_double w c t : w * w == c -> w ^ Z.of_nat (2 * t) == c ^ Z.of_nat t.
Proof.
  intros H. replace (Z.of_nat (2 * t)) with (2 * Z.of_nat t) by lia.
  rewrite Z.pow_mul_r by lia. apply qeq_pow. rewrite Z.pow_2_r. exact H.
Qed.

(* the two halves of a block of size 2*len, evaluated at a root of its constant *)
Lemma eval_halves a0 c w o M : w * w == c ->
  sum M (fun t => a0 (o + t * (2 * len))%nat * c ^ Z.of_nat t) +
  w * sum M (fun t => a0 (o + len + t * (2 * len))%nat * c ^ Z.of_nat t) ==
  sum (2 * M) (fun t => a0 (o + t * len)%nat * w ^ Z.of_nat t).
Proof.
  intros H. rewrite sum_double. rewrite <- sum_scal, <- sum_add. apply sum_qeq. intros t _.
  replace (o + 2 * t * len)%nat with (o + t * (2 * len))%nat by lia.
  replace (o + (2 * t + 1) * len)%nat with (o + len + t * (2 * len))%nat by lia.
  replace (Z.of_nat (2 * t + 1)) with (Z.succ (Z.of_nat (2 * t))) by lia.
  rewrite Z.pow_succ_r by lia. rewrite (pow_double w c t H). apply qeq_intro with 0. ring.
Qed.

Lemma F_evald a0 a : evald (2 * len) N a0 a -> evald len (2 * N) a0 (F len N a).
Proof.
  intros H i Hi. assert (Hl : (2 * len <> 0)%nat) by lia. pose proof HN1 as H1.
  pose proof (Nat.div_mod i (2 * len) Hl) as DM. pose proof (Nat.mod_upper_bound i (2 * len) Hl).
  set (b := (i / (2 * len))%nat) in *. set (o := (i mod (2 * len))%nat) in *.
  unfold F. fold b o. destruct (Nat.ltb_spec o len) as [L|L].
  - destruct (block_low i Hi L) as (B1 & B2 & B3 & B4). fold b in B2, B4. fold o in B3.
    replace (i / len)%nat with (2 * b)%nat by (apply Nat.div_unique with o; lia).
    replace (i mod len)%nat with o by (apply Nat.mod_unique with (2 * b)%nat; lia).
    replace (2 * N + 2 * b)%nat with (2 * (N + b))%nat by lia. rewrite croot_even by lia.
    rewrite (H i Hi), (H (i + len)%nat B1). rewrite B2, B3. fold b o.
    apply eval_halves, zp_square. lia.
  - destruct (block_high i Hi L) as (B1 & B2 & B3 & B4 & B5). fold b in B2, B4. fold o in B3, B5.
    replace (i / len)%nat with (2 * b + 1)%nat by (apply Nat.div_unique with (o - len)%nat; lia).
    replace (i mod len)%nat with (o - len)%nat by (apply Nat.mod_unique with (2 * b + 1)%nat; lia).
    replace (2 * N + (2 * b + 1))%nat with (2 * (N + b) + 1)%nat by lia. rewrite croot_odd by lia.
    rewrite (H (i - len)%nat ltac:(lia)), (H i Hi). rewrite B2, B3. fold b o.
    set (z := zp (N + b)).
    pose proof (eval_halves a0 (croot (N + b)) (- z) (o - len) N) as E.
    rewrite <- E.
    + replace (o - len + len)%nat with o by lia. apply qeq_intro with 0. ring.
    + rewrite Z.mul_opp_opp. apply zp_square. lia.
Qed.

(* ---------- products modulo X^n - c ---------- *)

Definition mono (n : nat) (c : Z) (e k : nat) : Z :=
  if (e mod n =? k)%nat then c ^ Z.of_nat (e / n) else 0.

Definition pmul (n : nat) (c : Z) (a b : nat -> Z) (k : nat) : Z :=
  sum n (fun i => sum n (fun j => a i * b j * mono n c (i + j) k)).

(* block by block, [p] holds the products of the blocks of [a] and [b] *)
Definition prodd (n M : nat) (a b p : nat -> Z) : Prop :=
  forall m k, (m < M)%nat -> (k < n)%nat ->
  p (m * n + k)%nat == pmul n (croot (M + m)) (fun i => a (m * n + i)%nat) (fun i => b (m * n + i)%nat) k.

Lemma mono_halves c w e k : w * w == c -> (0 < len)%nat -> (k < len)%nat ->
  mono (2 * len) c e k + w * mono (2 * len) c e (k + len) == mono len w e k.
Proof.
  intros H Hl Hk. unfold mono. assert (Hl2 : (2 * len <> 0)%nat) by lia.
  pose proof (Nat.div_mod e (2 * len) Hl2). pose proof (Nat.mod_upper_bound e (2 * len) Hl2).
  set (t := (e / (2 * len))%nat) in *. set (o := (e mod (2 * len))%nat) in *.
  destruct (Nat.lt_ge_cases o len) as [L|L].
  - replace (e / len)%nat with (2 * t)%nat by (apply Nat.div_unique with o; lia).
    replace (e mod len)%nat with o by (apply Nat.mod_unique with (2 * t)%nat; lia).
    dec. destruct (Nat.eqb_spec o k).
    + rewrite (pow_double w c t H). apply qeq_intro with 0. ring.
    + apply qeq_intro with 0. ring.
  - replace (e / len)%nat with (2 * t + 1)%nat by (apply Nat.div_unique with (o - len)%nat; lia).
    replace (e mod len)%nat with (o - len)%nat by (apply Nat.mod_unique with (2 * t + 1)%nat; lia).
    dec. destruct (Nat.eqb_spec (o - len) k).
    + dec. replace (Z.of_nat (2 * t + 1)) with (Z.succ (Z.of_nat (2 * t))) by lia.
      rewrite Z.pow_succ_r by lia. rewrite (pow_double w c t H). apply qeq_intro with 0. ring.
    + dec. apply qeq_intro with 0. ring.
Qed.

Lemma mono_shift w e k : (0 < len)%nat -> mono len w (e + len) k = w * mono len w e k.
Proof.
  intros Hl. unfold mono. replace (e + len)%nat with (e + 1 * len)%nat by lia.
  rewrite Nat.mod_add, Nat.div_add by lia. destruct (_ =? _)%nat; [|ring].
  replace (Z.of_nat (e / len + 1)) with (Z.succ (Z.of_nat (e / len))) by lia.
  rewrite Z.pow_succ_r by lia. reflexivity.
Qed.

(* reducing a product modulo X^(2*len) - c to one modulo X^len - w *)
Lemma pmul_halves c w a b k : w * w == c -> (0 < len)%nat -> (k < len)%nat ->
  pmul (2 * len) c a b k + w * pmul (2 * len) c a b (k + len) ==
  pmul len w (fun i => a i + w * a (i + len)%nat) (fun i => b i + w * b (i + len)%nat) k.
Proof.
  intros H Hl Hk. unfold pmul. rewrite <- sum_scal, <- sum_add.
  transitivity (sum (2 * len) (fun i => sum (2 * len) (fun j => a i * b j * mono len w (i + j) k))).
  { apply sum_qeq. intros i _. rewrite <- sum_scal, <- sum_add. apply sum_qeq. intros j _.
    rewrite <- (mono_halves c w (i + j) k H Hl Hk). apply qeq_intro with 0. ring. }
  replace (2 * len)%nat with (len + len)%nat by lia.
  rewrite sum_app, <- sum_add. apply sum_qeq. intros i _.
  rewrite !sum_app, <- !sum_add. apply sum_qeq. intros j _.
  replace (i + (len + j))%nat with (i + j + len)%nat by lia.
  replace (len + i + j)%nat with (i + j + len)%nat by lia.
  replace (len + i + (len + j))%nat with (i + j + len + len)%nat by lia.
  rewrite !mono_shift by lia. rewrite (Nat.add_comm len i), (Nat.add_comm len j).
  apply qeq_intro with 0. ring.
Qed.

Lemma pmul_qeq n c a a' b b' k : (forall i, (i < n)%nat -> a i == a' i) -> (forall i, (i < n)%nat -> b i == b' i) ->
  pmul n c a b k == pmul n c a' b' k.
Proof.
  intros H1 H2. unfold pmul. apply sum_qeq. intros i Hi. apply sum_qeq. intros j Hj.
  now rewrite H1, H2.
Qed.

Lemma F_low a m o : (m < N)%nat -> (o < len)%nat ->
  F len N a (m * (2 * len) + o) = a (m * (2 * len) + o)%nat + zp (N + m) * a (m * (2 * len) + (o + len))%nat.
Proof.
  intros Hm Ho. unfold F.
  replace ((m * (2 * len) + o) / (2 * len))%nat with m by (apply Nat.div_unique with o; lia).
  replace ((m * (2 * len) + o) mod (2 * len))%nat with o by (apply Nat.mod_unique with m; lia).
  dec. now rewrite Nat.add_assoc.
Qed.

Lemma F_high a m o : (m < N)%nat -> (o < len)%nat ->
  F len N a (m * (2 * len) + (o + len)) = a (m * (2 * len) + o)%nat - zp (N + m) * a (m * (2 * len) + (o + len))%nat.
Proof.
  intros Hm Ho. unfold F.
  replace ((m * (2 * len) + (o + len)) / (2 * len))%nat with m by (apply Nat.div_unique with (o + len)%nat; lia).
  replace ((m * (2 * len) + (o + len)) mod (2 * len))%nat with (o + len)%nat by (apply Nat.mod_unique with m; lia).
  dec. now replace (m * (2 * len) + (o + len) - len)%nat with (m * (2 * len) + o)%nat by lia.
Qed.

Lemma F_prodd a b p : prodd (2 * len) N a b p ->
  prodd len (2 * N) (F len N a) (F len N b) (F len N p).
Proof.
  intros H m' k Hm' Hk. unfold prodd in H. pose proof HN1 as H1. assert (Hl : (0 < len)%nat) by lia.
  set (m := (m' / 2)%nat). pose proof (Nat.div_mod m' 2 ltac:(lia)) as D. fold m in D.
  pose proof (Nat.mod_upper_bound m' 2 ltac:(lia)) as U.
  assert (Hm : (m < N)%nat) by lia.
  destruct (Nat.eq_dec (m' mod 2) 0) as [E|E].
  - assert (Em : m' = (2 * m)%nat) by lia. rewrite Em.
    replace (2 * N + 2 * m)%nat with (2 * (N + m))%nat by lia. rewrite croot_even by lia.
    replace (2 * m * len)%nat with (m * (2 * len))%nat by lia.
    rewrite F_low by lia. rewrite (H m k) by lia. rewrite (H m (k + len)%nat) by lia.
    rewrite (pmul_halves _ (zp (N + m))) by (try apply zp_square; lia).
    apply pmul_qeq; intros i Hi; rewrite F_low by lia; reflexivity.
  - assert (Em : m' = (2 * m + 1)%nat) by lia. rewrite Em.
    replace (2 * N + (2 * m + 1))%nat with (2 * (N + m) + 1)%nat by lia. rewrite croot_odd by lia.
    replace ((2 * m + 1) * len + k)%nat with (m * (2 * len) + (k + len))%nat by lia.
    rewrite F_high by lia. rewrite (H m k) by lia. rewrite (H m (k + len)%nat) by lia.
    set (z := zp (N + m)).
    pose proof (pmul_halves (croot (N + m)) (- z) (fun i => a (m * (2 * len) + i)%nat)
                  (fun i => b (m * (2 * len) + i)%nat) k) as P.
    etransitivity; [|etransitivity; [apply P|]]; try lia.
    + apply qeq_intro with 0. ring.
    + rewrite Z.mul_opp_opp. apply zp_square. lia.
    + apply pmul_qeq; intros i Hi; cbv beta;
        replace ((2 * m + 1) * len + i)%nat with (m * (2 * len) + (i + len))%nat by lia;
        rewrite F_high by lia; apply qeq_intro with 0; unfold z; ring.
Qed.
End Level.

(* ---------- the seven levels ---------- *)

Definition FF (a : nat -> Z) : nat -> Z :=
  F 2 64 (F 4 32 (F 8 16 (F 16 8 (F 32 4 (F 64 2 (F 128 1 a)))))).
Definition GG (a : nat -> Z) : nat -> Z :=
  G 128 1 (G 64 2 (G 32 4 (G 16 8 (G 8 16 (G 4 32 (G 2 64 a)))))).

Lemma FF_feq a b : feq a b -> feq (FF a) (FF b).
Proof. intros H. unfold FF. repeat (apply F_feq; [reflexivity|]). exact H. Qed.
Lemma GG_feq a b : feq a b -> feq (GG a) (GG b).
Proof. intros H. unfold GG. repeat (apply G_feq; [reflexivity|]). exact H. Qed.

Local Ltac inlist := cbn; repeat first [left; reflexivity | right].

Lemma G_step len N s a b : (2 * len * N = 256)%nat -> In N [1;2;4;8;16;32;64]%nat ->
  feq a (fun i => s * F len N b i) -> feq (G len N a) (fun i => (2 * s) * b i).
Proof.
  intros H1 H2 H i Hi. rewrite (G_feq len N H1 _ _ H i Hi). cbv beta.
  rewrite G_scal. rewrite (GF len N H1 H2 b i Hi). apply qeq_intro with 0. ring.
Qed.

Lemma F_step len N s a b : (2 * len * N = 256)%nat -> In N [1;2;4;8;16;32;64]%nat ->
  feq a (fun i => s * G len N b i) -> feq (F len N a) (fun i => (2 * s) * b i).
Proof.
  intros H1 H2 H i Hi. rewrite (F_feq len N H1 _ _ H i Hi). cbv beta.
  rewrite F_scal. rewrite (FG len N H1 H2 b i Hi). apply qeq_intro with 0. ring.
Qed.

Lemma GG_FF s a : feq (GG (fun i => s * FF a i)) (fun i => 128 * s * a i).
Proof.
  intros i Hi. transitivity (2 * (2 * (2 * (2 * (2 * (2 * (2 * s)))))) * a i).
  - unfold GG, FF. revert i Hi.
    repeat (apply G_step; [reflexivity | inlist | ]). intros i _. reflexivity.
  - apply qeq_intro with 0. ring.
Qed.

Lemma FF_GG s a : feq (FF (fun i => s * GG a i)) (fun i => 128 * s * a i).
Proof.
  intros i Hi. transitivity (2 * (2 * (2 * (2 * (2 * (2 * (2 * s)))))) * a i).
  - unfold GG, FF. revert i Hi.
    repeat (apply F_step; [reflexivity | inlist | ]). intros i _. reflexivity.
  - apply qeq_intro with 0. ring.
Qed.

Lemma FF_eval a : evald 2 128 a (FF a).
Proof.
  unfold FF.
  apply (F_evald 2 64 eq_refl ltac:(inlist)), (F_evald 4 32 eq_refl ltac:(inlist)),
        (F_evald 8 16 eq_refl ltac:(inlist)), (F_evald 16 8 eq_refl ltac:(inlist)),
        (F_evald 32 4 eq_refl ltac:(inlist)), (F_evald 64 2 eq_refl ltac:(inlist)),
        (F_evald 128 1 eq_refl ltac:(inlist)).
  intros i Hi. cbn [sum]. rewrite Nat.mod_small by lia. rewrite Nat.mul_0_l, Nat.add_0_r.
  rewrite Z.pow_0_r. apply qeq_intro with 0. ring.
Qed.

Lemma FF_prod a b p : prodd 256 1 a b p -> prodd 2 128 (FF a) (FF b) (FF p).
Proof.
  intros H. unfold FF.
  apply (F_prodd 2 64 eq_refl ltac:(inlist)), (F_prodd 4 32 eq_refl ltac:(inlist)),
        (F_prodd 8 16 eq_refl ltac:(inlist)), (F_prodd 16 8 eq_refl ltac:(inlist)),
        (F_prodd 32 4 eq_refl ltac:(inlist)), (F_prodd 64 2 eq_refl ltac:(inlist)),
        (F_prodd 128 1 eq_refl ltac:(inlist)), H.
Qed.

(* the machine transforms on residues: eight multiples of q fit in an i16 *)
Lemma forward_FF r : small Q r -> feq (get (forward r)) (FF (get r)) /\ small (8 * Q) (forward r).
Proof.
  intros S. unfold forward, FF.
  destruct (level_F 128 1 eq_refl Q r S) as [S1 E1]; [unfold Q; lia|].
  destruct (level_F 64 2 eq_refl _ _ S1) as [S2 E2]; [unfold Q; lia|].
  destruct (level_F 32 4 eq_refl _ _ S2) as [S3 E3]; [unfold Q; lia|].
  destruct (level_F 16 8 eq_refl _ _ S3) as [S4 E4]; [unfold Q; lia|].
  destruct (level_F 8 16 eq_refl _ _ S4) as [S5 E5]; [unfold Q; lia|].
  destruct (level_F 4 32 eq_refl _ _ S5) as [S6 E6]; [unfold Q; lia|].
  destruct (level_F 2 64 eq_refl _ _ S6) as [S7 E7]; [unfold Q; lia|].
  split.
  - repeat (eapply feq_trans; [eassumption|]; apply F_feq; [reflexivity|]).
    intros i _. reflexivity.
  - intros i Hi. pose proof (S7 i Hi). unfold Q in *. lia.
Qed.

Lemma backward_GG r : small Q r -> feq (get (backward r)) (GG (get r)) /\ small Q (backward r).
Proof.
  intros S. unfold backward, GG.
  destruct (ilevel_G 2 64 eq_refl r S) as [S1 E1].
  destruct (ilevel_G 4 32 eq_refl _ S1) as [S2 E2].
  destruct (ilevel_G 8 16 eq_refl _ S2) as [S3 E3].
  destruct (ilevel_G 16 8 eq_refl _ S3) as [S4 E4].
  destruct (ilevel_G 32 4 eq_refl _ S4) as [S5 E5].
  destruct (ilevel_G 64 2 eq_refl _ S5) as [S6 E6].
  destruct (ilevel_G 128 1 eq_refl _ S6) as [S7 E7].
  split; [|exact S7].
  repeat (eapply feq_trans; [eassumption|]; apply G_feq; [reflexivity|]).
  intros i _. reflexivity.
Qed.
