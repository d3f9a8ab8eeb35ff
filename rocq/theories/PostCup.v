(** Cup products and the Bockstein map of cocycles. *)
From Coq Require Import List Arith ZArith Bool Lia.
From Verif Require Import TwoGroupModel TwoGroupProps PostModel PostProps.
Import ListNotations.
Open Scope Z_scope.

Lemma sum_split n k a : sum (n + k) a = sum n a + sum k (fun i => a (n + i)%nat).
Proof. induction k as [|k IH]; [rewrite Nat.add_0_r; cbn; lia|]. rewrite Nat.add_succ_r. cbn [sum]. rewrite IH. lia. Qed.
Lemma sum_front n a : sum (S n) a = a 0%nat + sum n (fun i => a (S i)).
Proof. change (S n) with (1 + n)%nat. rewrite sum_split. cbn [sum Nat.add]. lia. Qed.
Lemma sign_add i j : sign (i + j) = sign i * sign j.
Proof. unfold sign. rewrite Nat.even_add. destruct (Nat.even i), (Nat.even j); reflexivity. Qed.
Lemma face_front g t p i : (p + 1 <= length t)%nat -> (i <= p)%nat -> firstn p (face g t i) = face g (firstn (p + 1) t) i /\ skipn p (face g t i) = skipn (p + 1) t.
Proof.
  intros L Hi. assert (Lf : length (firstn (p + 1) t) = (p + 1)%nat) by (apply firstn_length_le; lia). assert (Lt : length (face g t i) = (length t - 1)%nat) by (apply face_length; lia). split.
  - apply (nth_ext _ _ 0%nat 0%nat); [rewrite firstn_length, Lt, face_length by lia; lia|]. intros k Hk. rewrite firstn_length_le in Hk by lia. rewrite nth_firstn' by exact Hk. rewrite !nth_face by lia. rewrite !nth_firstn' by lia. reflexivity.
  - apply (nth_ext _ _ 0%nat 0%nat); [rewrite !skipn_length; lia|]. intros k Hk. rewrite skipn_length in Hk. rewrite !nth_skipn'. rewrite nth_face by lia. replace (p + k + 1 <? i)%nat with false by (symmetry; apply Nat.ltb_ge; lia). replace (p + k + 1 =? i)%nat with false by (symmetry; apply Nat.eqb_neq; lia). f_equal. lia.
Qed.
Lemma face_back g t p i : (0 < i)%nat -> (p + i <= length t)%nat -> firstn p (face g t (p + i)) = firstn p t /\ skipn p (face g t (p + i)) = face g (skipn p t) i.
Proof.
  intros Hi L. assert (Lt : length (face g t (p + i)) = (length t - 1)%nat) by (apply face_length; lia). assert (Ls : length (skipn p t) = (length t - p)%nat) by apply skipn_length. split.
  - apply (nth_ext _ _ 0%nat 0%nat); [rewrite !firstn_length, Lt; lia|]. intros k Hk. rewrite firstn_length_le in Hk by lia. rewrite !nth_firstn' by exact Hk. rewrite nth_face by lia. replace (k + 1 <? p + i)%nat with true by (symmetry; apply Nat.ltb_lt; lia). reflexivity.
  - apply (nth_ext _ _ 0%nat 0%nat); [rewrite skipn_length, Lt, face_length by lia; lia|]. intros k Hk. rewrite skipn_length in Hk. rewrite nth_skipn', !nth_face by lia. rewrite !nth_skipn'.
    replace (p + k + 1 <? p + i)%nat with (k + 1 <? i)%nat by (destruct (Nat.ltb_spec (k + 1) i), (Nat.ltb_spec (p + k + 1) (p + i)); lia). replace (p + k + 1 =? p + i)%nat with (k + 1 =? i)%nat by (destruct (Nat.eqb_spec (k + 1) i), (Nat.eqb_spec (p + k + 1) (p + i)); lia). rewrite Nat.add_assoc. reflexivity.
Qed.
Lemma face_last g t n : length t = S n -> face g t (S n) = firstn n t.
Proof. intros L. unfold face. cbn zeta. rewrite L. replace (S n =? 0)%nat with false by reflexivity. rewrite Nat.eqb_refl. replace (S n - 1)%nat with n by lia. reflexivity. Qed.
Lemma face_first g t : face g t 0 = skipn 1 t. Proof. destruct t; reflexivity. Qed.
Lemma skipn_skipn' (t : list nat) a b : skipn a (skipn b t) = skipn (b + a) t.
Proof. revert t. induction b as [|b IH]; intros t; [reflexivity|]. destruct t; cbn [skipn Nat.add]; [destruct a; reflexivity|apply IH]. Qed.
(** The rule of Leibniz for functions of tuples. *)
Lemma leibniz g p q (F H : list nat -> Z) t : length t = (p + q + 1)%nat ->
  sum (p + q + 2) (fun i => sign i * (F (firstn p (face g t i)) * H (skipn p (face g t i)))) =
  sum (p + 2) (fun i => sign i * F (face g (firstn (p + 1) t) i)) * H (skipn (p + 1) t) + sign p * F (firstn p t) * sum (q + 2) (fun i => sign i * H (face g (skipn p t) i)).
Proof.
  intros L. replace (p + q + 2)%nat with ((p + 1) + (q + 1))%nat by lia. rewrite sum_split.
  rewrite (sum_ext (p + 1) _ (fun i => H (skipn (p + 1) t) * (sign i * F (face g (firstn (p + 1) t) i)))).
  2: { intros i Hi. destruct (face_front g t p i) as [-> ->]; [lia|lia|]. ring. }
  rewrite (sum_ext (q + 1) _ (fun i => sign p * F (firstn p t) * (sign (S i) * H (face g (skipn p t) (S i))))).
  2: { intros i Hi. replace (p + 1 + i)%nat with (p + S i)%nat by lia. destruct (face_back g t p (S i)) as [-> ->]; [lia|lia|]. rewrite sign_add. ring. }
  rewrite !sum_mul. replace (p + 2)%nat with (S (p + 1)) by lia. replace (q + 2)%nat with (S (q + 1)) by lia. rewrite (sum_front (q + 1)). cbn [sum].
  replace (face g (firstn (p + 1) t) (p + 1)) with (firstn p t). 2: { replace (p + 1)%nat with (S p) by lia. rewrite face_last by (apply firstn_length_le; lia). rewrite firstn_firstn. f_equal. lia. }
  rewrite face_first, skipn_skipn'. change (sign 0) with 1. replace (sign (p + 1)) with (- sign p) by (rewrite Nat.add_1_r, sign_S; reflexivity). ring.
Qed.
Definition cocycle_sum (g : group) (m n : nat) (f : list nat) : Prop := forall t, In t (tuples (order g) (n + 1)) -> sum (n + 2) (fun i => sign i * read (order g) f (face g t i)) mod Z.of_nat m = 0.
Lemma cocycle_iff g m n f : (0 < m)%nat -> (is_cocycle g m n f = true <-> cocycle_sum g m n f).
Proof.
  intros Hm. unfold is_cocycle, cocycle_sum. rewrite forallb_forall. split.
  - intros H t Ht. pose proof (proj1 (tuples_in _ _ _) Ht) as [L _]. rewrite <- coboundary_sum by exact L. specialize (H _ (in_map (fun t => Z.to_nat (coboundary_at g n f t mod Z.of_nat m)) _ _ Ht)). apply Nat.eqb_eq in H. pose proof (Z.mod_pos_bound (coboundary_at g n f t) (Z.of_nat m)). lia.
  - intros H x Hx. apply in_map_iff in Hx as (t & <- & Ht). pose proof (proj1 (tuples_in _ _ _) Ht) as [L _]. rewrite coboundary_sum by exact L. rewrite (H t Ht). reflexivity.
Qed.
Lemma slices g p q t : In t (tuples (order g) (p + q)) -> In (firstn p t) (tuples (order g) p) /\ In (skipn p t) (tuples (order g) q).
Proof.
  intros Ht. apply tuples_in in Ht as [L R]. rewrite <- (firstn_skipn p t) in R. split; apply tuples_in; (split; [rewrite ?firstn_length_le, ?skipn_length; lia|intros x Hx; apply R, in_app_iff; auto]).
Qed.
(** The cup product of two cocycles is a cocycle, and so is the cup square of a cocycle. *)
Theorem C133_cup g m p q f h : is_group g -> (0 < m)%nat -> is_cocycle g m p f = true -> is_cocycle g m q h = true -> is_cocycle g m (p + q) (cup g m p q f h) = true.
Proof.
  intros G Hm Cf Ch. rewrite cocycle_iff in Cf, Ch by exact Hm. apply cocycle_iff; [exact Hm|]. intros t Ht. pose proof (proj1 (tuples_in _ _ _) Ht) as [L R].
  rewrite (sum_mod _ _ (fun i => sign i * (read (order g) f (firstn p (face g t i)) * read (order g) h (skipn p (face g t i))))).
  - rewrite (leibniz g p q (read (order g) f) (read (order g) h) t L). replace (p + q + 1)%nat with ((p + 1) + q)%nat in Ht by lia. destruct (slices g (p + 1) q t Ht) as [T1 _]. replace (p + 1 + q)%nat with (p + (q + 1))%nat in Ht by lia. destruct (slices g p (q + 1) t Ht) as [_ T2].
    rewrite Zplus_mod, Zmult_mod, (Cf _ T1), (Zmult_mod (sign p * _)), (Ch _ T2). rewrite Z.mul_0_l, Z.mul_0_r, !Zmod_0_l. reflexivity.
  - intros i Hi. replace (p + q + 1)%nat with (S (p + q)) in Ht by lia. assert (Tf : In (face g t i) (tuples (order g) (p + q))) by (apply face_tuple; [exact G|exact Ht|lia]). unfold read at 1. unfold cup. rewrite read_map by exact Tf. rewrite Nat2Z.inj_mod, Nat2Z.inj_mul. apply Zmult_mod_idemp_r.
Qed.
Corollary C133_cup_square g m n f : is_group g -> (0 < m)%nat -> is_cocycle g m n f = true -> is_cocycle g m (n + n) (cup_square g m n f) = true.
Proof. intros G Hm C. exact (C133_cup g m n n f f G Hm C C). Qed.
(** The Bockstein map sends cocycles modulo two to cocycles modulo two. *)
Theorem C133_bockstein g n c : is_group g -> (forall x, In x c -> (x < 2)%nat) -> is_cocycle g 2 n c = true -> is_cocycle g 2 (n + 1) (bockstein g n c) = true.
Proof.
  intros G B C. rewrite cocycle_iff in C by lia. apply cocycle_iff; [lia|]. assert (Lift : map (fun v => (v mod 4)%nat) c = c) by (rewrite <- (map_id c) at 2; apply map_ext_in; intros x Hx; apply Nat.mod_small; specialize (B x Hx); lia).
  intros t Ht. pose proof (proj1 (tuples_in _ _ _) Ht) as [L R]. replace (n + 1 + 1)%nat with (S (n + 1)) in Ht by lia.
  set (S_ := fun u => sum (n + 2) (fun i => sign i * read (order g) c (face g u i))). set (b := fun u => (S_ u mod 4) / 2).
  assert (V : forall u, In u (tuples (order g) (n + 1)) -> read (order g) (bockstein g n c) u = b u /\ S_ u = 4 * (S_ u / 4) + 2 * b u).
  { intros u Hu. pose proof (proj1 (tuples_in _ _ _) Hu) as [Lu _]. pose proof (C u Hu) as Cu. fold (S_ u) in Cu. change (Z.of_nat 2) with 2 in Cu. pose proof (Z.mod_pos_bound (S_ u) 4 ltac:(lia)). pose proof (Z.div_mod (S_ u) 4 ltac:(lia)). pose proof (Z.div_mod (S_ u) 2 ltac:(lia)).
    pose proof (Z.div_mod (S_ u mod 4) 2 ltac:(lia)). pose proof (Z.mod_pos_bound (S_ u mod 4) 2 ltac:(lia)). assert (b u = 0 \/ b u = 1) by (unfold b; lia). split; [|unfold b in *; lia].
    unfold read, bockstein. rewrite Lift. unfold coboundary. rewrite map_map, read_map by exact Hu. rewrite coboundary_sum by exact Lu. fold (S_ u). change (Z.of_nat 4) with 4. rewrite Nat2Z.inj_mod, Nat2Z.inj_div, Z2Nat.id by lia. change (Z.of_nat 2) with 2. fold (b u). apply Z.mod_small. lia. }
  assert (Face : forall j, (j < n + 3)%nat -> In (face g t j) (tuples (order g) (n + 1))) by (intros j Hj; apply face_tuple; [exact G|exact Ht|lia]).
  assert (Zero : sum (n + 3) (fun j => sign j * S_ (face g t j)) = 0).
  { replace (n + 3)%nat with (S (n + 2)) by lia. rewrite <- (alternate (fun j i => sign j * (sign i * read (order g) c (face g (face g t j) i))) (n + 2)).
    - apply sum_ext. intros j Hj. unfold S_. rewrite sum_mul. reflexivity.
    - intros i j Lij Lj. rewrite (C129_faces g t i j G R Lij) by lia. destruct j as [|j]; [lia|]. replace (S j - 1)%nat with j by lia. rewrite sign_S. ring. }
  replace (n + 1 + 2)%nat with (n + 3)%nat by lia. change (Z.of_nat 2) with 2.
  rewrite (sum_ext (n + 3) (fun i => sign i * read (order g) (bockstein g n c) (face g t i)) (fun j => sign j * b (face g t j))) by (intros j Hj; rewrite (proj1 (V _ (Face j Hj))); reflexivity).
  rewrite (sum_ext (n + 3) (fun j => sign j * S_ (face g t j)) (fun j => 4 * (sign j * (S_ (face g t j) / 4)) + 2 * (sign j * b (face g t j)))) in Zero by (intros j Hj; rewrite (proj2 (V _ (Face j Hj))) at 1; ring).
  rewrite (sum_add (n + 3) (fun j => 4 * (sign j * (S_ (face g t j) / 4))) (fun j => 2 * (sign j * b (face g t j)))), !sum_mul in Zero.
  set (X := sum (n + 3) (fun j => sign j * b (face g t j))) in *. set (Y := sum (n + 3) (fun j => sign j * (S_ (face g t j) / 4))) in *. replace X with (- Y * 2) by lia. apply Z_mod_mult.
Qed.
Example C133_example_cup : let x := [0; 1]%nat in is_cocycle (cyclic 2) 2 1 x = true /\ cup_square (cyclic 2) 2 1 x = [0; 0; 0; 1]%nat /\ bockstein (cyclic 2) 1 x = [0; 0; 0; 1]%nat.
Proof. vm_compute. repeat split; reflexivity. Qed.
