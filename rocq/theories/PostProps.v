(** The coboundary of a coboundary vanishes. *)
From Coq Require Import List Arith ZArith Bool Lia.
From Verif Require Import TwoGroupModel TwoGroupProps PostModel.
Import ListNotations.

(** ** Tables and tuples *)
Lemma idx_app ord t x : idx ord (t ++ [x]) = idx ord t * ord + x.
Proof. unfold idx. rewrite fold_left_app. reflexivity. Qed.
Lemma tuples_in ord n t : In t (tuples ord n) <-> length t = n /\ forall x, In x t -> x < ord.
Proof.
  revert t. induction n as [|n IH]; intros t; cbn [tuples].
  - split; [intros [<- | []]; split; [reflexivity|intros x []]|]. intros [L _]. destruct t; [left; reflexivity|discriminate].
  - rewrite in_flat_map. split.
    + intros (u & Hu & H). apply in_map_iff in H as (e & <- & He). apply in_seq in He. apply IH in Hu as [L R]. split; [rewrite app_length; cbn; lia|]. intros x Hx. apply in_app_iff in Hx as [Hx | [<- | []]]; [exact (R x Hx)|lia].
    + intros [L R]. destruct (exists_last (l := t)) as (u & e & ->); [intros ->; discriminate|]. rewrite app_length in L. cbn in L. exists u. split.
      * apply IH. split; [lia|]. intros x Hx. apply R, in_app_iff. left. exact Hx.
      * apply in_map_iff. exists e. split; [reflexivity|]. apply in_seq. specialize (R e). rewrite in_app_iff in R. specialize (R (or_intror (or_introl eq_refl))). lia.
Qed.
Lemma nth_blocks {A} (F : list nat -> nat -> A) ord (us : list (list nat)) d du : forall i e, i < length us -> e < ord -> nth (i * ord + e) (flat_map (fun t => map (F t) (seq 0 ord)) us) d = F (nth i us du) e.
Proof.
  induction us as [|u us IH]; intros i e Hi He; cbn in Hi; [lia|]. cbn [flat_map]. destruct i as [|i].
  - cbn [Nat.mul Nat.add nth]. rewrite app_nth1 by (rewrite map_length, seq_length; exact He). rewrite (nth_indep _ d (F u 0)) by (rewrite map_length, seq_length; exact He). rewrite map_nth, seq_nth by exact He. reflexivity.
  - rewrite app_nth2 by (rewrite map_length, seq_length; lia). rewrite map_length, seq_length. replace (S i * ord + e - ord) with (i * ord + e) by lia. cbn [nth]. apply IH; lia.
Qed.
Lemma tuples_length ord n : length (tuples ord n) = ord ^ n.
Proof.
  induction n as [|n IH]; cbn [tuples]; [reflexivity|]. assert (L : forall us : list (list nat), length (flat_map (fun t => map (fun e => t ++ [e]) (seq 0 ord)) us) = length us * ord) by (induction us as [|u us I]; cbn [flat_map length]; [reflexivity|rewrite app_length, map_length, seq_length, I; lia]).
  rewrite L, IH. cbn. lia.
Qed.
Lemma idx_lt ord n : forall t, In t (tuples ord n) -> idx ord t < ord ^ n.
Proof.
  induction n as [|n IH]; cbn [tuples]; intros t H; [destruct H as [<- | []]; cbn; lia|]. apply in_flat_map in H as (u & Hu & H). apply in_map_iff in H as (e & <- & He). apply in_seq in He. rewrite idx_app. specialize (IH u Hu). cbn. nia.
Qed.
(** The tuples are listed in the order of their indices. *)
Lemma idx_tuples ord n : forall t, In t (tuples ord n) -> nth (idx ord t) (tuples ord n) [] = t.
Proof.
  induction n as [|n IH]; intros t H; cbn [tuples] in *; [destruct H as [<- | []]; reflexivity|]. apply in_flat_map in H as (u & Hu & H). apply in_map_iff in H as (e & <- & He). apply in_seq in He. rewrite idx_app.
  rewrite (nth_blocks (fun t e => t ++ [e]) ord (tuples ord n) [] []); [rewrite IH by exact Hu; reflexivity|rewrite tuples_length; apply idx_lt, Hu|lia].
Qed.
Lemma read_map ord n F t : In t (tuples ord n) -> nth (idx ord t) (map F (tuples ord n)) 0 = F t.
Proof. intros H. rewrite (nth_indep _ 0 (F [])) by (rewrite map_length, tuples_length; apply idx_lt, H). rewrite map_nth, idx_tuples by exact H. reflexivity. Qed.

(** ** Alternating sums *)
Open Scope Z_scope.
Fixpoint sum (n : nat) (a : nat -> Z) : Z := match n with O => 0 | S n => sum n a + a n end.
Lemma sum_ext n a b : (forall i, (i < n)%nat -> a i = b i) -> sum n a = sum n b.
Proof. induction n as [|n IH]; intros H; cbn [sum]; [reflexivity|]. rewrite IH, H; [reflexivity|lia|intros; apply H; lia]. Qed.
Lemma sum_add n a b : sum n (fun i => a i + b i) = sum n a + sum n b. Proof. induction n as [|n IH]; cbn [sum]; [reflexivity|]. rewrite IH. lia. Qed.
Lemma sum_opp n a : sum n (fun i => - a i) = - sum n a. Proof. induction n as [|n IH]; cbn [sum]; [reflexivity|]. rewrite IH. lia. Qed.
Lemma sum_mul n a k : sum n (fun i => k * a i) = k * sum n a. Proof. induction n as [|n IH]; cbn [sum]; [lia|]. rewrite IH. lia. Qed.
Lemma sum_mod n a b m : (forall i, (i < n)%nat -> a i mod m = b i mod m) -> sum n a mod m = sum n b mod m.
Proof. induction n as [|n IH]; intros H; cbn [sum]; [reflexivity|]. rewrite Zplus_mod, IH, (H n), <- Zplus_mod; [reflexivity|lia|intros; apply H; lia]. Qed.
Lemma alternate (a : nat -> nat -> Z) n : (forall i j, (i < j)%nat -> (j <= n)%nat -> a j i = - a i (j - 1)%nat) -> sum (S n) (fun j => sum n (a j)) = 0.
Proof.
  induction n as [|n IH]; intros H; [reflexivity|]. change (sum (S (S n)) (fun j => sum (S n) (a j))) with (sum (S n) (fun j => sum n (a j) + a j n) + sum (S n) (a (S n))).
  assert (E : sum (S n) (a (S n)) = - sum (S n) (fun j => a j n)). { rewrite <- sum_opp. apply sum_ext. intros i Hi. rewrite H by lia. replace (S n - 1)%nat with n by lia. reflexivity. }
  rewrite E, (sum_add (S n) (fun j => sum n (a j)) (fun j => a j n)). rewrite IH; [apply Z.add_opp_diag_r|]. intros i j Lij Lj. apply H; lia.
Qed.
Lemma sign_S i : sign (S i) = - sign i.
Proof. unfold sign. rewrite Nat.even_succ, <- Nat.negb_even. destruct (Nat.even i); reflexivity. Qed.
Lemma fold_sum F : forall n k v, fold_left (fun v i => v + F i) (seq k n) v = v + sum n (fun i => F (k + i)%nat).
Proof.
  induction n as [|n IH]; intros k v; [cbn; lia|]. rewrite seq_S, fold_left_app, IH. cbn [fold_left sum]. lia.
Qed.
Lemma coboundary_sum g n f t : length t = (n + 1)%nat -> coboundary_at g n f t = sum (n + 2) (fun i => sign i * read (order g) f (face g t i)).
Proof.
  intros L. unfold coboundary_at. cbn zeta. rewrite (fold_sum (fun i => sign i * read (order g) f (firstn (i - 1) t ++ [mul g (nth (i - 1) t 0%nat) (nth i t 0%nat)] ++ skipn (i + 1) t))).
  assert (S0 : forall n a, sum (S n) a = a 0%nat + sum n (fun i => a (S i))) by (clear; induction n as [|n IH]; intros a; [cbn; lia|]; change (sum (S (S n)) a) with (sum (S n) a + a (S n)); rewrite IH; cbn [sum]; lia).
  replace (n + 2)%nat with (S (S n)) by lia. rewrite S0. change (sum (S n) (fun i => sign (S i) * read (order g) f (face g t (S i)))) with (sum n (fun i => sign (S i) * read (order g) f (face g t (S i))) + sign (S n) * read (order g) f (face g t (S n))).
  assert (F0 : face g t 0 = skipn 1 t) by (destruct t; reflexivity). assert (Fn : face g t (S n) = firstn n t). { unfold face. cbn zeta. rewrite L. replace (S n =? 0)%nat with false by reflexivity. replace (S n =? n + 1)%nat with true by (symmetry; apply Nat.eqb_eq; lia). replace (n + 1 - 1)%nat with n by lia. reflexivity. }
  rewrite F0, Fn. change (sign 0) with 1. replace (n + 1)%nat with (S n) by lia. rewrite (sum_ext n (fun i => sign (1 + i) * read (order g) f (firstn (1 + i - 1) t ++ [mul g (nth (1 + i - 1) t 0%nat) (nth (1 + i) t 0%nat)] ++ skipn (1 + i + 1) t)) (fun i => sign (S i) * read (order g) f (face g t (S i)))); [lia|].
  intros i Hi. cbn [Nat.add]. f_equal. unfold face. replace (S i =? 0)%nat with false by reflexivity. replace (S i =? length t)%nat with false by (symmetry; apply Nat.eqb_neq; lia). reflexivity.
Qed.
Lemma face_range g s i : is_group g -> (forall x, In x s -> (x < order g)%nat) -> (i <= length s)%nat -> (0 < length s)%nat -> forall x, In x (face g s i) -> (x < order g)%nat.
Proof.
  intros G R Li L x Hx. destruct (In_nth _ _ 0%nat Hx) as (p & Hp & <-). rewrite face_length in Hp by assumption. rewrite nth_face by assumption.
  assert (N : forall q, (q < length s)%nat -> (nth q s 0 < order g)%nat) by (intros q Hq; apply R, nth_In, Hq). destruct (p + 1 <? i)%nat; [apply N; lia|]. destruct (p + 1 =? i)%nat; [apply (g_closed g G); apply N; lia|apply N; lia].
Qed.
Lemma face_tuple g n t i : is_group g -> In t (tuples (order g) (S n)) -> (i <= S n)%nat -> In (face g t i) (tuples (order g) n).
Proof.
  intros G H Hi. apply tuples_in in H as [L R]. apply tuples_in. split; [rewrite face_length; lia|]. apply face_range; [exact G|exact R|lia|lia].
Qed.
(** The coboundary of a coboundary is zero, in every degree, for every group and modulus. *)
Theorem C133_coboundary_squared g m n f : is_group g -> (0 < m)%nat -> coboundary g m (n + 1) (coboundary g m n f) = repeat 0%nat (order g ^ (n + 2)).
Proof.
  intros G Hm. assert (A : forall t, In t (tuples (order g) (n + 2)) -> coboundary_at g (n + 1) (coboundary g m n f) t mod Z.of_nat m = 0).
  { intros t Ht. pose proof (proj1 (tuples_in _ _ _) Ht) as [L R]. rewrite coboundary_sum by lia. replace (n + 1 + 2)%nat with (S (n + 2)) by lia.
    rewrite (sum_mod _ _ (fun j => sum (n + 2) (fun i => sign j * (sign i * read (order g) f (face g (face g t j) i))))).
    - rewrite (alternate (fun j i => sign j * (sign i * read (order g) f (face g (face g t j) i))) (n + 2)); [reflexivity|]. intros i j Lij Lj. rewrite (C129_faces g t i j G R Lij) by lia. destruct j as [|j]; [lia|]. replace (S j - 1)%nat with j by lia. rewrite sign_S. ring.
    - intros j Hj. replace (n + 2)%nat with (S (n + 1)) in Ht by lia. assert (Tj : In (face g t j) (tuples (order g) (n + 1))) by (apply face_tuple; [exact G|exact Ht|lia]). rewrite sum_mul.
      rewrite <- (coboundary_sum g n f (face g t j)) by (apply tuples_in in Tj; apply Tj). unfold read at 1. unfold coboundary at 1. rewrite read_map by exact Tj. rewrite Z2Nat.id by (apply Z.mod_pos_bound; lia). apply Zmult_mod_idemp_r. }
  unfold coboundary at 1. replace (n + 1 + 1)%nat with (n + 2)%nat by lia. rewrite <- (tuples_length (order g) (n + 2)). revert A. generalize (tuples (order g) (n + 2)). intros ts A. induction ts as [|t ts IH]; cbn [map repeat length]; [reflexivity|]. rewrite A by (left; reflexivity). f_equal. apply IH. intros u Hu. apply A. right. exact Hu.
Qed.
Lemma list_eqb_eq a : forall b, list_eqb a b = true <-> a = b.
Proof.
  induction a as [|x a IH]; intros [|y b]; cbn [list_eqb]; try (split; [discriminate|discriminate]); [split; reflexivity|]. rewrite andb_true_iff, Nat.eqb_eq, IH. split; [intros [-> ->]; reflexivity|intros [= -> ->]; auto].
Qed.
(** The search for a coboundary is exact, and what it finds is a cocycle. *)
Theorem C133_is_coboundary g m n f : is_coboundary g m (n + 1) f = true <-> exists b, length b = (order g ^ n)%nat /\ (forall x, In x b -> (x < m)%nat) /\ coboundary g m n b = f.
Proof.
  unfold is_coboundary. replace (n + 1 - 1)%nat with n by lia. rewrite existsb_exists. split.
  - intros (b & Hb & E). apply tuples_in in Hb as [L R]. apply list_eqb_eq in E. exists b. auto.
  - intros (b & L & R & E). exists b. split; [apply tuples_in; auto|apply list_eqb_eq, E].
Qed.
Theorem C133_coboundary_cocycle g m n f : is_group g -> (0 < m)%nat -> is_coboundary g m (n + 1) f = true -> is_cocycle g m (n + 1) f = true.
Proof.
  intros G Hm H. apply C133_is_coboundary in H as (b & _ & _ & <-). unfold is_cocycle. rewrite C133_coboundary_squared by assumption. apply forallb_forall. intros x Hx. apply repeat_spec in Hx. subst. reflexivity.
Qed.
(** The table of the coboundary holds the alternating sum over the faces of every tuple. *)
Theorem C133_coboundary_value g m n f t : (0 < m)%nat -> length t = (n + 1)%nat -> (forall x, In x t -> (x < order g)%nat) ->
  Z.of_nat (nth (idx (order g) t) (coboundary g m n f) 0%nat) = sum (n + 2) (fun i => sign i * Z.of_nat (nth (idx (order g) (face g t i)) f 0%nat)) mod Z.of_nat m.
Proof.
  intros Hm L R. assert (T : In t (tuples (order g) (n + 1))) by (apply tuples_in; auto). unfold coboundary. rewrite read_map by exact T. rewrite Z2Nat.id by (apply Z.mod_pos_bound; lia). rewrite coboundary_sum by exact L. reflexivity.
Qed.
(** The cube of the generator over the group of order two is a cocycle and no coboundary. *)
Example C133_example : is_group (cyclic 2) /\ is_cocycle (cyclic 2) 2 3 [0; 0; 0; 0; 0; 0; 0; 1]%nat = true /\ is_coboundary (cyclic 2) 2 3 [0; 0; 0; 0; 0; 0; 0; 1]%nat = false /\
  is_coboundary (cyclic 3) 3 2 (coboundary (cyclic 3) 3 1 [0; 1; 1]%nat) = true /\ coboundary (cyclic 3) 3 1 [0; 1; 1]%nat <> repeat 0%nat 9.
Proof. split; [apply C129_cyclic; lia|]. vm_compute. repeat split; try reflexivity. discriminate. Qed.
