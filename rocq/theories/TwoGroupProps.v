(** C129: finite groups, crossed modules and faces of the nerve. *)
From Coq Require Import List Arith Bool Lia.
Import ListNotations.
From Verif Require Import TwoGroupModel.

(** A multiplication table is a group. *)
Record is_group (g : group) : Prop := {
  g_closed : forall a b, a < order g -> b < order g -> mul g a b < order g;
  g_id : gid g < order g;
  g_assoc : forall a b c, a < order g -> b < order g -> c < order g -> mul g (mul g a b) c = mul g a (mul g b c);
  g_left : forall a, a < order g -> mul g (gid g) a = a;
  g_right : forall a, a < order g -> mul g a (gid g) = a;
  g_inv : forall a, a < order g -> exists b, b < order g /\ mul g a b = gid g }.

Lemma inv_both g a : is_group g -> a < order g -> exists b, b < order g /\ mul g a b = gid g /\ mul g b a = gid g.
Proof.
  intros G La. destruct (g_inv g G a La) as (b & Lb & E). exists b. split; [exact Lb|]. split; [exact E|]. destruct (g_inv g G b Lb) as (c & Lc & F).
  assert (a = c). { rewrite <- (g_right g G a La), <- F, <- (g_assoc g G a b c La Lb Lc), E. apply g_left; assumption. } subst c. exact F.
Qed.
Lemma cancel g a b c : is_group g -> a < order g -> b < order g -> c < order g -> mul g a b = mul g a c -> b = c.
Proof.
  intros G La Lb Lc E. destruct (inv_both g a G La) as (i & Li & _ & I). rewrite <- (g_left g G b Lb), <- (g_left g G c Lc), <- I, !(g_assoc g G) by assumption. rewrite E. reflexivity.
Qed.
(** [inverse] does not panic on a group and returns the two-sided inverse. *)
Theorem C129_inverse g a : is_group g -> a < order g -> exists b, inverse g a = Some b /\ b < order g /\ mul g a b = gid g /\ mul g b a = gid g.
Proof.
  intros G La. destruct (inv_both g a G La) as (b & Lb & E & F). exists b. split; [|auto]. unfold inverse. destruct (find _ _) as [c|] eqn:Q.
  - apply find_some in Q as [Hc Ec]. apply in_seq in Hc. apply Nat.eqb_eq in Ec. f_equal. apply (cancel g a); [assumption|assumption|lia|assumption|congruence].
  - exfalso. assert (K : (mul g a b =? gid g) = false) by (apply (find_none _ _ Q b), in_seq; lia). apply Nat.eqb_neq in K. contradiction.
Qed.
Lemma cyclic_order m : order (cyclic m) = m.
Proof. unfold order, cyclic. cbn [table]. rewrite map_length, seq_length. reflexivity. Qed.
Lemma cyclic_mul m a b : a < m -> b < m -> mul (cyclic m) a b = (a + b) mod m.
Proof.
  intros La Lb. unfold mul, cyclic. cbn [table].
  rewrite (nth_indep _ [] ((fun a => map (fun b => (a + b) mod m) (seq 0 m)) 0)) by (rewrite map_length, seq_length; exact La).
  rewrite (map_nth (fun a => map (fun b => (a + b) mod m) (seq 0 m))), seq_nth by exact La. cbn beta.
  rewrite (nth_indep _ 0 ((fun b => (0 + a + b) mod m) 0)) by (rewrite map_length, seq_length; exact Lb). rewrite (map_nth (fun b => (0 + a + b) mod m)), seq_nth by exact Lb. reflexivity.
Qed.
Theorem C129_cyclic m : 0 < m -> is_group (cyclic m) /\ order (cyclic m) = m /\ forall a b, a < m -> b < m -> mul (cyclic m) a b = (a + b) mod m.
Proof.
  intros Hm. split; [|split; [apply cyclic_order|apply cyclic_mul]]. constructor; rewrite cyclic_order; cbn [gid cyclic].
  - intros a b La Lb. rewrite cyclic_mul by assumption. apply Nat.mod_upper_bound. lia.
  - exact Hm.
  - intros a b c La Lb Lc. rewrite (cyclic_mul m a b), (cyclic_mul m b c) by assumption. rewrite !cyclic_mul by (assumption || (apply Nat.mod_upper_bound; lia)).
    rewrite Nat.add_mod_idemp_l, Nat.add_mod_idemp_r by lia. f_equal. lia.
  - intros a La. rewrite cyclic_mul by assumption. apply Nat.mod_small, La.
  - intros a La. rewrite cyclic_mul, Nat.add_0_r by assumption. apply Nat.mod_small, La.
  - intros a La. exists ((m - a) mod m). assert (L : (m - a) mod m < m) by (apply Nat.mod_upper_bound; lia). split; [exact L|]. rewrite cyclic_mul by assumption.
    rewrite Nat.add_mod_idemp_r by lia. replace (a + (m - a)) with m by lia. apply Nat.mod_same. lia.
Qed.

(** ** Counting *)
Lemma count_fibres (f : nat -> nat) (k : nat) : forall (ys l : list nat), NoDup ys -> (forall x, In x l -> In (f x) ys) ->
  (forall y, In y ys -> length (filter (fun x => f x =? y) l) = k) -> length l = length ys * k.
Proof.
  assert (Split : forall (p : nat -> bool) l, length l = length (filter p l) + length (filter (fun x => negb (p x)) l)).
  { intros p. induction l as [|x l IH]; [reflexivity|]. cbn [filter]. destruct (p x); cbn [negb length]; lia. }
  induction ys as [|y ys IH]; intros l N C F.
  - destruct l as [|x l]; [reflexivity|]. destruct (C x (or_introl eq_refl)).
  - inversion N as [|? ? Ny Nys]; subst. rewrite (Split (fun x => f x =? y) l), (F y (or_introl eq_refl)).
    rewrite (IH (filter (fun x => negb (f x =? y)) l) Nys); [cbn; lia| |].
    + intros x Hx. apply filter_In in Hx as [Hx E]. destruct (C x Hx) as [E' | H]; [|exact H]. subst y. rewrite Nat.eqb_refl in E. discriminate.
    + intros z Hz. rewrite <- (F z (or_intror Hz)). clear - Hz Ny. induction l as [|x l IH]; [reflexivity|]. cbn [filter]. destruct (f x =? y) eqn:E; cbn [negb filter]; [|destruct (f x =? z); cbn [length]; lia].
      apply Nat.eqb_eq in E. destruct (f x =? z) eqn:E'; [|exact IH]. apply Nat.eqb_eq in E'. subst. contradiction.
Qed.
Lemma inj_length (l1 l2 : list nat) (f : nat -> nat) : NoDup l1 -> (forall x, In x l1 -> In (f x) l2) -> (forall x y, In x l1 -> In y l1 -> f x = f y -> x = y) -> length l1 <= length l2.
Proof.
  intros N I J. rewrite <- (map_length f). apply NoDup_incl_length.
  - clear I. induction l1 as [|x l1 IH]; cbn [map]; [constructor|]. inversion N as [|? ? Nx Nl]; subst. constructor; [|apply IH; [exact Nl|intros; apply J; cbn; auto]].
    intros H. apply in_map_iff in H as (y & E & Hy). apply J in E; [subst; contradiction|right; exact Hy|left; reflexivity].
  - intros y Hy. apply in_map_iff in Hy as (x & <- & Hx). exact (I x Hx).
Qed.

(** ** Crossed modules *)
Record is_crossed (c : crossed) : Prop := {
  c_g : is_group (cg c); c_h : is_group (ch c);
  c_range : forall x, x < order (ch c) -> bd c x < order (cg c);
  c_hom : is_homomorphism c = true }.
Lemma hom_iff c : is_homomorphism c = true <-> forall x y, x < order (ch c) -> y < order (ch c) -> bd c (mul (ch c) x y) = mul (cg c) (bd c x) (bd c y).
Proof.
  unfold is_homomorphism. rewrite forallb_forall. split.
  - intros H x y Lx Ly. specialize (H x ltac:(apply in_seq; lia)). rewrite forallb_forall in H. apply Nat.eqb_eq, H, in_seq. lia.
  - intros H x Hx. apply in_seq in Hx. apply forallb_forall. intros y Hy. apply in_seq in Hy. apply Nat.eqb_eq, H; lia.
Qed.
(** [is_homomorphism] decides that the boundary map preserves products. *)
Theorem C129_homomorphism c : is_homomorphism c = true <-> forall x y, x < order (ch c) -> y < order (ch c) -> bd c (mul (ch c) x y) = mul (cg c) (bd c x) (bd c y).
Proof. exact (hom_iff c). Qed.
Definition image (c : crossed) : list nat := nodup Nat.eq_dec (map (bd c) (seq 0 (order (ch c)))).
Lemma image_iff c y : In y (image c) <-> exists x, x < order (ch c) /\ bd c x = y.
Proof.
  unfold image. rewrite nodup_In, in_map_iff. split; intros (x & A & B); exists x; [apply in_seq in B; split; [lia|exact A]|split; [exact B|apply in_seq; lia]].
Qed.
(** The kernel is the list of the elements with trivial boundary, and kernel times image is the whole group. *)
Theorem C129_kernel_image c : is_crossed c -> length (pi_two c) * image_size c = order (ch c) /\ NoDup (pi_two c) /\ forall x, In x (pi_two c) <-> x < order (ch c) /\ bd c x = gid (cg c).
Proof.
  intros [G H R Hm]. rewrite hom_iff in Hm. split; [|split].
  - rewrite <- (seq_length (order (ch c)) 0) at 1. rewrite (count_fibres (bd c) (length (pi_two c)) (image c) (seq 0 (order (ch c)))); [unfold image_size, image; lia|apply NoDup_nodup| |].
    + intros x Hx. apply in_seq in Hx. apply image_iff. exists x. split; [lia|reflexivity].
    + intros y Hy. apply image_iff in Hy as (x0 & L0 & <-). destruct (inv_both (ch c) x0 H L0) as (i & Li & I1 & I2). apply Nat.le_antisymm.
      * apply (inj_length _ _ (mul (ch c) i)); [apply NoDup_filter, seq_NoDup| |].
        -- intros x Hx. apply filter_In in Hx as [Hx E]. apply in_seq in Hx. apply Nat.eqb_eq in E. apply filter_In. assert (Lm : mul (ch c) i x < order (ch c)) by (apply (g_closed _ H); lia).
           split; [apply in_seq; lia|]. apply Nat.eqb_eq, (cancel (cg c) (bd c x0) _ _ G); [apply R, L0|apply R, Lm|apply (g_id _ G)|].
           rewrite <- Hm by lia. rewrite <- (g_assoc _ H), I1, (g_left _ H), (g_right _ G), E by (lia || apply R; lia). reflexivity.
        -- intros x y Hx Hy E. apply filter_In in Hx as [Hx _]. apply filter_In in Hy as [Hy _]. apply in_seq in Hx, Hy. apply (cancel (ch c) i); [exact H|exact Li|lia|lia|exact E].
      * apply (inj_length _ _ (mul (ch c) x0)); [apply NoDup_filter, seq_NoDup| |].
        -- intros x Hx. apply filter_In in Hx as [Hx E]. apply in_seq in Hx. apply Nat.eqb_eq in E. apply filter_In. split; [apply in_seq; pose proof (g_closed _ H x0 x L0 ltac:(lia)); lia|].
           apply Nat.eqb_eq. rewrite Hm, E, (g_right _ G) by (lia || apply R; lia). reflexivity.
        -- intros x y Hx Hy E. apply filter_In in Hx as [Hx _]. apply filter_In in Hy as [Hy _]. apply in_seq in Hx, Hy. apply (cancel (ch c) x0); [exact H|exact L0|lia|lia|exact E].
  - apply NoDup_filter, seq_NoDup.
  - intros x. unfold pi_two. rewrite filter_In, in_seq, Nat.eqb_eq. split; intros [A B]; (split; [lia|exact B]).
Qed.

(** Left cosets of the image. *)
Definition coset (c : crossed) (a b : nat) : Prop := exists x, x < order (ch c) /\ mul (cg c) a (bd c x) = b.
Definition cosetb (c : crossed) (a b : nat) : bool := existsb (fun y => mul (cg c) a y =? b) (image c).
Lemma cosetb_iff c a b : cosetb c a b = true <-> coset c a b.
Proof.
  unfold cosetb, coset. rewrite existsb_exists. split.
  - intros (y & Hy & E). apply image_iff in Hy as (x & L & <-). apply Nat.eqb_eq in E. eauto.
  - intros (x & L & E). exists (bd c x). split; [apply image_iff; eauto|apply Nat.eqb_eq, E].
Qed.
Lemma coset_refl c a : is_crossed c -> a < order (cg c) -> coset c a a.
Proof.
  intros [G H R Hm] La. rewrite hom_iff in Hm. exists (gid (ch c)). pose proof (g_id _ H) as L. split; [exact L|].
  assert (E : bd c (gid (ch c)) = gid (cg c)); [|rewrite E; apply g_right; assumption].
  apply (cancel (cg c) (bd c (gid (ch c)))); [exact G|apply R, L|apply R, L|apply (g_id _ G)|]. rewrite <- Hm, (g_left _ H), (g_right _ G) by (assumption || apply R, L). reflexivity.
Qed.
Lemma coset_sym c a b : is_crossed c -> a < order (cg c) -> coset c a b -> coset c b a.
Proof.
  intros C La (x & L & <-). pose proof (coset_refl c a C La) as _. destruct C as [G H R Hm]. pose proof Hm as Hm'. rewrite hom_iff in Hm. destruct (inv_both (ch c) x H L) as (i & Li & I1 & I2). exists i. split; [exact Li|].
  rewrite (g_assoc _ G) by (assumption || apply R; assumption). rewrite <- Hm, I1 by assumption.
  assert (E : bd c (gid (ch c)) = gid (cg c)); [|rewrite E; apply g_right; assumption]. pose proof (g_id _ H) as Lh.
  apply (cancel (cg c) (bd c (gid (ch c)))); [exact G|apply R, Lh|apply R, Lh|apply (g_id _ G)|]. rewrite <- Hm, (g_left _ H), (g_right _ G) by (assumption || apply R, Lh). reflexivity.
Qed.
Lemma coset_trans c a b d : is_crossed c -> a < order (cg c) -> coset c a b -> coset c b d -> coset c a d.
Proof.
  intros [G H R Hm] La (x & L & <-) (y & Ly & <-). rewrite hom_iff in Hm. exists (mul (ch c) x y). split; [apply (g_closed _ H); assumption|].
  rewrite Hm, (g_assoc _ G) by (assumption || apply R; assumption). reflexivity.
Qed.
Definition least (c : crossed) (a : nat) : nat := match find (fun r => cosetb c r a) (seq 0 (order (cg c))) with Some r => r | None => a end.
Lemma least_ok c a : is_crossed c -> a < order (cg c) -> least c a < order (cg c) /\ coset c (least c a) a.
Proof.
  intros C La. unfold least. destruct (find _ _) as [r|] eqn:E.
  - apply find_some in E as [A B]. apply in_seq in A. split; [lia|apply cosetb_iff, B].
  - split; [exact La|apply coset_refl; assumption].
Qed.
Lemma least_eq c a b : is_crossed c -> a < order (cg c) -> b < order (cg c) -> coset c a b -> least c a = least c b.
Proof.
  intros C La Lb H. unfold least. assert (E : find (fun r => cosetb c r a) (seq 0 (order (cg c))) = find (fun r => cosetb c r b) (seq 0 (order (cg c)))).
  { assert (X : forall r, In r (seq 0 (order (cg c))) -> cosetb c r a = cosetb c r b).
    { intros r Hr. apply in_seq in Hr. apply eq_true_iff_eq. rewrite !cosetb_iff. split; intros K.
      - apply (coset_trans c r a b C); [lia|exact K|exact H].
      - apply (coset_trans c r b a C); [lia|exact K|apply coset_sym; assumption]. }
    induction (seq 0 (order (cg c))) as [|r l IH]; [reflexivity|]. cbn [find]. rewrite (X r (or_introl eq_refl)). destruct (cosetb c r b); [reflexivity|]. apply IH. intros r' Hr'. apply X. right. exact Hr'. }
  rewrite <- E. destruct (find _ _) as [r|] eqn:F; [reflexivity|]. exfalso. assert (K : cosetb c a a = true) by (apply cosetb_iff, coset_refl; assumption).
  rewrite (find_none _ _ F a) in K; [discriminate|]. apply in_seq. lia.
Qed.
(** The order of [pi_one] is exact (the image size divides the group order) and counts the left cosets of the image. *)
Theorem C129_cokernel c : is_crossed c -> pi_one_order c * image_size c = order (cg c) /\
  exists reps, NoDup reps /\ length reps = pi_one_order c /\ forall a, a < order (cg c) -> exists! r, In r reps /\ coset c r a.
Proof.
  intros C. pose proof C as [G H R Hm]. set (n := order (cg c)). set (reps := nodup Nat.eq_dec (map (least c) (seq 0 n))).
  assert (Hr : forall r, In r reps <-> exists a, a < n /\ least c a = r).
  { intros r. unfold reps. rewrite nodup_In, in_map_iff. split; intros (a & A & B); exists a; [apply in_seq in B; split; [lia|exact A]|split; [exact B|apply in_seq; lia]]. }
  assert (Lr : forall r, In r reps -> r < n /\ least c r = r).
  { intros r K. apply Hr in K as (a & La & <-). destruct (least_ok c a C La) as [L K]. split; [exact L|]. apply (least_eq c _ a); assumption. }
  assert (Pos : image_size c <> 0).
  { unfold image_size. fold (image c). assert (K : In (bd c (gid (ch c))) (image c)) by (apply image_iff; exists (gid (ch c)); split; [apply (g_id _ H)|reflexivity]). destruct (image c); [destruct K|discriminate]. }
  assert (E : n = length reps * image_size c).
  { rewrite <- (seq_length n 0) at 1. apply (count_fibres (least c)); [apply NoDup_nodup| |].
    - intros a Ha. apply in_seq in Ha. apply Hr. exists a. split; [lia|reflexivity].
    - intros r K. destruct (Lr r K) as [L Er]. unfold image_size. fold (image c). apply Nat.le_antisymm.
      + destruct (inv_both (cg c) r G L) as (i & Li & I1 & I2). apply (inj_length _ _ (mul (cg c) i)); [apply NoDup_filter, seq_NoDup| |].
        * intros a Ha. apply filter_In in Ha as [Ha E]. apply in_seq in Ha. apply Nat.eqb_eq in E. destruct (least_ok c a C ltac:(lia)) as [_ (x & Lx & Ex)]. rewrite E in Ex. apply image_iff. exists x. split; [exact Lx|].
          rewrite <- Ex, <- (g_assoc _ G), I2, (g_left _ G) by (assumption || apply R; assumption). reflexivity.
        * intros a b Ha Hb Q. apply filter_In in Ha as [Ha _]. apply filter_In in Hb as [Hb _]. apply in_seq in Ha, Hb. apply (cancel (cg c) i); [exact G|exact Li|unfold n in *; lia|unfold n in *; lia|exact Q].
      + apply (inj_length _ _ (mul (cg c) r)); [apply NoDup_nodup| |].
        * intros y Hy. apply image_iff in Hy as (x & Lx & <-). assert (Lm : mul (cg c) r (bd c x) < n) by (apply (g_closed _ G); [exact L|apply R, Lx]). apply filter_In. split; [apply in_seq; lia|].
          apply Nat.eqb_eq. rewrite <- Er at 2. symmetry. apply least_eq; [exact C|exact L|exact Lm|]. exists x. auto.
        * intros y z Hy Hz Q. apply image_iff in Hy as (x & Lx & <-). apply image_iff in Hz as (x' & Lx' & <-). apply (cancel (cg c) r); [exact G|exact L|apply R, Lx|apply R, Lx'|exact Q]. }
  assert (P : length reps = pi_one_order c) by (unfold pi_one_order; fold n; rewrite E; symmetry; apply Nat.div_mul, Pos).
  split; [rewrite <- P; symmetry; exact E|]. exists reps. split; [apply NoDup_nodup|]. split; [exact P|]. intros a La. exists (least c a). split.
  - split; [apply Hr; exists a; auto|apply least_ok; assumption].
  - intros r [K Q]. destruct (Lr r K) as [L <-]. symmetry. apply least_eq; assumption.
Qed.

(** ** Faces *)
Lemma face_length g s i : i <= length s -> 0 < length s -> length (face g s i) = length s - 1.
Proof.
  intros Li L. unfold face. destruct (i =? 0) eqn:E0; [destruct s; cbn; lia|]. apply Nat.eqb_neq in E0. destruct (i =? length s) eqn:En; [apply firstn_length_le; lia|]. apply Nat.eqb_neq in En.
  rewrite app_length, firstn_length_le by lia. cbn [length]. rewrite skipn_length. lia.
Qed.
Lemma nth_skipn' (s : list nat) : forall k p, nth p (skipn k s) 0 = nth (k + p) s 0.
Proof. induction s as [|x s IH]; intros [|k] p; cbn; [destruct p; reflexivity|destruct p; reflexivity|reflexivity|apply IH]. Qed.
Lemma nth_firstn' (s : list nat) : forall k p, p < k -> nth p (firstn k s) 0 = nth p s 0.
Proof. induction s as [|x s IH]; intros [|k] p L; cbn; try lia. destruct p; [reflexivity|]. apply IH. lia. Qed.
Lemma nth_face g s i p : i <= length s -> p < length s - 1 ->
  nth p (face g s i) 0 = if p + 1 <? i then nth p s 0 else if p + 1 =? i then mul g (nth p s 0) (nth (p + 1) s 0) else nth (p + 1) s 0.
Proof.
  intros Li L. unfold face. destruct (i =? 0) eqn:E0.
  - apply Nat.eqb_eq in E0. subst i. destruct (p + 1 <? 0) eqn:A; [apply Nat.ltb_lt in A; lia|]. destruct (p + 1 =? 0) eqn:B; [apply Nat.eqb_eq in B; lia|]. destruct s as [|x s]; cbn [tl]; [destruct p; reflexivity|].
    rewrite Nat.add_1_r. reflexivity.
  - apply Nat.eqb_neq in E0. destruct (i =? length s) eqn:En.
    + apply Nat.eqb_eq in En. replace (p + 1 <? i) with true by (symmetry; apply Nat.ltb_lt; lia). apply nth_firstn'. lia.
    + apply Nat.eqb_neq in En. destruct (p + 1 <? i) eqn:A.
      * apply Nat.ltb_lt in A. rewrite app_nth1 by (rewrite firstn_length_le; lia). apply nth_firstn'. lia.
      * apply Nat.ltb_ge in A. rewrite app_nth2; rewrite firstn_length_le by lia; [|lia]. destruct (p + 1 =? i) eqn:B.
        -- apply Nat.eqb_eq in B. replace (p - (i - 1)) with 0 by lia. cbn [nth]. replace (i - 1) with p by lia. replace i with (p + 1) by lia. reflexivity.
        -- apply Nat.eqb_neq in B. replace (p - (i - 1)) with (S (p - i)) by lia. cbn [nth]. rewrite nth_skipn'. f_equal. lia.
Qed.
(** The simplicial identities hold in every degree for an associative table. *)
Theorem C129_faces g s i j : is_group g -> (forall x, In x s -> x < order g) -> i < j -> j <= length s -> face g (face g s j) i = face g (face g s i) (j - 1).
Proof.
  intros G R Lij Lj. destruct (le_lt_dec (length s) 1) as [Small | Big].
  - assert (j = 1) by lia. assert (i = 0) by lia. subst. destruct s as [|x [|y s]]; cbn in *; try lia. reflexivity.
  - assert (Lf : forall k, k <= length s -> length (face g s k) = length s - 1) by (intros k K; apply face_length; lia).
    assert (N : forall p, p < length s -> nth p s 0 < order g) by (intros p L; apply R, nth_In, L).
    apply (nth_ext _ _ 0 0); [rewrite !face_length; rewrite ?Lf; lia|]. intros p L. rewrite face_length in L; rewrite Lf in *; try lia.
    rewrite !nth_face by (rewrite ?Lf; lia).
    repeat match goal with |- context [?a <? ?b] => destruct (Nat.ltb_spec a b) | |- context [?a =? ?b] => destruct (Nat.eqb_spec a b) end; try lia; try reflexivity; try (f_equal; lia).
    all: try (apply (g_assoc g G); apply N; lia). all: try (symmetry; apply (g_assoc g G); apply N; lia).
Qed.
(** Two of the three faces of a triangle determine it, and any two edges occur: the horns of degree 2 fill uniquely. *)
Theorem C129_horns2 g k x y : is_group g -> k <= 2 -> x < order g -> y < order g ->
  exists! s, length s = 2 /\ (forall e, In e s -> e < order g) /\
    forall i e, In (i, e) (match k with 0 => [(1, x); (2, y)] | 1 => [(0, x); (2, y)] | _ => [(0, x); (1, y)] end) -> face g s i = [e].
Proof.
  intros G Lk Lx Ly. assert (Div : forall a b, a < order g -> b < order g -> exists q, q < order g /\ mul g a q = b).
  { intros a b La Lb. destruct (inv_both g a G La) as (i & Li & I1 & _). exists (mul g i b). split; [apply (g_closed g G); assumption|]. rewrite <- (g_assoc g G), I1 by assumption. apply g_left; assumption. }
  assert (DivR : forall a b, a < order g -> b < order g -> exists q, q < order g /\ mul g q a = b /\ forall q', q' < order g -> mul g q' a = b -> q' = q).
  { intros a b La Lb. destruct (inv_both g a G La) as (i & Li & I1 & I2). exists (mul g b i). split; [apply (g_closed g G); assumption|]. split.
    - rewrite (g_assoc g G), I2 by assumption. apply g_right; assumption.
    - intros q' Lq <-. rewrite (g_assoc g G), I1 by assumption. symmetry. apply g_right; assumption. }
  destruct k as [|[|[|k]]]; [| | |lia].
  - destruct (Div y x Ly Lx) as (q & Lq & E). exists [y; q]. split.
    + split; [reflexivity|]. split; [intros e [<- | [<- | []]]; assumption|]. intros i e [[= <- <-] | [[= <- <-] | []]]; cbn; [rewrite E|]; reflexivity.
    + intros s (Ls & Rs & F). destruct s as [|a [|b [|? ?]]]; try discriminate. pose proof (F 1 x (or_introl eq_refl)) as F1. pose proof (F 2 y (or_intror (or_introl eq_refl))) as F2. cbn in F1, F2. injection F1 as F1. injection F2 as F2. subst a.
      f_equal. f_equal. apply (cancel g y); [exact G|exact Ly|exact Lq|apply Rs; cbn; auto|congruence].
  - exists [y; x]. split.
    + split; [reflexivity|]. split; [intros e [<- | [<- | []]]; assumption|]. intros i e [[= <- <-] | [[= <- <-] | []]]; reflexivity.
    + intros s (Ls & Rs & F). destruct s as [|a [|b [|? ?]]]; try discriminate. pose proof (F 0 x (or_introl eq_refl)) as F1. pose proof (F 2 y (or_intror (or_introl eq_refl))) as F2. cbn in F1, F2. congruence.
  - destruct (DivR x y Lx Ly) as (q & Lq & E & U). exists [q; x]. split.
    + split; [reflexivity|]. split; [intros e [<- | [<- | []]]; assumption|]. intros i e [[= <- <-] | [[= <- <-] | []]]; cbn; [|rewrite E]; reflexivity.
    + intros s (Ls & Rs & F). destruct s as [|a [|b [|? ?]]]; try discriminate. pose proof (F 0 x (or_introl eq_refl)) as F1. pose proof (F 1 y (or_intror (or_introl eq_refl))) as F2. cbn in F1, F2. injection F1 as F1. injection F2 as F2. subst b.
      f_equal. symmetry. apply U; [apply Rs; cbn; auto|exact F2].
Qed.

(** ** Example: doubling on the cyclic group of order 6. *)
Definition doubling : crossed := Crossed (cyclic 6) (cyclic 6) [0; 2; 4; 0; 2; 4].
Example C129_example : is_crossed doubling /\ pi_two doubling = [0; 3] /\ image_size doubling = 3 /\ pi_one_order doubling = 2 /\ inverse (cyclic 6) 2 = Some 4 /\
  face (cyclic 6) [1; 2; 3; 4] 2 = [1; 5; 4].
Proof.
  split; [|vm_compute; repeat split; reflexivity]. constructor; [apply C129_cyclic; lia|apply C129_cyclic; lia| |vm_compute; reflexivity].
  intros x L. cbn [ch cg doubling] in *. rewrite cyclic_order in *. do 6 (destruct x as [|x]; [cbn; lia|]). lia.
Qed.
