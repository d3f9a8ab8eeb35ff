(** C74: pseudo-Boolean constraints, cutting planes and the cardinality theory. *)
From Coq Require Import List Arith ZArith Bool String Lia.
From stdpp Require Import gmap list.
From Verif Require Import RupModel UnifyModel CnfProofs GaussModel XorParity PbModel PbProofs.
Local Open Scope Z_scope.
Local Open Scope list_scope.

(** ** The constraints *)
(** At-least and at-most count the literals that hold. *)
Theorem C74_at_least lits k f : NoDup (map fst lits) ->
  (is_satisfied (at_least lits k) f = true <-> k <= count_true f lits) /\ (is_satisfied (at_most lits k) f = true <-> count_true f lits <= k).
Proof.
  intros Hn. split.
  - unfold is_satisfied. rewrite at_least_lhs by exact Hn. rewrite Z.leb_le. reflexivity.
  - unfold is_satisfied, at_most. rewrite at_least_lhs by (rewrite List.map_map; exact Hn). rewrite count_flip, Z.leb_le. cbn [at_least degree]. lia.
Qed.
(** Addition is exact: what the sum has to spare is what both have to spare. *)
Theorem C74_add_exact a b f : pb_lhs f (add a b) - degree (add a b) = (pb_lhs f a - degree a) + (pb_lhs f b - degree b).
Proof. apply (add_slack f a b). Qed.
Theorem C74_multiply_exact a c a' f : multiply a c = Some a' -> is_satisfied a' f = is_satisfied a f.
Proof.
  unfold multiply. destruct (Z.ltb_spec 0 c) as [Hc |]; [| discriminate]. intros [= <-]. unfold is_satisfied. cbn [degree]. rewrite !lhs_msum. cbn [terms]. rewrite msum_fmap.
  rewrite (msum_ext _ (fun e => c * contribution f e)); [| intros v [x s] _; cbn [fst snd]; rewrite !contribution_eq; destruct (Bool.eqb (f v) s); lia].
  rewrite msum_scale. apply eq_iff_eq_true. rewrite !Z.leb_le. nia.
Qed.
(** Rounding division keeps every solution, for coefficients of any sign. *)
Theorem C74_divide_sound a d a' f : divide_round a d = Some a' -> is_satisfied a f = true -> is_satisfied a' f = true.
Proof.
  unfold divide_round. destruct (Z.ltb_spec 0 d) as [Hd |]; [| discriminate]. intros [= <-]. unfold is_satisfied. cbn [degree]. rewrite !Z.leb_le, !lhs_msum. cbn [terms]. intros H.
  apply (proj2 (ceil_spec d (degree a) Hd)). etransitivity; [exact H |]. rewrite msum_fmap, <- msum_scale.
  apply msum_le. intros v [x s] _. cbn [fst snd]. rewrite !contribution_eq. destruct (Bool.eqb (f v) s); [pose proof (proj1 (ceil_spec d x Hd)); lia | lia].
Qed.
(** Saturation changes nothing while the degree is not negative. *)
Theorem C74_saturate_exact_partial a f : normal a -> 0 <= degree a -> is_satisfied (saturate a) f = is_satisfied a f.
Proof.
  intros Hn Hd. unfold is_satisfied. cbn [saturate degree]. apply eq_iff_eq_true. rewrite !Z.leb_le, !lhs_msum. cbn [saturate terms]. rewrite msum_fmap. split; intros H.
  - etransitivity; [exact H |]. apply msum_le. intros v [x s] _. cbn [fst snd]. rewrite !contribution_eq. destruct (Bool.eqb (f v) s); lia.
  - assert (A : forall (m : gmap nat (Z * bool)), (forall v x s, m !! v = Some (x, s) -> 0 < x) -> degree a <= msum (contribution f) m -> degree a <= msum (fun e => contribution f (fst e, (Z.min (fst (snd e)) (degree a), snd (snd e)))) m /\ 0 <= msum (fun e => contribution f (fst e, (Z.min (fst (snd e)) (degree a), snd (snd e)))) m); [| apply A; [exact Hn | exact H]].
    clear H. intros m. set (g := fun e => contribution f (fst e, (Z.min (fst (snd e)) (degree a), snd (snd e)))).
    assert (B : forall m, (forall v x s, m !! v = Some (x, s) -> 0 < x) -> 0 <= msum g m /\ (degree a <= msum g m \/ msum g m = msum (contribution f) m)).
    { clear m. intros m. induction m as [| v [x s] m E IH] using map_ind; intros P; [rewrite !msum_empty; lia |].
      assert (Px : 0 < x) by (apply (P v x s), lookup_insert).
      destruct IH as [I1 I2]. { intros w y t E'. apply (P w y t). rewrite lookup_insert_ne; [exact E' |]. intros <-. congruence. }
      rewrite !msum_insert by exact E. change (g (v, (x, s))) with (contribution f (v, (Z.min x (degree a), s))). rewrite !contribution_eq. destruct (Bool.eqb (f v) s); lia. }
    intros P H. destruct (B m P) as [B1 B2]. lia.
Qed.
(** With a negative degree saturation turns a constraint that always holds into one that can
    never hold. *)
Theorem C74_saturate_refuted : exists a, normal a /\ (forall f, is_satisfied a f = true) /\ (forall f, is_satisfied (saturate a) f = (negb (f 0%nat) || negb (f 1%nat))) /\ is_contradiction a = false /\ is_contradiction (saturate a) = true.
Proof.
  exists (Pb (<[0%nat := (1, true)]> (<[1%nat := (1, true)]> ∅)) (-1)). split; [| split; [| split; [| split; vm_compute; reflexivity]]].
  - intros v x s. cbn [terms]. destruct (decide (v = 0%nat)) as [-> | D0]; [rewrite lookup_insert; intros [= <- <-]; lia |]. rewrite lookup_insert_ne by congruence.
    destruct (decide (v = 1%nat)) as [-> | D1]; [rewrite lookup_insert; intros [= <- <-]; lia |]. rewrite lookup_insert_ne by congruence. rewrite lookup_empty. discriminate.
  - intros f. unfold is_satisfied, pb_lhs. vm_compute. destruct (f 0%nat), (f 1%nat); reflexivity.
  - intros f. unfold is_satisfied, pb_lhs. vm_compute. destruct (f 0%nat), (f 1%nat); reflexivity.
Qed.
(** The contradiction test is exact for positive coefficients. *)
Theorem C74_contradiction_exact a : normal a -> is_contradiction a = true <-> forall f, is_satisfied a f = false.
Proof.
  intros Hn. unfold is_contradiction. change (sumz _) with (msum (fun e => fst (snd e)) (terms a)). split.
  - intros H f. apply Z.ltb_lt in H. unfold is_satisfied. apply Z.leb_gt. rewrite lhs_msum. eapply Z.le_lt_trans; [| exact H].
    apply msum_le. intros v [x s] E. apply Hn in E. rewrite contribution_eq. cbn [fst snd]. destruct (Bool.eqb (f v) s); lia.
  - intros H. specialize (H (fun v => match terms a !! v with Some t => snd t | None => false end)). unfold is_satisfied in H. apply Z.leb_gt in H. apply Z.ltb_lt.
    rewrite lhs_msum in H. erewrite msum_ext in H; [exact H |]. intros v [x s] E. rewrite contribution_eq, E. cbn [fst snd]. rewrite eqb_reflx. reflexivity.
Qed.
(** Everything the operations build has positive coefficients. *)
Theorem C74_normal : (forall lits k, normal (at_least lits k)) /\ (forall lits k, normal (at_most lits k)) /\ (forall a b, normal a -> normal b -> normal (add a b))
  /\ (forall a c a', normal a -> multiply a c = Some a' -> normal a') /\ (forall a d a', normal a -> divide_round a d = Some a' -> normal a') /\ (forall a, normal a -> 0 < degree a -> normal (saturate a)).
Proof.
  split; [apply at_least_normal |]. split; [apply at_most_normal |]. split; [apply add_normal |]. repeat split.
  - intros a c a' Ha. unfold multiply. destruct (Z.ltb_spec 0 c) as [Hc |]; [| discriminate]. intros [= <-] v x s. cbn [terms]. rewrite lookup_fmap. destruct (terms a !! v) as [[y t] |] eqn:E; [| discriminate]. intros [= <- <-]. apply Ha in E. cbn [fst]. nia.
  - intros a d a' Ha. unfold divide_round. destruct (Z.ltb_spec 0 d) as [Hd |]; [| discriminate]. intros [= <-] v x s. cbn [terms]. rewrite lookup_fmap. destruct (terms a !! v) as [[y t] |] eqn:E; [| discriminate]. intros [= <- <-]. apply Ha in E. cbn [fst]. pose proof (proj1 (ceil_spec d y Hd)). nia.
  - intros a Ha Hd v x s. cbn [saturate terms]. rewrite lookup_fmap. destruct (terms a !! v) as [[y t] |] eqn:E; [| discriminate]. intros [= <- <-]. apply Ha in E. cbn [fst]. lia.
Qed.
(** Cutting-plane derivations, saturating only at a non-negative degree, derive only
    consequences, and a derived contradiction means that the premises have no common solution. *)
Inductive derives (premises : pb -> Prop) : pb -> Prop :=
| d_premise c : premises c -> derives premises c
| d_add a b : derives premises a -> derives premises b -> derives premises (add a b)
| d_multiply a c a' : derives premises a -> multiply a c = Some a' -> derives premises a'
| d_divide a d a' : derives premises a -> divide_round a d = Some a' -> derives premises a'
| d_saturate a : derives premises a -> normal a -> 0 <= degree a -> derives premises (saturate a).
Theorem C74_derivation_sound_partial premises c f : derives premises c -> (forall p, premises p -> is_satisfied p f = true) -> is_satisfied c f = true.
Proof.
  intros D H. induction D as [c P | a b Da IHa Db IHb | a k a' Da IHa E | a d a' Da IHa E | a Da IHa Hn Hd].
  - apply H, P.
  - apply satisfied_slack. rewrite add_slack. apply satisfied_slack in IHa. apply satisfied_slack in IHb. lia.
  - rewrite (C74_multiply_exact _ _ _ f E). exact IHa.
  - eapply C74_divide_sound; [exact E | exact IHa].
  - rewrite C74_saturate_exact_partial by assumption. exact IHa.
Qed.

(** ** The pigeonhole refutation *)
Lemma constant_slack c k : normal c -> (forall f, slack f c = k) -> terms c = ∅ /\ degree c = - k.
Proof.
  intros Hn H. assert (E : terms c = ∅).
  { apply map_eq. intros v. rewrite lookup_empty. destruct (terms c !! v) as [[x s] |] eqn:E; [exfalso | reflexivity]. pose proof (Hn v x s E) as Hx.
    pose proof (H (fun _ => s)) as H1. pose proof (H (fun w => if Nat.eqb w v then negb s else s)) as H2. unfold slack in H1, H2. rewrite !lhs_msum in *.
    rewrite (msum_delete _ _ _ _ E), contribution_eq in H1. rewrite (msum_delete _ _ _ _ E), contribution_eq in H2. rewrite Nat.eqb_refl, eqb_negb1 in H2. rewrite eqb_reflx in H1.
    assert (A : msum (contribution (fun w => if Nat.eqb w v then negb s else s)) (delete v (terms c)) = msum (contribution (fun _ => s)) (delete v (terms c))); [| lia].
    apply msum_ext. intros w [y t] E'. rewrite !contribution_eq. destruct (Nat.eqb_spec w v) as [-> | D]; [rewrite lookup_delete in E'; discriminate | reflexivity]. }
  split; [exact E |]. specialize (H (fun _ => true)). unfold slack in H. rewrite lhs_msum, E, msum_empty in H. lia.
Qed.
Lemma absorb_slack f cs : forall a c, fold_left absorb cs (Some a) = Some c -> slack f c = slack f a + sumz (map (slack f) cs).
Proof.
  induction cs as [| d cs IH]; intros a c E; cbn [fold_left map] in *; [injection E as <-; cbn; lia |].
  apply IH in E. rewrite E, add_slack, sumz_cons. lia.
Qed.
Lemma absorb_some cs : forall a, exists c, fold_left absorb cs (Some a) = Some c.
Proof. induction cs as [| d cs IH]; intros a; cbn [fold_left]; [eexists; reflexivity | apply IH]. Qed.
Lemma absorb_ne cs : cs <> [] -> fold_left absorb cs None <> None.
Proof. destruct cs as [| d cs]; [congruence |]. intros _. cbn [fold_left absorb]. destruct (absorb_some cs d) as [c E]. unfold absorb at 2. rewrite E. discriminate. Qed.
Lemma absorb_none f cs c : fold_left absorb cs None = Some c -> slack f c = sumz (map (slack f) cs).
Proof. destruct cs as [| d cs]; [discriminate |]. cbn [fold_left absorb map]. intros E. rewrite (absorb_slack f _ _ _ E), sumz_cons. lia. Qed.
Lemma absorb_normal cs : forall acc c, fold_left absorb cs acc = Some c -> (forall a, acc = Some a -> normal a) -> (forall d, d ∈ cs -> normal d) -> normal c.
Proof.
  induction cs as [| d cs IH]; intros acc c E Ha Hd; cbn [fold_left] in E; [apply Ha, E |]. apply (IH _ _ E).
  - intros a [= <-]. destruct acc as [a0 |]; [apply add_normal; [apply Ha; reflexivity | apply Hd; left] | apply Hd; left].
  - intros d' I. apply Hd. right. exact I.
Qed.
Lemma count_map f (g : nat -> nat) l : count_true f (map (fun h => (g h, true)) l) = sumz (map (fun h => if f (g h) then 1 else 0) l).
Proof. induction l as [| h l IH]; [reflexivity |]. cbn [map]. rewrite count_cons, IH, sumz_cons. cbn [fst snd]. destruct (f (g h)); reflexivity. Qed.
Lemma sumz_const {A} (l : list A) k : sumz (map (fun _ => k) l) = k * Z.of_nat (length l).
Proof. induction l as [| x l IH]; [cbn; lia |]. cbn [map length]. rewrite sumz_cons, IH. lia. Qed.
Lemma sumz_plus {A} (g h : A -> Z) l : sumz (map (fun x => g x + h x) l) = sumz (map g l) + sumz (map h l).
Proof. induction l as [| x l IH]; [reflexivity |]. cbn [map]. rewrite !sumz_cons, IH. lia. Qed.
Lemma sumz_swap (g : nat -> nat -> Z) l l' : sumz (map (fun i => sumz (map (g i) l')) l) = sumz (map (fun h => sumz (map (fun i => g i h) l)) l').
Proof.
  induction l as [| i l IH]; [cbn [map]; rewrite sumz_const; reflexivity |]. cbn [map]. rewrite sumz_cons, IH, <- sumz_plus. f_equal.
Qed.
(** The whole pigeonhole system sums to "0 at least 1", for any number of pigeons. *)
Theorem C74_pigeonhole n : (1 <= n)%nat -> exists c, php_refutation n = Some c /\ terms c = ∅ /\ degree c = 1.
Proof.
  destruct n as [| holes]; [lia |]. intros _. unfold php_refutation.
  destruct (fold_left absorb (map (pigeon_row holes) (seq 0 (S holes)) ++ map (hole_group (S holes) holes) (seq 0 holes)) None) as [c |] eqn:E.
  2:{ exfalso. revert E. apply absorb_ne. rewrite <- List.cons_seq. discriminate. }
  exists c. split; [reflexivity |]. apply (constant_slack c (-1)).
  - apply (absorb_normal _ _ _ E); [discriminate |]. intros d I. apply elem_of_app in I as [I | I]; apply elem_of_list_fmap in I as (i & -> & _); [apply at_least_normal | apply at_most_normal].
  - intros f. rewrite (absorb_none f _ _ E), List.map_app, sumz_app, !List.map_map.
    rewrite (List.map_ext_in (fun i => slack f (pigeon_row holes i)) (fun i => sumz (map (fun h => if f (i * holes + h)%nat then 1 else 0) (seq 0 holes)) + -1)).
    2:{ intros i _. unfold slack, pigeon_row, pb_clause. rewrite at_least_lhs; [rewrite (count_map f (fun h => (i * holes + h)%nat)); cbn [at_least degree]; lia |].
        rewrite List.map_map. apply NoDup_fmap_2_strong; [intros x y _ _ H; cbn in H; lia | apply NoDup_ListNoDup, seq_NoDup]. }
    rewrite (List.map_ext_in (fun h => slack f (hole_group (S holes) holes h)) (fun h => (-1) * sumz (map (fun i => if f (i * holes + h)%nat then 1 else 0) (seq 0 (S holes))) + 1)).
    2:{ intros h Ih. apply in_seq in Ih. unfold slack, hole_group, at_most. rewrite at_least_lhs.
        - rewrite count_flip, (count_map f (fun i => (i * holes + h)%nat)). cbn [at_least degree]. lia.
        - rewrite !List.map_map. apply NoDup_fmap_2_strong; [intros x y _ _ H; cbn in H; nia | apply NoDup_ListNoDup, seq_NoDup]. }
    rewrite !sumz_plus, !sumz_const, !seq_length, sumz_swap.
    assert (A : forall (g : nat -> Z) l, sumz (map (fun h => -1 * g h) l) = - sumz (map g l)). { intros g l. induction l as [| x l IH]; [reflexivity |]. cbn [map]. rewrite !sumz_cons, IH. lia. }
    rewrite A. lia.
Qed.
