(** Pseudo-Boolean constraints: every combination is followed exactly through the slack. *)
From Coq Require Import List Arith ZArith Bool String Lia.
From stdpp Require Import gmap list.
From Verif Require Import RupModel UnifyModel GaussModel PbModel.
Local Open Scope Z_scope.
Local Open Scope list_scope.

Lemma sumz_perm l l' : l ≡ₚ l' -> sumz l = sumz l'.
Proof. induction 1 as [| x l l' H IH | x y l | l l' l'' H IH H' IH']; cbn [sumz fold_right] in *; [reflexivity | change (x + sumz l = x + sumz l'); lia | lia | congruence]. Qed.
Lemma sumz_cons x l : sumz (x :: l) = x + sumz l.
Proof. reflexivity. Qed.
Lemma sumz_app l l' : sumz (l ++ l') = sumz l + sumz l'.
Proof. induction l as [| x l IH]; [reflexivity |]. cbn [app]. rewrite !sumz_cons, IH. lia. Qed.

Definition msum (g : nat * (Z * bool) -> Z) (m : gmap nat (Z * bool)) : Z := sumz (map g (map_to_list m)).
Lemma msum_empty g : msum g ∅ = 0.
Proof. unfold msum. rewrite map_to_list_empty. reflexivity. Qed.
Lemma msum_insert g m v t : m !! v = None -> msum g (<[v := t]> m) = g (v, t) + msum g m.
Proof. intros E. unfold msum. rewrite (sumz_perm _ (map g ((v, t) :: map_to_list m))); [reflexivity |]. apply fmap_Permutation, map_to_list_insert, E. Qed.
Lemma msum_delete g m v t : m !! v = Some t -> msum g m = g (v, t) + msum g (delete v m).
Proof. intros E. rewrite <- (insert_delete m v t E) at 1. rewrite msum_insert; [reflexivity | apply lookup_delete]. Qed.
Lemma msum_replace g m v t t' : m !! v = Some t -> msum g (<[v := t']> m) = msum g m - g (v, t) + g (v, t').
Proof. intros E. rewrite <- insert_delete_insert, msum_insert by apply lookup_delete. rewrite (msum_delete g m v t E). lia. Qed.
Lemma msum_le g h m : (forall v t, m !! v = Some t -> g (v, t) <= h (v, t)) -> msum g m <= msum h m.
Proof.
  intros H. unfold msum. assert (A : forall e, e ∈ map_to_list m -> g e <= h e). { intros [v t] E. apply elem_of_map_to_list in E. apply H, E. }
  induction (map_to_list m) as [| e l IH]; [reflexivity |]. cbn [map]. rewrite !sumz_cons.
  assert (g e <= h e) by (apply A; left). assert (sumz (map g l) <= sumz (map h l)) by (apply IH; intros e' I; apply A; right; exact I). lia.
Qed.
Lemma msum_fmap g (k : Z * bool -> Z * bool) m : msum g (k <$> m) = msum (fun e => g (fst e, k (snd e))) m.
Proof.
  induction m as [| v t m E IH] using map_ind; [rewrite fmap_empty, !msum_empty; reflexivity |].
  rewrite fmap_insert, !msum_insert by (rewrite ?lookup_fmap, E; reflexivity). rewrite IH. reflexivity.
Qed.
Lemma msum_ext g h m : (forall v t, m !! v = Some t -> g (v, t) = h (v, t)) -> msum g m = msum h m.
Proof. intros H. apply Z.le_antisymm; apply msum_le; intros v t E; rewrite (H v t E); reflexivity. Qed.

(** By how much the constraint is met. *)
Definition slack (f : nat -> bool) (c : pb) : Z := pb_lhs f c - degree c.
Lemma satisfied_slack f c : is_satisfied c f = true <-> 0 <= slack f c.
Proof. unfold is_satisfied, slack. rewrite Z.leb_le. lia. Qed.
Lemma lhs_msum f c : pb_lhs f c = msum (contribution f) (terms c).
Proof. reflexivity. Qed.
Lemma contribution_eq f v x s : contribution f (v, (x, s)) = if Bool.eqb (f v) s then x else 0.
Proof. reflexivity. Qed.
Lemma add_term_slack f c e : slack f (add_term c e) = slack f c + contribution f e.
Proof.
  destruct e as [v [c2 s2]]. unfold add_term. destruct (terms c !! v) as [[c1 s1] |] eqn:E.
  - destruct (Bool.eqb s1 s2) eqn:Es.
    + apply Bool.eqb_prop in Es. subst s2. unfold slack. rewrite !lhs_msum. cbn [terms degree]. rewrite (msum_replace _ _ _ _ _ E), !contribution_eq. destruct (Bool.eqb (f v) s1); lia.
    + apply Bool.eqb_false_iff in Es.
      assert (A : s2 = negb s1) by (destruct s1, s2; cbn in *; congruence). subst s2.
      unfold slack. rewrite !lhs_msum. destruct (Z.compare_spec c1 c2) as [H | H | H]; cbn [terms degree].
      * rewrite (msum_delete _ _ _ _ E), !contribution_eq. subst c2. rewrite Z.min_id. destruct (f v), s1; cbn; lia.
      * rewrite (msum_replace _ _ _ _ _ E), !contribution_eq. rewrite Z.min_l by lia. destruct (f v), s1; cbn; lia.
      * rewrite (msum_replace _ _ _ _ _ E), !contribution_eq. rewrite Z.min_r by lia. destruct (f v), s1; cbn; lia.
  - unfold slack. rewrite !lhs_msum. cbn [terms degree]. rewrite msum_insert by exact E. lia.
Qed.
Lemma add_terms_slack f l : forall c, slack f (fold_left add_term l c) = slack f c + sumz (map (contribution f) l).
Proof. induction l as [| e l IH]; intros c; cbn [fold_left map]; [cbn; lia |]. rewrite IH, add_term_slack, sumz_cons. lia. Qed.
Lemma add_slack f a b : slack f (add a b) = slack f a + slack f b.
Proof. unfold add. rewrite add_terms_slack. unfold slack, pb_lhs. cbn [terms degree]. lia. Qed.

(** Every coefficient positive: the normalised form. *)
Definition normal (c : pb) : Prop := forall v x s, terms c !! v = Some (x, s) -> 0 < x.
Lemma add_term_normal c e : normal c -> 0 < fst (snd e) -> normal (add_term c e).
Proof.
  destruct e as [v [c2 s2]]. cbn [fst snd]. intros Hc H2. unfold add_term. destruct (terms c !! v) as [[c1 s1] |] eqn:E.
  - pose proof (Hc v c1 s1 E) as H1. destruct (Bool.eqb s1 s2).
    + intros w x s. cbn [terms]. destruct (decide (v = w)) as [<- | D]; [rewrite lookup_insert; intros [= <- <-]; lia | rewrite lookup_insert_ne by exact D; apply Hc].
    + destruct (Z.compare_spec c1 c2) as [H | H | H]; intros w x s; cbn [terms].
      * destruct (decide (v = w)) as [<- | D]; [rewrite lookup_delete; discriminate | rewrite lookup_delete_ne by exact D; apply Hc].
      * destruct (decide (v = w)) as [<- | D]; [rewrite lookup_insert; intros [= <- <-]; lia | rewrite lookup_insert_ne by exact D; apply Hc].
      * destruct (decide (v = w)) as [<- | D]; [rewrite lookup_insert; intros [= <- <-]; lia | rewrite lookup_insert_ne by exact D; apply Hc].
  - intros w x s. cbn [terms]. destruct (decide (v = w)) as [<- | D]; [rewrite lookup_insert; intros [= <- <-]; lia | rewrite lookup_insert_ne by exact D; apply Hc].
Qed.
Lemma add_normal a b : normal a -> normal b -> normal (add a b).
Proof.
  intros Ha Hb. unfold add. assert (A : forall e, e ∈ map_to_list (terms b) -> 0 < fst (snd e)). { intros [v [x s]] E. apply elem_of_map_to_list in E. apply (Hb v x s E). }
  assert (B : normal (Pb (terms a) (degree a + degree b))) by exact Ha. revert B. generalize (Pb (terms a) (degree a + degree b)).
  induction (map_to_list (terms b)) as [| e l IH]; intros c B; [exact B |]. cbn [fold_left]. apply IH; [intros e' I; apply A; right; exact I |]. apply add_term_normal; [exact B | apply A; left].
Qed.

(** A map collected from a list of entries with distinct keys. *)
Lemma collect_from l : forall m, (forall e, e ∈ l -> m !! fst e = None) -> NoDup (map fst l) ->
  forall g, msum g (fold_left (fun m e => <[fst e := snd e]> m) l m) = msum g m + sumz (map g l).
Proof.
  induction l as [| [v t] l IH]; intros m Hm Hn g; cbn [fold_left map]; [cbn; lia |]. cbn [map fst] in Hn. apply NoDup_cons in Hn as [Hv Hn].
  rewrite IH; [rewrite sumz_cons; cbn [fst snd]; rewrite msum_insert by (apply (Hm (v, t)); left); lia | | exact Hn].
  intros e I. cbn [fst snd]. rewrite lookup_insert_ne; [apply Hm; right; exact I |]. intros ->. apply Hv, elem_of_list_fmap. exists e. auto.
Qed.
Lemma collect_sum g l : NoDup (map fst l) -> msum g (collect l) = sumz (map g l).
Proof. intros Hn. unfold collect. rewrite collect_from; [rewrite msum_empty; lia | intros e _; apply lookup_empty | exact Hn]. Qed.
Lemma collect_lookup_from (l : list (nat * (Z * bool))) : forall (m : gmap nat (Z * bool)) v t, fold_left (fun m e => <[fst e := snd e]> m) l m !! v = Some t -> m !! v = Some t \/ (v, t) ∈ l.
Proof.
  induction l as [| [w u] l IH]; intros m v t E; cbn [fold_left fst snd] in E; [left; exact E |]. apply IH in E as [E | E]; [| right; right; exact E].
  destruct (decide (w = v)) as [<- | D]; [rewrite lookup_insert in E; injection E as <-; right; left | rewrite lookup_insert_ne in E by exact D; left; exact E].
Qed.
Lemma at_least_normal lits k : normal (at_least lits k).
Proof.
  intros v x s E. cbn [at_least terms] in E. apply collect_lookup_from in E as [E | E]; [rewrite lookup_empty in E; discriminate |].
  apply elem_of_list_fmap in E as ([w b] & E & _). injection E as _ -> _. lia.
Qed.
Lemma at_most_normal lits k : normal (at_most lits k).
Proof. apply at_least_normal. Qed.

(** How many of the literals hold. *)
Definition count_true (f : nat -> bool) (lits : list (nat * bool)) : Z := Z.of_nat (length (List.filter (fun l => Bool.eqb (f (fst l)) (snd l)) lits)).
Lemma count_cons f l lits : count_true f (l :: lits) = (if Bool.eqb (f (fst l)) (snd l) then 1 else 0) + count_true f lits.
Proof. unfold count_true. cbn [List.filter]. destruct (Bool.eqb (f (fst l)) (snd l)); cbn [length]; lia. Qed.
Lemma at_least_lhs f lits k : NoDup (map fst lits) -> pb_lhs f (at_least lits k) = count_true f lits.
Proof.
  intros Hn. rewrite lhs_msum. cbn [at_least terms]. rewrite collect_sum by (rewrite List.map_map; exact Hn). clear Hn.
  induction lits as [| l lits IH]; [reflexivity |]. cbn [map]. rewrite sumz_cons, IH, count_cons. reflexivity.
Qed.
Lemma count_flip f lits : count_true f (map (fun l => (fst l, negb (snd l))) lits) = Z.of_nat (length lits) - count_true f lits.
Proof. induction lits as [| [v s] lits IH]; [reflexivity |]. cbn [map length]. rewrite !count_cons, IH. cbn [fst snd]. destruct (f v), s; cbn; lia. Qed.

Lemma ceil_spec d x : 0 < d -> d * ceil d x >= x /\ (forall y, x <= d * y -> ceil d x <= y).
Proof.
  intros Hd. unfold ceil. pose proof (Z.div_mod x d ltac:(lia)) as E. pose proof (Z.mod_pos_bound x d Hd) as B.
  destruct (Z.eqb_spec (x mod d) 0) as [E0 | E0]; (split; [nia |]); intros y Hy; nia.
Qed.
Lemma msum_scale g m d : msum (fun e => d * g e) m = d * msum g m.
Proof. unfold msum. induction (map_to_list m) as [| e l IH]; [cbn; lia |]. cbn [map]. rewrite !sumz_cons, IH. lia. Qed.
