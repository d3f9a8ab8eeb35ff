(** Lemmas on polynomial normal forms. *)
From Coq Require Import ZArith String List Lia.
From stdpp Require Import gmap strings list.
From Verif Require Import SynModel SynSem LinMap LinExprModel LinExprProofs OmegaModel OmegaProofs RingModel.
Local Open Scope Z_scope.
Local Open Scope string_scope.
Local Open Scope list_scope.

(** * Values of monomials *)
Fixpoint lprod {X} (l : list X) (f : X -> Z) : Z := match l with [] => 1 | k :: l => f k * lprod l f end.
Lemma lprod_perm {X} (l l' : list X) f : l ≡ₚ l' -> lprod l f = lprod l' f.
Proof. induction 1; cbn; try congruence. ring. Qed.
Lemma lprod_app {X} (l l' : list X) f : lprod (l ++ l') f = lprod l f * lprod l' f.
Proof. induction l as [|a l IH]; cbn [lprod app]; [ring|rewrite IH; ring]. Qed.
Lemma lprod_one {X} (l : list X) f : (forall k, k ∈ l -> f k = 1) -> lprod l f = 1.
Proof.
  induction l as [|a l IH]; cbn; intros Hz; [done|]. rewrite Hz by left. rewrite IH; [done|]. intros k Hk. apply Hz. by right.
Qed.
Lemma lprod_ext {X} (l : list X) f g : (forall k, k ∈ l -> f k = g k) -> lprod l f = lprod l g.
Proof.
  induction l as [|a l IH]; cbn; intros Hz; [done|]. rewrite Hz by left. rewrite IH; [done|]. intros k Hk. apply Hz. by right.
Qed.
Lemma lprod_mul {X} (l : list X) f g : lprod l (fun k => f k * g k) = lprod l f * lprod l g.
Proof. induction l as [|x l IH]; cbn; [done|rewrite IH; ring]. Qed.
Definition mval (v : Z -> Z) (m : mono) : Z := lprod (elements (dom (D := gset Z) m)) (fun k => v k ^ zget m k).
Lemma mval_on (l : list Z) v m : NoDup l -> (forall k, is_Some (m !! k) -> k ∈ l) -> mval v m = lprod l (fun k => v k ^ zget m k).
Proof.
  intros Hn Hc. unfold mval. set (D := dom (D := gset Z) m).
  assert (Hp : l ≡ₚ elements D ++ elements (list_to_set (C := gset Z) l ∖ D)).
  { apply NoDup_Permutation; [done| |].
    - apply NoDup_app. repeat split; try apply NoDup_elements. intros x Hx1 Hx2.
      apply elem_of_elements in Hx1. apply elem_of_elements in Hx2. set_solver.
    - intros x. rewrite elem_of_app, !elem_of_elements, elem_of_difference, elem_of_list_to_set.
      destruct (decide (x ∈ D)) as [Hx|Hx]; [|naive_solver].
      assert (x ∈ l) by (apply Hc; by apply elem_of_dom). naive_solver. }
  rewrite (lprod_perm _ _ _ Hp), lprod_app, (lprod_one (elements (_ ∖ _))); [ring|].
  intros k Hk. apply elem_of_elements in Hk. apply elem_of_difference in Hk as [_ Hk].
  rewrite get_none; [done|]. by apply not_elem_of_dom in Hk.
Qed.
Definition mono_ok (m : mono) : Prop := forall k e, m !! k = Some e -> 0 < e.
Lemma mono_ok_get m k : mono_ok m -> 0 <= zget m k.
Proof. intros H. unfold get. destruct (m !! k) as [e|] eqn:E; [|reflexivity]. apply H in E. change (0 <= e). lia. Qed.
Lemma m_mul_get a b k : zget (m_mul a b) k = zget a k + zget b k.
Proof. unfold get, m_mul. rewrite lookup_merge. destruct (a !! k), (b !! k); cbn; lia. Qed.
Lemma m_mul_ok a b : mono_ok a -> mono_ok b -> mono_ok (m_mul a b).
Proof.
  intros Ha Hb k e. unfold m_mul. rewrite lookup_merge. destruct (a !! k) eqn:E1, (b !! k) eqn:E2; cbn; intros [= <-].
  - apply Ha in E1. apply Hb in E2. lia.
  - by apply Ha in E1.
  - apply Hb in E2. done.
Qed.
Lemma m_mul_val v a b : mono_ok a -> mono_ok b -> mval v (m_mul a b) = mval v a * mval v b.
Proof.
  intros Ha Hb. set (l := elements (dom (D := gset Z) a ∪ dom b ∪ dom (m_mul a b))).
  assert (Hn : NoDup l) by apply NoDup_elements.
  assert (Hl : forall m', (m' = a \/ m' = b \/ m' = m_mul a b) -> forall k, is_Some (m' !! k) -> k ∈ l).
  { intros m' Hm k Hk%elem_of_dom. apply elem_of_elements. set_solver. }
  rewrite (mval_on l v a), (mval_on l v b), (mval_on l v (m_mul a b)) by eauto. rewrite <- lprod_mul. apply lprod_ext.
  intros k _. rewrite m_mul_get. apply Z.pow_add_r; by apply mono_ok_get.
Qed.
Lemma m_one_val v : mval v m_one = 1.
Proof. rewrite (mval_on []); [done|constructor|]. intros k [x Hx]. unfold m_one in Hx. by rewrite lookup_empty in Hx. Qed.
Lemma m_var_val v i : mval v (m_var i) = v i.
Proof.
  rewrite (mval_on [i]); [|apply NoDup_singleton|].
  - cbn [lprod]. unfold m_var. rewrite get_singleton. lia.
  - intros k' [x Hx]. unfold m_var in Hx. apply lookup_singleton_Some in Hx as [-> _]. by left.
Qed.

(** * Values of polynomials *)
Notation psum := (msum 0 Z.add Z.mul).
Notation zlsum := (lsum 0 Z.add).
Definition pval (v : Z -> Z) (p : poly) : Z := psum p (mval v).
Definition poly_ok (p : poly) : Prop := forall m c, p !! m = Some c -> c <> 0 /\ mono_ok m.
Lemma pget_add (a b : poly) k : zget (p_add a b) k = zget a k + zget b k.
Proof.
  unfold get, p_add. rewrite lookup_merge. destruct (a !! k) as [x|], (b !! k) as [y|]; cbn [diag_None add_entry default from_option]; try (cbn; lia).
  - destruct (z_isz (x + y)) eqn:E; cbn -[Z.add]; [|done]. apply z_isz_spec in E. unfold id. lia.
  - cbv zeta. destruct (z_isz (0 + y)) eqn:E; cbn -[Z.add]; [|done]. apply z_isz_spec in E. unfold id. lia.
Qed.
Lemma pget_neg (a : poly) k : zget (p_neg a) k = - zget a k.
Proof. unfold get, p_neg. rewrite lookup_fmap. by destruct (a !! k). Qed.
Lemma pget_sub a b k : zget (p_sub a b) k = zget a k - zget b k.
Proof. unfold p_sub. rewrite pget_add, pget_neg. lia. Qed.
Lemma pval_add v a b : pval v (p_add a b) = pval v a + pval v b.
Proof. apply (msum_add _ _ _ _ _ _ Zth). apply pget_add. Qed.
Lemma pval_sub v a b : pval v (p_sub a b) = pval v a - pval v b.
Proof.
  unfold pval. rewrite (msum_lin _ _ _ _ _ _ Zth _ a b 1 (-1)); [lia|]. intros k. rewrite pget_sub. lia.
Qed.
Lemma pval_const v c : pval v (p_const c) = c.
Proof.
  unfold p_const, pval. destruct (z_isz c) eqn:E.
  - apply z_isz_spec in E. subst. apply (msum_empty _ _ _ _ _ _ Zth).
  - rewrite (msum_singleton _ _ _ _ _ _ Zth), m_one_val. lia.
Qed.
Lemma pval_var v i : pval v (p_var i) = v i.
Proof. unfold p_var, pval. rewrite (msum_singleton _ _ _ _ _ _ Zth), m_var_val. lia. Qed.
Lemma pval_add_term v acc m c : pval v (add_term acc m c) = pval v acc + c * mval v m.
Proof.
  unfold pval. rewrite <- (msum_singleton _ _ _ _ _ _ Zth m c (mval v)). apply (msum_add _ _ _ _ _ _ Zth).
  intros k. unfold get, add_term. destruct (decide (k = m)) as [->|Hk].
  - rewrite lookup_insert, lookup_singleton. done.
  - rewrite lookup_insert_ne, lookup_singleton_ne by done. cbn. destruct (acc !! k); cbn; lia.
Qed.
Lemma inner_val v m c b : mono_ok m -> (forall q, q ∈ b -> mono_ok (fst q)) -> forall acc,
  pval v (fold_left (fun acc q => add_term acc (m_mul m (fst q)) (c * snd q)) b acc)
  = pval v acc + (c * mval v m) * zlsum b (fun q => snd q * mval v (fst q)).
Proof.
  intros Hm. induction b as [|q b IH]; intros Hb acc; cbn; [lia|]. rewrite IH by (intros; apply Hb; by right).
  rewrite pval_add_term, m_mul_val; [ring|done|]. apply Hb. by left.
Qed.
Lemma outer_val v a b : (forall q, q ∈ a -> mono_ok (fst q)) -> (forall q, q ∈ b -> mono_ok (fst q)) -> forall acc,
  pval v (fold_left (fun acc p => fold_left (fun acc q => add_term acc (m_mul (fst p) (fst q)) (snd p * snd q)) b acc) a acc)
  = pval v acc + zlsum a (fun q => snd q * mval v (fst q)) * zlsum b (fun q => snd q * mval v (fst q)).
Proof.
  intros Ha Hb. induction a as [|p a IH]; intros acc; cbn [fold_left lsum]; [lia|]. rewrite IH by (intros; apply Ha; by right).
  rewrite inner_val; [ring| |done]. apply Ha. by left.
Qed.
Lemma poly_list_ok (p : poly) : poly_ok p -> forall q, q ∈ map_to_list p -> mono_ok (fst q).
Proof. intros H [m c] Hq. apply elem_of_map_to_list in Hq. by apply H in Hq as [_ ?]. Qed.
Lemma pget_nz (p : poly) k : zget (omap (fun c => if z_isz c then None else Some c) p) k = zget p k.
Proof.
  unfold get. rewrite lookup_omap. destruct (p !! k) as [c|]; cbn; [|done]. destruct (z_isz c) eqn:E; cbn; [|done].
  symmetry. by apply z_isz_spec.
Qed.
Lemma pval_mul v a b : poly_ok a -> poly_ok b -> pval v (p_mul a b) = pval v a * pval v b.
Proof.
  intros Ha Hb. unfold p_mul, pval at 1. rewrite (msum_ext _ _ _ _ _ _ Zth _ (mul_terms (map_to_list a) (map_to_list b))) by apply pget_nz.
  change (pval v (mul_terms (map_to_list a) (map_to_list b)) = pval v a * pval v b).
  unfold mul_terms. rewrite outer_val by (by apply poly_list_ok).
  unfold pval, p_zero. rewrite (msum_empty _ _ _ _ _ _ Zth), !(msum_to_list _ _ _ _ _ _ Zth). lia.
Qed.

(** ** Well-formedness *)
Lemma const_ok c : poly_ok (p_const c).
Proof.
  unfold p_const. destruct (z_isz c) eqn:E; intros m x; [unfold p_zero; by rewrite lookup_empty|].
  intros [<- <-]%lookup_singleton_Some. split; [intros ->; done|]. intros k e. unfold m_one. by rewrite lookup_empty.
Qed.
Lemma var_ok i : poly_ok (p_var i).
Proof.
  intros m x. unfold p_var. intros [<- <-]%lookup_singleton_Some. split; [done|]. intros k e. unfold m_var.
  intros [_ <-]%lookup_singleton_Some. lia.
Qed.
Lemma add_ok a b : poly_ok a -> poly_ok b -> poly_ok (p_add a b).
Proof.
  intros Ha Hb m c. unfold p_add. rewrite lookup_merge.
  destruct (a !! m) as [x|] eqn:E1, (b !! m) as [y|] eqn:E2; cbn [diag_None add_entry]; cbv zeta; try done.
  - destruct (z_isz (x + y)) eqn:E; [done|]. intros [= <-]. split; [|by apply Ha in E1 as [_ ?]].
    intros E0. apply z_isz_spec in E0. congruence.
  - intros [= <-]. by apply Ha.
  - destruct (z_isz (0 + y)) eqn:E; [done|]. intros [= <-]. by apply Hb.
Qed.
Lemma neg_ok a : poly_ok a -> poly_ok (p_neg a).
Proof.
  intros Ha m c. unfold p_neg. rewrite lookup_fmap. destruct (a !! m) as [x|] eqn:E; [|done]. cbn. intros [= <-].
  apply Ha in E as [? ?]. split; [lia|done].
Qed.
Lemma sub_ok a b : poly_ok a -> poly_ok b -> poly_ok (p_sub a b).
Proof. intros. apply add_ok; [done|]. by apply neg_ok. Qed.
Definition monos_ok (p : poly) : Prop := forall m c, p !! m = Some c -> mono_ok m.
Lemma mul_ok a b : poly_ok a -> poly_ok b -> poly_ok (p_mul a b).
Proof.
  intros Ha Hb.
  assert (H : monos_ok (mul_terms (map_to_list a) (map_to_list b))).
  { unfold mul_terms. pose proof (poly_list_ok a Ha) as La. pose proof (poly_list_ok b Hb) as Lb.
    assert (H0 : monos_ok p_zero) by (intros m c; unfold p_zero; by rewrite lookup_empty).
    revert H0. generalize p_zero. revert La. generalize (map_to_list a) as la. induction la as [|p la IH]; intros La acc H0; cbn; [done|].
    apply IH; [intros; apply La; by right|]. clear IH.
    assert (Hp : mono_ok (fst p)) by (apply La; by left).
    revert acc H0 Lb. generalize (map_to_list b) as lb. induction lb as [|q lb IH]; intros acc H0 Lb; cbn; [done|].
    apply IH; [|intros; apply Lb; by right]. intros m c. unfold add_term. destruct (decide (m = m_mul (fst p) (fst q))) as [->|Hm].
    - intros _. apply m_mul_ok; [done|]. apply Lb. by left.
    - rewrite lookup_insert_ne by done. apply H0. }
  intros m c. unfold p_mul. rewrite lookup_omap. destruct (mul_terms _ _ !! m) as [x|] eqn:E; [|done]. cbn.
  destruct (z_isz x) eqn:Ex; [done|]. intros [= <-]. split; [|by eapply H].
  intros E0. apply z_isz_spec in E0. congruence.
Qed.

(** * Distinct normal forms differ somewhere *)
(** Digits in base [D] along a list of variables. *)
Fixpoint wt (D : Z) (l : list Z) (k : Z) : Z := match l with [] => 0 | x :: l => if Z.eqb x k then 1 else D * wt D l k end.
Fixpoint horner (D : Z) (l : list Z) (f : Z -> Z) : Z := match l with [] => 0 | x :: l => f x + D * horner D l f end.
Lemma wt_nonneg D l k : 0 < D -> 0 <= wt D l k.
Proof. intros HD. induction l as [|x l IH]; cbn; [done|]. destruct (Z.eqb x k); lia. Qed.
Lemma wt_horner D l f : NoDup l -> zlsum l (fun k => f k * wt D l k) = horner D l f.
Proof.
  induction l as [|x l IH]; intros Hn; cbn; [done|]. apply NoDup_cons in Hn as [Hx Hn]. rewrite Z.eqb_refl.
  rewrite (lsum_ext _ _ _ _ (fun k => D * (f k * wt D l k))).
  - rewrite (lsum_mul _ _ _ _ _ _ Zth), IH by done. lia.
  - intros k Hk. destruct (Z.eqb_spec x k) as [->|]; [done|]. lia.
Qed.
Lemma horner_inj D l f g : (forall k, k ∈ l -> 0 <= f k < D) -> (forall k, k ∈ l -> 0 <= g k < D) -> horner D l f = horner D l g ->
  forall k, k ∈ l -> f k = g k.
Proof.
  induction l as [|x l IH]; intros Hf Hg E k Hk; [by apply elem_of_nil in Hk|]. cbn in E.
  assert (0 <= f x < D) by (apply Hf; by left). assert (0 <= g x < D) by (apply Hg; by left).
  assert (f x = g x /\ horner D l f = horner D l g) as [E1 E2].
  { assert (E3 : (f x + D * horner D l f) mod D = (g x + D * horner D l g) mod D) by (by rewrite E).
    rewrite !(Z.mul_comm D), !Z.mod_add, !Z.mod_small in E3 by lia. split; [done|]. nia. }
  apply elem_of_cons in Hk as [->|Hk]; [done|]. apply IH; try done; intros; [apply Hf|apply Hg]; by right.
Qed.
(** A sum of distinct powers with non-zero small coefficients is not zero. *)
Lemma max_element (l : list (Z * Z)) : l <> [] -> exists n c l', l ≡ₚ (n, c) :: l' /\ forall q, q ∈ l' -> fst q <= n.
Proof.
  induction l as [|[n c] l IH]; [done|]. intros _. destruct l as [|p l].
  - exists n, c, []. split; [done|]. intros q Hq. by apply elem_of_nil in Hq.
  - destruct IH as (m & d & l' & Hp & Hm); [done|]. destruct (Z.le_gt_cases n m).
    + exists m, d, ((n, c) :: l'). split; [rewrite Hp; apply Permutation_swap|].
      intros q [->|Hq]%elem_of_cons; [done|by apply Hm].
    + exists n, c, ((m, d) :: l'). split; [by rewrite Hp|]. intros q [->|Hq]%elem_of_cons; cbn; [lia|]. apply Hm in Hq. lia.
Qed.
Lemma powers_bound B N l : 1 <= B -> 0 <= N -> (forall q, q ∈ l -> 0 <= fst q <= N) ->
  Z.abs (zlsum l (fun q => snd q * B ^ fst q)) <= zlsum l (fun q => Z.abs (snd q)) * B ^ N.
Proof.
  intros HB HN. induction l as [|q l IH]; intros Hl; cbn; [done|].
  assert (Hq : 0 <= fst q <= N) by (apply Hl; by left). specialize (IH ltac:(intros; apply Hl; by right)).
  assert (Hp : B ^ fst q <= B ^ N) by (apply Z.pow_le_mono_r; lia). assert (0 < B ^ fst q) by (apply Z.pow_pos_nonneg; lia).
  assert (Z.abs (snd q * B ^ fst q) <= Z.abs (snd q) * B ^ N).
  { rewrite Z.abs_mul, (Z.abs_eq (B ^ fst q)) by lia. nia. }
  lia.
Qed.
Lemma lsum_abs_nonneg (l : list (Z * Z)) : 0 <= zlsum l (fun q => Z.abs (snd q)).
Proof. induction l; cbn; lia. Qed.
Lemma powers_nonzero B l : l <> [] -> NoDup (fst <$> l) -> (forall q, q ∈ l -> 0 <= fst q /\ snd q <> 0) ->
  zlsum l (fun q => Z.abs (snd q)) < B -> zlsum l (fun q => snd q * B ^ fst q) <> 0.
Proof.
  intros Hn Hd Hl HB. destruct (max_element l Hn) as (n & c & l' & Hp & Hm).
  assert (Hl' : forall q, q ∈ (n, c) :: l' -> 0 <= fst q /\ snd q <> 0) by (intros q Hq; apply Hl; by rewrite Hp).
  assert (Hd' : NoDup (fst <$> ((n, c) :: l'))) by (by rewrite <- Hp).
  rewrite (lsum_perm _ _ _ _ _ _ Zth _ _ (fun q => snd q * B ^ fst q) Hp). rewrite (lsum_perm _ _ _ _ _ _ Zth _ _ (fun q => Z.abs (snd q)) Hp) in HB. clear Hp Hl Hd Hn l. cbn in *.
  apply NoDup_cons in Hd' as [Hnin _].
  destruct (Hl' (n, c)) as [H0 Hc]; [by left|]. cbn in H0, Hc.
  assert (Hlt : forall q, q ∈ l' -> 0 <= fst q <= n - 1).
  { intros q Hq. destruct (Hl' q) as [? _]; [by right|]. pose proof (Hm q Hq). split; [done|].
    destruct (decide (fst q = n)) as [E|]; [|lia]. exfalso. apply Hnin. apply elem_of_list_fmap. exists q. done. }
  pose proof (lsum_abs_nonneg l') as Hs.
  destruct (decide (n = 0)) as [->|Hn0].
  - destruct l' as [|q l']; [cbn; lia|]. exfalso. destruct (Hlt q); [by left|]. lia.
  - pose proof (powers_bound B (n - 1) l' ltac:(lia) ltac:(lia) Hlt) as Hb.
    assert (E : B ^ n = B * B ^ (n - 1)) by (rewrite <- Z.pow_succ_r by lia; f_equal; lia).
    assert (Hpos : 0 < B ^ (n - 1)) by (apply Z.pow_pos_nonneg; lia).
    intros Hz. assert (Hz' : Z.abs (c * B ^ n) = Z.abs (zlsum l' (fun q => snd q * B ^ fst q))) by lia.
    rewrite Z.abs_mul, (Z.abs_eq (B ^ n)) in Hz' by lia. rewrite E in Hz'. nia.
Qed.

(** Kronecker's substitution. *)
Lemma mval_pow B l D m : 0 < B -> 0 < D -> NoDup l -> (forall k, is_Some (m !! k) -> k ∈ l) -> mono_ok m ->
  mval (fun k => B ^ wt D l k) m = B ^ horner D l (zget m).
Proof.
  intros HB HD Hn Hl Hm. rewrite (mval_on l) by done. rewrite <- wt_horner by done.
  assert (H : forall l', lprod l' (fun k => (B ^ wt D l k) ^ zget m k) = B ^ zlsum l' (fun k => zget m k * wt D l k)
    /\ 0 <= zlsum l' (fun k => zget m k * wt D l k)).
  { induction l' as [|x l' [IH1 IH2]]; cbn; [done|]. pose proof (mono_ok_get m x Hm). pose proof (wt_nonneg D l x HD). split; [|nia].
    rewrite IH1, Z.pow_add_r, Z.mul_comm by nia. rewrite <- Z.pow_mul_r by done. rewrite (Z.mul_comm (wt D l x)). ring. }
  apply H.
Qed.
Definition poly_vars (p : poly) : list Z := elements (union_list ((fun q => dom (D := gset Z) (fst q)) <$> map_to_list p)).
Definition poly_degree (p : poly) : Z := foldr (fun q a => foldr (fun r b => Z.max (snd r) b) a (map_to_list (fst q))) 0 (map_to_list p).
Lemma poly_vars_in p m c k : p !! m = Some c -> is_Some (m !! k) -> k ∈ poly_vars p.
Proof.
  intros Hp Hk. unfold poly_vars. apply elem_of_elements. apply elem_of_union_list. exists (dom m). split; [|by apply elem_of_dom].
  apply elem_of_list_fmap. exists (m, c). split; [done|]. by apply elem_of_map_to_list.
Qed.
Lemma foldr_max_ge (l : list (Z * Z)) a : a <= foldr (fun r b => Z.max (snd r) b) a l /\ forall r, r ∈ l -> snd r <= foldr (fun r b => Z.max (snd r) b) a l.
Proof.
  induction l as [|r l [IH1 IH2]]; cbn; [split; [lia|]; intros r Hr; by apply elem_of_nil in Hr|]. split; [lia|].
  intros r' [->|Hr]%elem_of_cons; [lia|]. apply IH2 in Hr. lia.
Qed.
Lemma poly_degree_ge (p : poly) m c k : p !! m = Some c -> zget m k <= poly_degree p /\ 0 <= poly_degree p.
Proof.
  intros Hp. apply elem_of_map_to_list in Hp. unfold poly_degree. revert Hp. generalize (map_to_list p). intros l.
  assert (H0 : 0 <= foldr (fun q a => foldr (fun r b => Z.max (snd r) b) a (map_to_list (fst q))) 0 l).
  { induction l as [|q l IH]; cbn; [done|]. etrans; [exact IH|]. apply foldr_max_ge. }
  intros Hp. split; [|done]. induction l as [|q l IH]; [by apply elem_of_nil in Hp|]. cbn.
  assert (H0' : 0 <= foldr (fun q a => foldr (fun r b => Z.max (snd r) b) a (map_to_list (fst q))) 0 l).
  { clear. induction l as [|q l IH]; cbn; [done|]. etrans; [exact IH|]. apply foldr_max_ge. }
  apply elem_of_cons in Hp as [<-|Hp].
  - cbn. unfold get. destruct (m !! k) as [e|] eqn:E; cbn.
    + apply (proj2 (foldr_max_ge _ _) (k, e)). by apply elem_of_map_to_list.
    + etrans; [exact H0'|]. apply foldr_max_ge.
  - etrans; [by apply IH|]. apply foldr_max_ge.
Qed.
Lemma nonzero_somewhere (p : poly) : poly_ok p -> p <> ∅ -> exists v, pval v p <> 0.
Proof.
  intros Hp Hne. set (l := poly_vars p). set (D := poly_degree p + 1).
  set (code := fun m : mono => horner D l (zget m)).
  set (L := (fun q : mono * Z => (code (fst q), snd q)) <$> map_to_list p).
  set (B := zlsum L (fun q => Z.abs (snd q)) + 1).
  assert (Hnl : NoDup l) by (unfold l, poly_vars; apply NoDup_elements).
  assert (Hdig : forall m c k, p !! m = Some c -> 0 <= zget m k < D).
  { intros m c k Hm. split; [apply mono_ok_get; by apply Hp in Hm as [_ ?]|]. unfold D. pose proof (poly_degree_ge p m c k Hm). lia. }
  assert (HD : 0 < D).
  { destruct (map_choose p Hne) as (m & c & Hm). pose proof (poly_degree_ge p m c 0 Hm). unfold D. lia. }
  assert (HB : 0 < B) by (pose proof (lsum_abs_nonneg L); unfold B; lia).
  assert (Hcode : forall m, (forall k, 0 <= zget m k) -> 0 <= code m).
  { intros m Hm. unfold code. clear -Hm HD. induction l as [|x l' IH]; cbn; [done|]. specialize (Hm x). nia. }
  exists (fun k => B ^ wt D l k). unfold pval. rewrite (msum_to_list _ _ _ _ _ _ Zth).
  rewrite (lsum_ext _ _ _ _ (fun q => snd q * B ^ code (fst q))).
  2: { intros [m c] Hq. cbn. apply elem_of_map_to_list in Hq. f_equal. apply mval_pow; try done.
       - intros k Hk. by eapply poly_vars_in.
       - by apply Hp in Hq as [_ ?]. }
  assert (EL : zlsum (map_to_list p) (fun q => snd q * B ^ code (fst q)) = zlsum L (fun q => snd q * B ^ fst q)).
  { unfold L. by rewrite (lsum_map _ _). }
  rewrite EL. apply powers_nonzero.
  - unfold L. intros E. apply fmap_nil_inv in E. apply Hne. by apply map_to_list_empty_iff.
  - unfold L. rewrite <- list_fmap_compose. cbn.
    assert (Hnd : NoDup ((map_to_list p).*1)) by apply NoDup_fst_map_to_list.
    assert (Hin : forall q, q ∈ map_to_list p -> p !! (fst q) = Some (snd q)) by (intros [m c] Hq; by apply elem_of_map_to_list).
    revert Hnd Hin. generalize (map_to_list p). intros l0. induction l0 as [|[m c] l0 IH]; intros Hnd Hin; cbn; [constructor|].
    apply NoDup_cons in Hnd as [Hx Hnd]. apply NoDup_cons. split.
    + intros ([m' c'] & E & Hq)%elem_of_list_fmap. cbn in E. apply Hx. apply elem_of_list_fmap. exists (m', c'). split; [|done]. cbn.
      assert (H1 : p !! m = Some c) by (apply (Hin (m, c)); by left). assert (H2 : p !! m' = Some c') by (apply (Hin (m', c')); by right).
      pose proof (horner_inj D l (zget m) (zget m') ltac:(intros; by eapply Hdig) ltac:(intros; by eapply Hdig) E) as Hg.
      apply map_eq. intros k. destruct (m !! k) as [e|] eqn:E1.
      * assert (Hk : k ∈ l) by (eapply poly_vars_in; [exact H1|eauto]). specialize (Hg k Hk). unfold get in Hg. rewrite E1 in Hg. cbn in Hg.
        apply Hp in H1 as [_ H1]. apply H1 in E1. destruct (m' !! k); cbn in Hg; [by subst|lia].
      * destruct (m' !! k) as [e|] eqn:E2; [|done].
        assert (Hk : k ∈ l) by (eapply poly_vars_in; [exact H2|eauto]). specialize (Hg k Hk). unfold get in Hg. rewrite E1, E2 in Hg. cbn in Hg.
        apply Hp in H2 as [_ H2]. apply H2 in E2. lia.
    + apply IH; [done|]. intros q Hq. apply Hin. by right.
  - intros q Hq. unfold L in Hq. apply elem_of_list_fmap in Hq as ([m c] & -> & Hq). cbn. apply elem_of_map_to_list in Hq. split.
    + apply Hcode. intros k. by eapply Hdig.
    + by apply Hp in Hq as [? _].
  - unfold B. lia.
Qed.
Lemma poly_eq a b : poly_ok a -> poly_ok b -> (forall v, pval v a = pval v b) -> a = b.
Proof.
  intros Ha Hb Hv. destruct (decide (p_sub a b = ∅)) as [E|Hn].
  - apply map_eq. intros m. assert (Hg : zget a m = zget b m).
    { pose proof (pget_sub a b m) as H. rewrite E in H. rewrite get_none in H; [lia|]. apply lookup_empty. }
    unfold get in Hg. destruct (a !! m) as [x|] eqn:E1, (b !! m) as [y|] eqn:E2; cbn in Hg; subst; try done.
    + by apply Ha in E1 as [? _].
    + by apply Hb in E2 as [? _].
  - destruct (nonzero_somewhere (p_sub a b)) as (v & Hx); [by apply sub_ok|done|]. exfalso. apply Hx. rewrite pval_sub, Hv. lia.
Qed.
