(** Lemmas on the integer elimination procedure. *)
From Coq Require Import ZArith QArith Qcanon String List Lia Lqa.
From stdpp Require Import gmap strings list.
From Verif Require Import SynModel SynSem LinMap LinExprModel LinExprProofs LiaModel LiaProofs LiaProps OmegaModel.
Local Open Scope Z_scope.

Lemma z_isz_spec r : z_isz r = true <-> r = 0.
Proof. apply Z.eqb_eq. Qed.
Lemma z_one_nz : 1 <> 0. Proof. done. Qed.
Lemma z_opp_nz a : a <> 0 -> - a <> 0. Proof. lia. Qed.
Notation zget := (get 0).
Notation ieval := (eval 0 Z.add Z.mul).
Notation zwf := (wf 0).

(** An integer expression read over the rationals. *)
Definition zq (e : zexpr) : qexpr := LE (q_of_Z (lc e)) (q_of_Z <$> lm e).
Notation zeval e w := (qeval (zq e) w).
Lemma get_zq (m : gmap Z Z) k : get (Q2Qc 0) (q_of_Z <$> m) k = q_of_Z (zget m k).
Proof. unfold get. rewrite lookup_fmap. destruct (m !! k); [done|]. by apply Qc_is_canon. Qed.
Lemma zeval_lin a b e e1 e2 w : lc e = a * lc e1 + b * lc e2 -> (forall k, zget (lm e) k = a * zget (lm e1) k + b * zget (lm e2) k) ->
  zeval e w = (q_of_Z a * zeval e1 w + q_of_Z b * zeval e2 w)%Qc.
Proof.
  intros Hc Hm. unfold eval. cbn. rewrite Hc.
  rewrite (msum_lin _ _ _ _ _ _ Qcrt (q_of_Z <$> lm e) (q_of_Z <$> lm e1) (q_of_Z <$> lm e2) (q_of_Z a) (q_of_Z b)).
  - rewrite q_of_Z_add, !q_of_Z_mul. ring.
  - intros k. rewrite !get_zq, Hm, q_of_Z_add, !q_of_Z_mul. done.
Qed.
Lemma q_of_Z_1 : q_of_Z 1 = 1%Qc. Proof. done. Qed.
Lemma q_of_Z_0 : q_of_Z 0 = 0%Qc. Proof. by apply Qc_is_canon. Qed.
Lemma zeval_add a b w : zeval (z_add a b) w = (zeval a w + zeval b w)%Qc.
Proof.
  rewrite (zeval_lin 1 1 _ a b); [rewrite q_of_Z_1; ring|cbn; lia|].
  intros k. cbn. rewrite (get_add _ _ _ _ _ _ _ Zth z_isz_spec). lia.
Qed.
Lemma zget_neg (e : zexpr) k : zget (lm (z_negate e)) k = - zget (lm e) k.
Proof. unfold get. cbn. rewrite lookup_fmap. by destruct (lm e !! k). Qed.
Lemma zget_scale (e : zexpr) x k : zget (lm (z_scale e x)) k = x * zget (lm e) k.
Proof.
  unfold get, z_scale, l_scale. destruct (z_isz x) eqn:E; cbn.
  - apply z_isz_spec in E. subst. by rewrite lookup_empty.
  - rewrite lookup_omap. destruct (lm e !! k) as [c|]; cbn; [|lia]. destruct (z_isz (c * x)) eqn:E2; cbn; [|lia].
    apply z_isz_spec in E2. lia.
Qed.
Lemma zeval_neg a w : zeval (z_negate a) w = (- zeval a w)%Qc.
Proof.
  rewrite (zeval_lin (-1) 0 _ a a); [|cbn; lia|intros k; rewrite zget_neg; lia].
  rewrite q_of_Z_0. replace (q_of_Z (-1)) with (- (1))%Qc by (by apply Qc_is_canon). ring.
Qed.
Lemma zeval_sub a b w : zeval (z_sub a b) w = (zeval a w - zeval b w)%Qc.
Proof. unfold z_sub, l_sub. change (zeval (z_add a (z_negate b)) w = (zeval a w - zeval b w)%Qc). rewrite zeval_add, zeval_neg. ring. Qed.
Lemma zeval_scale a x w : zeval (z_scale a x) w = (zeval a w * q_of_Z x)%Qc.
Proof.
  rewrite (zeval_lin x 0 _ a a).
  - rewrite q_of_Z_0. ring.
  - unfold z_scale, l_scale. destruct (z_isz x) eqn:E; cbn; [apply z_isz_spec in E; subst; lia|lia].
  - intros k. rewrite zget_scale. lia.
Qed.
Lemma zeval_const c w : zeval (z_const c) w = q_of_Z c.
Proof. unfold eval, zq. cbn. rewrite fmap_empty. rewrite (msum_empty _ _ _ _ _ _ Qcrt). ring. Qed.
Lemma zeval_split a v w : zeval a w = (q_of_Z (z_get a v) * w v + zeval (l_remove a v) w)%Qc.
Proof.
  rewrite (qeval_split _ v). f_equal.
  - f_equal. apply (get_zq (lm a) v).
  - unfold eval, zq, l_remove. cbn. by rewrite fmap_delete.
Qed.
Lemma zeval_constant a w : is_constant a = true -> zeval a w = q_of_Z (lc a).
Proof. intros H. rewrite qeval_constant; [done|]. apply is_constant_empty. apply is_constant_empty in H. cbn. by rewrite H, fmap_empty. Qed.
Lemma zeval_inject e (w : Z -> Z) : zeval e (fun i => q_of_Z (w i)) = q_of_Z (ieval e w).
Proof.
  unfold eval. cbn. rewrite q_of_Z_add. f_equal. unfold msum.
  assert (E : dom (D := gset Z) (q_of_Z <$> lm e) = dom (lm e)) by (by apply dom_fmap_L). rewrite E.
  induction (elements _) as [|k l IH]; cbn; [by rewrite q_of_Z_0|]. by rewrite IH, q_of_Z_add, q_of_Z_mul, get_zq.
Qed.

(** * Normalisation *)
Lemma fold_gcd l a : (fold_left (fun a b => Z.gcd a (Z.abs b)) l a | a) /\ forall x, In x l -> (fold_left (fun a b => Z.gcd a (Z.abs b)) l a | x).
Proof.
  revert a. induction l as [|b l IH]; intros a; cbn; [split; [done|intros ? []]|].
  destruct (IH (Z.gcd a (Z.abs b))) as [H1 H2]. split.
  - etrans; [exact H1|apply Z.gcd_divide_l].
  - intros x [<-|H]; [|by apply H2]. apply Z.divide_abs_r. etrans; [exact H1|apply Z.gcd_divide_r].
Qed.
Lemma coeff_gcd_spec e : (coeff_gcd e | lc e) /\ forall k, (coeff_gcd e | zget (lm e) k).
Proof.
  unfold coeff_gcd.
  assert (H : forall x, In x ((map_to_list (lm e)).*2 ++ [lc e])%list ->
    (fold_left (fun a b => Z.gcd a (Z.abs b)) (List.filter (fun x => negb (Z.eqb x 0)) ((map_to_list (lm e)).*2 ++ [lc e])%list) 0 | x)).
  { intros x Hx. destruct (Z.eqb_spec x 0) as [->|Hn]; [apply Z.divide_0_r|].
    apply fold_gcd. apply filter_In. split; [done|]. apply negb_true_iff. by apply Z.eqb_neq. }
  split.
  - apply H. apply in_app_iff. right. by left.
  - intros k. unfold get. destruct (lm e !! k) as [c|] eqn:E; [|apply Z.divide_0_r]. cbn.
    apply H. apply in_app_iff. left. apply elem_of_list_In, elem_of_list_fmap. exists (k, c). split; [done|]. by apply elem_of_map_to_list.
Qed.
Lemma quot_exact g x : 1 < g -> (g | x) -> x = g * Z.quot x g.
Proof. intros Hg [k ->]. rewrite Z.quot_mul; lia. Qed.
Definition zsat (c : zcons) (w : Z -> Qc) : Prop := (if zc_strict c then zeval (zc_expr c) w < 0 else zeval (zc_expr c) w <= 0)%Qc.
Lemma normalize_sat c w : zsat (normalize c) w <-> zsat c w.
Proof.
  unfold normalize. destruct (Z.ltb_spec 1 (coeff_gcd (zc_expr c))) as [Hg|]; [|done].
  set (g := coeff_gcd (zc_expr c)) in *. destruct (coeff_gcd_spec (zc_expr c)) as [D1 D2]. fold g in D1, D2.
  unfold zsat. cbn.
  set (e' := LE (Z.quot (lc (zc_expr c)) g) ((fun x => Z.quot x g) <$> lm (zc_expr c))).
  assert (E : zeval (zc_expr c) w = (q_of_Z g * zeval e' w)%Qc).
  { rewrite (zeval_lin g 0 _ e' e'); [rewrite q_of_Z_0; ring| |].
    - cbn. rewrite <- (quot_exact g _ Hg D1). lia.
    - intros k. specialize (D2 k). unfold get in *. cbn. rewrite lookup_fmap. destruct (lm (zc_expr c) !! k) as [x|]; cbn in *; [|lia].
      rewrite <- (quot_exact g _ Hg D2). lia. }
  rewrite E. assert (Hp : (0 < q_of_Z g)%Qc). { rewrite <- q_of_Z_0. apply q_of_Z_lt. lia. }
  destruct (mul_pos_sign _ (zeval e' w) Hp) as [A B]. destruct (zc_strict c); [rewrite A|rewrite B]; done.
Qed.
Lemma normalize_key c k : is_Some (lm (zc_expr (normalize c)) !! k) <-> is_Some (lm (zc_expr c) !! k).
Proof. unfold normalize. destruct (Z.ltb _ _); [|done]. cbn. rewrite lookup_fmap. apply fmap_is_Some. Qed.
Lemma normalize_wf c : zwf (zc_expr c) -> zwf (zc_expr (normalize c)).
Proof.
  intros Hw. unfold normalize. destruct (Z.ltb_spec 1 (coeff_gcd (zc_expr c))) as [Hg|]; [|done]. intros k x. cbn. rewrite lookup_fmap.
  destruct (lm (zc_expr c) !! k) as [y|] eqn:E; [|done]. cbn. intros [= <-] H0. apply (Hw _ _ E).
  destruct (coeff_gcd_spec (zc_expr c)) as [_ D]. specialize (D k). unfold get in D. rewrite E in D. cbn in D.
  rewrite (quot_exact _ _ Hg D), H0. lia.
Qed.
Lemma normalize_strict c : zc_strict (normalize c) = zc_strict c.
Proof. unfold normalize. by destruct (Z.ltb _ _). Qed.

(** * Elimination *)
Lemma zsat_constant c w : is_constant (zc_expr c) = true -> (z_satisfied c = true <-> zsat c w).
Proof.
  intros Hc. unfold z_satisfied, zsat. rewrite Hc, (zeval_constant _ _ Hc). cbn. rewrite <- q_of_Z_0.
  destruct (zc_strict c).
  - rewrite q_of_Z_lt. apply Z.ltb_lt.
  - rewrite q_of_Z_le, negb_true_iff, Z.ltb_ge. done.
Qed.
Lemma zsat_not_contradiction c w : zsat c w -> z_contradiction c = false.
Proof.
  intros Hs. unfold z_contradiction. destruct (is_constant (zc_expr c)) eqn:E; [|done].
  cbn. by rewrite (proj2 (zsat_constant c w E) Hs).
Qed.
Lemma z_in_eliminate cs v c : In c (z_eliminate cs v) <->
  (In c cs /\ z_independent v c = true) \/
  exists lo hi, In lo cs /\ In hi cs /\ z_lower v lo = true /\ z_upper v hi = true /\ c = combine_bounds v lo hi.
Proof.
  unfold z_eliminate. rewrite in_app_iff, filter_In, in_flat_map. split.
  - intros [?|(lo & H1 & H2)]; [by left|right]. apply in_map_iff in H2 as (hi & <- & H2).
    apply filter_In in H1 as [? ?]. apply filter_In in H2 as [? ?]. eauto 10.
  - intros [?|(lo & hi & H1 & H2 & H3 & H4 & ->)]; [by left|right]. exists lo. rewrite filter_In. split; [done|].
    apply in_map_iff. exists hi. rewrite filter_In. done.
Qed.
Lemma z_trichotomy v c : z_independent v c = true \/ z_upper v c = true \/ z_lower v c = true.
Proof. unfold z_upper, z_lower. destruct (z_independent v c), (Z.ltb _ _); cbn; auto. Qed.
Lemma z_upper_coeff v c : z_upper v c = true -> (0 < q_of_Z (z_get (zc_expr c) v))%Qc.
Proof. unfold z_upper. intros [_ H%Z.ltb_lt]%andb_true_iff. rewrite <- q_of_Z_0. by apply q_of_Z_lt. Qed.
Lemma z_lower_coeff v c : z_lower v c = true -> (q_of_Z (z_get (zc_expr c) v) < 0)%Qc.
Proof.
  unfold z_lower, z_independent, z_isz. intros [H1 H2]%andb_true_iff. apply negb_true_iff in H1, H2.
  apply Z.eqb_neq in H1. apply Z.ltb_ge in H2. rewrite <- q_of_Z_0. apply q_of_Z_lt. lia.
Qed.
Lemma q_of_Z_opp a : q_of_Z (- a) = (- q_of_Z a)%Qc.
Proof. replace (- a) with (0 - a) by lia. rewrite q_of_Z_sub, q_of_Z_0. ring. Qed.
(** The combination of a lower and an upper bound. *)
Lemma combine_sat v lo hi w :
  zsat (combine_bounds v lo hi) w <->
  (zeval (l_remove (zc_expr lo) v) w * q_of_Z (z_get (zc_expr hi) v)
   + zeval (l_remove (zc_expr hi) v) w * - q_of_Z (z_get (zc_expr lo) v) <= 0)%Qc.
Proof. unfold combine_bounds. rewrite normalize_sat. unfold zsat. cbn [zc_strict zc_expr]. by rewrite zeval_add, !zeval_scale, q_of_Z_opp. Qed.
Lemma zsat_weak c w : zsat c w -> (zeval (zc_expr c) w <= 0)%Qc.
Proof. unfold zsat. destruct (zc_strict c); [apply Qclt_le_weak|done]. Qed.
Lemma z_eliminate_sound cs v w : (forall c, In c cs -> zsat c w) -> forall c, In c (z_eliminate cs v) -> zsat c w.
Proof.
  intros Hs c. rewrite z_in_eliminate. intros [[H _]|(lo & hi & H1 & H2 & H3 & H4 & ->)]; [by apply Hs|].
  apply combine_sat. pose proof (zsat_weak _ _ (Hs _ H1)) as Hl. pose proof (zsat_weak _ _ (Hs _ H2)) as Hh.
  rewrite (zeval_split _ v) in Hl. rewrite (zeval_split _ v) in Hh. apply z_lower_coeff in H3. apply z_upper_coeff in H4.
  set (a := q_of_Z (z_get (zc_expr lo) v)) in *. set (b := q_of_Z (z_get (zc_expr hi) v)) in *.
  set (L := zeval (l_remove (zc_expr lo) v) w) in *. set (H := zeval (l_remove (zc_expr hi) v) w) in *.
  assert (A : ((a * w v + L) * b <= 0 * b)%Qc) by (apply Qcmult_le_compat_r; [done|by apply Qclt_le_weak]).
  assert (B : ((b * w v + H) * (- a) <= 0 * (- a))%Qc) by (apply Qcmult_le_compat_r; [done|qlra]).
  rewrite Qcmult_0_l in A, B. replace (L * b + H * - a)%Qc with ((a * w v + L) * b + (b * w v + H) * - a)%Qc by ring.
  replace 0%Qc with (0 + 0)%Qc by ring. by apply Qcplus_le_compat.
Qed.
Lemma z_eliminate_all_sound vs : forall cs w, (forall c, In c cs -> zsat c w) -> z_eliminate_all vs cs = false.
Proof.
  induction vs as [|v vs IH]; intros cs w Hs; cbn.
  - apply not_true_iff_false. intros (c & Hc & Hn)%existsb_exists. by rewrite (zsat_not_contradiction c w) in Hn by auto.
  - pose proof (z_eliminate_sound cs v w Hs) as Hs'.
    destruct (existsb z_contradiction (z_eliminate cs v)) eqn:E; [|by eapply IH].
    apply existsb_exists in E as (c & Hc & Hn). by rewrite (zsat_not_contradiction c w) in Hn by auto.
Qed.

(** * Completeness over the rationals, for non-strict constraints *)
Definition z_within (vs : list Z) (c : zcons) : Prop :=
  zc_strict c = false /\ zwf (zc_expr c) /\ forall k, is_Some (lm (zc_expr c) !! k) -> In k vs.
Definition zbound (c : zcons) (v : Z) (w : Z -> Qc) : Qc := (- zeval (l_remove (zc_expr c) v) w / q_of_Z (z_get (zc_expr c) v))%Qc.
Lemma zeval_upd e v t w : z_get e v = 0 -> zeval e (upd w v t) = zeval e w.
Proof.
  intros Hg. apply eval_upd. unfold q_get. change (get (Q2Qc 0) (q_of_Z <$> lm e) v = 0%Qc). rewrite get_zq.
  unfold z_get, l_get, get in *. by rewrite Hg, q_of_Z_0.
Qed.
Lemma zget_remove (e : zexpr) v : z_get (l_remove e v) v = 0.
Proof. unfold z_get, l_get, l_remove. cbn. by rewrite lookup_delete. Qed.
Lemma le_sub x y : (x - y <= 0 <-> x <= y)%Qc.
Proof. split; intros; qlra. Qed.
Lemma z_upper_bound c v w : zc_strict c = false -> z_upper v c = true -> (zsat c w <-> (w v <= zbound c v w)%Qc).
Proof.
  intros Hs Hu. apply z_upper_coeff in Hu. unfold zsat, zbound. rewrite Hs, (zeval_split _ v).
  set (b := q_of_Z _) in *. set (H := zeval _ w).
  replace (b * w v + H)%Qc with (b * (w v - (- H / b)))%Qc by (field; intros E; rewrite E in Hu; by apply Qclt_not_eq in Hu).
  destruct (mul_pos_sign b (w v - (- H / b))%Qc Hu) as [_ ->]. apply le_sub.
Qed.
Lemma z_lower_bound c v w : zc_strict c = false -> z_lower v c = true -> (zsat c w <-> (zbound c v w <= w v)%Qc).
Proof.
  intros Hs Hu. apply z_lower_coeff in Hu. unfold zsat, zbound. rewrite Hs, (zeval_split _ v).
  set (b := q_of_Z _) in *. set (H := zeval _ w). assert (Hp : (0 < - b)%Qc) by qlra.
  replace (b * w v + H)%Qc with (- b * (- H / b - w v))%Qc by (field; intros E; rewrite E in Hu; by apply Qclt_not_eq in Hu).
  destruct (mul_pos_sign (- b) (- H / b - w v)%Qc Hp) as [_ ->]. apply le_sub.
Qed.
Lemma combine_bound lo hi v w : z_lower v lo = true -> z_upper v hi = true ->
  zsat (combine_bounds v lo hi) w -> (zbound lo v w <= zbound hi v w)%Qc.
Proof.
  intros Hl Hu Hs. apply combine_sat in Hs. apply z_lower_coeff in Hl. apply z_upper_coeff in Hu. unfold zbound.
  set (a := q_of_Z (z_get (zc_expr lo) v)) in *. set (b := q_of_Z (z_get (zc_expr hi) v)) in *.
  set (L := zeval (l_remove (zc_expr lo) v) w) in *. set (H := zeval (l_remove (zc_expr hi) v) w) in *.
  assert (Hp : (0 < - a)%Qc) by qlra.
  assert (Na : a <> 0%Qc) by (intros E; rewrite E in Hl; by apply Qclt_not_eq in Hl).
  assert (Nb : b <> 0%Qc) by (intros E; rewrite E in Hu; by apply Qclt_not_eq in Hu).
  apply le_sub. apply (mul_pos_sign b _ Hu). apply (mul_pos_sign (- a) _ Hp).
  replace (- a * (b * (- L / a - - H / b)))%Qc with (L * b + H * - a)%Qc; [done|]. field. done.
Qed.
Lemma z_eliminate_complete vs cs v w : (forall c, In c cs -> z_within vs c) -> (forall c, In c (z_eliminate cs v) -> zsat c w) ->
  exists t, forall c, In c cs -> zsat c (upd w v t).
Proof.
  intros Hw Hs.
  destruct (common_point ((fun c => (zbound c v w, false)) <$> List.filter (z_lower v) cs)
                         ((fun c => (zbound c v w, false)) <$> List.filter (z_upper v) cs)) as (t & Hl & Hh).
  - intros l a h b (lo & [= -> ->] & H1)%elem_of_list_In%elem_of_list_fmap (hi & [= -> ->] & H2)%elem_of_list_In%elem_of_list_fmap.
    apply elem_of_list_In, filter_In in H1 as [? ?]. apply elem_of_list_In, filter_In in H2 as [? ?].
    unfold lt_or_le. cbn. apply combine_bound; [done|done|]. apply Hs. apply z_in_eliminate. right. exists lo, hi. done.
  - assert (Hb : forall c, zbound c v (upd w v t) = zbound c v w).
    { intros c. unfold zbound. rewrite zeval_upd; [done|]. apply zget_remove. }
    exists t. intros c Hc. destruct (z_trichotomy v c) as [H|[H|H]].
    + assert (Hc' : zsat c w) by (apply Hs, z_in_eliminate; by left).
      unfold zsat in *. rewrite zeval_upd; [done|]. by apply z_isz_spec.
    + apply (z_upper_bound c v); [by apply (Hw c Hc)|done|]. rewrite Hb. unfold upd. rewrite Z.eqb_refl. apply (Hh _ false).
      apply elem_of_list_In, elem_of_list_fmap. exists c. split; [done|]. apply elem_of_list_In, filter_In. done.
    + apply (z_lower_bound c v); [by apply (Hw c Hc)|done|]. rewrite Hb. unfold upd. rewrite Z.eqb_refl. apply (Hl _ false).
      apply elem_of_list_In, elem_of_list_fmap. exists c. split; [done|]. apply elem_of_list_In, filter_In. done.
Qed.
Lemma z_merge_key (a b : gmap Z Z) k : is_Some (merge (add_entry 0 Z.add z_isz) a b !! k) -> is_Some (a !! k) \/ is_Some (b !! k).
Proof. rewrite lookup_merge. destruct (a !! k) as [x|], (b !! k) as [y|]; cbn; eauto. Qed.
Lemma z_scale_key (e : zexpr) x k : is_Some (lm (z_scale e x) !! k) -> is_Some (lm e !! k).
Proof.
  unfold z_scale, l_scale. destruct (z_isz x); cbn.
  - rewrite lookup_empty. by intros [? ?].
  - rewrite lookup_omap. destruct (lm e !! k); [by eauto|]. by intros [? ?].
Qed.
Lemma z_remove_key (e : zexpr) v k : is_Some (lm (l_remove e v) !! k) -> k <> v /\ is_Some (lm e !! k).
Proof. cbn. intros [x Hx]. apply lookup_delete_Some in Hx as [? ?]. eauto. Qed.
Lemma z_eliminate_within v vs cs : (forall c, In c cs -> z_within (v :: vs) c) -> forall c, In c (z_eliminate cs v) -> z_within vs c.
Proof.
  intros Hw c. rewrite z_in_eliminate. intros [[H Hi]|(lo & hi & H1 & H2 & H3 & H4 & ->)].
  - destruct (Hw _ H) as (Hst & Hwf & Hk). split; [done|]. split; [done|]. intros k Hs. destruct (Hk k Hs) as [<-|?]; [|done]. exfalso.
    apply z_isz_spec in Hi. rewrite (wf_get_zero _ _ _ Hwf Hi) in Hs. by destruct Hs.
  - split; [|split].
    + unfold combine_bounds. by rewrite normalize_strict.
    + apply normalize_wf. apply (wf_add _ _ _ z_isz_spec); apply (wf_scale _ _ _ z_isz_spec).
    + intros k Hk. apply (proj1 (normalize_key _ _)) in Hk. apply z_merge_key in Hk as [Hk|Hk].
      * apply z_scale_key, z_remove_key in Hk as [Hkv Hk]. destruct (proj2 (proj2 (Hw _ H1)) k Hk) as [<-|?]; done.
      * apply z_scale_key, z_remove_key in Hk as [Hkv Hk]. destruct (proj2 (proj2 (Hw _ H2)) k Hk) as [<-|?]; done.
Qed.
Lemma z_eliminate_all_complete vs : forall cs, (forall c, In c cs -> z_within vs c) -> z_eliminate_all vs cs = false ->
  exists w, forall c, In c cs -> zsat c w.
Proof.
  induction vs as [|v vs IH]; intros cs Hw; cbn.
  - intros E. exists (fun _ => 0%Qc). intros c Hc.
    assert (Hk : is_constant (zc_expr c) = true).
    { apply is_constant_empty. apply map_eq. intros k. rewrite lookup_empty. apply eq_None_not_Some.
      intros Hs. by apply (Hw _ Hc) in Hs. }
    apply zsat_constant; [done|]. destruct (z_satisfied c) eqn:Es; [done|]. apply not_true_iff_false in E. exfalso. apply E.
    apply existsb_exists. exists c. unfold z_contradiction. by rewrite Es, Hk.
  - destruct (existsb z_contradiction _); [done|]. intros E.
    apply IH in E as (w & Hs); [|by apply z_eliminate_within].
    eapply z_eliminate_complete in Hs as (t & Ht); [|done]. eauto.
Qed.
Lemma z_vars_in cs c k : In c cs -> is_Some (lm (zc_expr c) !! k) -> In k (z_vars cs).
Proof.
  intros Hc Hk. unfold z_vars. apply elem_of_list_In. apply elem_of_elements.
  apply elem_of_union_list. exists (dom (lm (zc_expr c))). split; [|by apply elem_of_dom].
  apply elem_of_list_fmap. exists c. split; [done|]. by apply elem_of_list_In.
Qed.
