(** Lemmas on Fourier–Motzkin elimination. *)
From Coq Require Import ZArith QArith Qcanon String List Lia Lqa.
From stdpp Require Import gmap strings list sorting.
From Verif Require Import SynModel SynSem LinMap LinExprModel LinExprProofs LiaModel.
Local Open Scope Qc_scope.

Lemma qc_add a b : (this (a + b) == this a + this b)%Q. Proof. apply Qred_correct. Qed.
Lemma qc_mul a b : (this (a * b) == this a * this b)%Q. Proof. apply Qred_correct. Qed.
Lemma qc_opp a : (this (- a) == - this a)%Q. Proof. apply Qred_correct. Qed.
Lemma qc_sub a b : (this (a - b) == this a - this b)%Q.
Proof. unfold Qcminus. rewrite qc_add, qc_opp. unfold Qminus. reflexivity. Qed.
Lemma qc_const q : (this (Q2Qc q) == q)%Q. Proof. apply Qred_correct. Qed.
Ltac qlra :=
  repeat match goal with
         | H : @eq Qc ?a ?b |- _ => assert (this a == this b)%Q by (rewrite H; reflexivity); clear H
         end;
  unfold Qclt, Qcle in *;
  try match goal with |- @eq Qc _ _ => apply Qc_is_canon end;
  repeat (rewrite qc_add in * || rewrite qc_mul in * || rewrite qc_sub in * || rewrite qc_opp in * || rewrite qc_const in * );
  lra.

Lemma q_isz_spec r : q_isz r = true <-> r = Q2Qc 0.
Proof.
  unfold q_isz. split; [apply Qc_eq_bool_correct|]. intros ->. unfold Qc_eq_bool. by destruct (Qc_eq_dec (Q2Qc 0) (Q2Qc 0)).
Qed.
Lemma q_pos_spec r : q_pos r = true <-> 0 < r.
Proof.
  unfold q_pos. rewrite (Qcgt_alt r 0). change (Q2Qc 0) with (Q2Qc 0). destruct (r ?= Q2Qc 0); split; congruence.
Qed.
Lemma q_neg_spec r : q_neg r = true <-> r < 0.
Proof. unfold q_neg. rewrite Qclt_alt. destruct (r ?= Q2Qc 0); split; congruence. Qed.
Lemma one_nz : Q2Qc 1 <> Q2Qc 0. Proof. discriminate. Qed.
Lemma q_opp_nz a : a <> Q2Qc 0 -> - a <> Q2Qc 0.
Proof. intros H E. apply H. qlra. Qed.

Notation qeval := (eval (Q2Qc 0) Qcplus Qcmult).
Notation qwf := (wf (Q2Qc 0)).
Lemma qeval_add a b w : qeval (q_add a b) w = qeval a w + qeval b w.
Proof. apply (eval_add _ _ _ _ _ _ _ Qcrt q_isz_spec). Qed.
Lemma qeval_sub a b w : qeval (q_sub a b) w = qeval a w - qeval b w.
Proof. apply (eval_sub _ _ _ _ _ _ _ Qcrt q_isz_spec). Qed.
Lemma qeval_neg a w : qeval (q_negate a) w = - qeval a w.
Proof. apply (eval_neg _ _ _ _ _ _ Qcrt). Qed.
Lemma qeval_scale a k w : qeval (q_scale a k) w = qeval a w * k.
Proof. apply (eval_scale _ _ _ _ _ _ _ Qcrt q_isz_spec). Qed.
Lemma qeval_split a v w : qeval a w = q_get a v * w v + qeval (l_remove a v) w.
Proof. apply (eval_split _ _ _ _ _ _ Qcrt). Qed.
Lemma qeval_constant a w : is_constant a = true -> qeval a w = lc a.
Proof. apply (eval_constant _ _ _ _ _ _ Qcrt). Qed.

Definition sat (c : qcons) (w : Z -> Qc) : Prop :=
  if qc_strict c then qeval (qc_expr c) w < 0 else qeval (qc_expr c) w <= 0.
Definition lt_or_le (s : bool) (x y : Qc) : Prop := if s then x < y else x <= y.

Lemma sat_constant c w : is_constant (qc_expr c) = true -> (is_satisfied_constant c = true <-> sat c w).
Proof.
  intros Hc. unfold is_satisfied_constant, sat. rewrite Hc. cbn. rewrite (qeval_constant _ _ Hc).
  destruct (qc_strict c).
  - apply q_neg_spec.
  - rewrite negb_true_iff. rewrite <- not_true_iff_false, q_pos_spec. split; [apply Qcnot_lt_le|apply Qcle_not_lt].
Qed.
Lemma sat_not_contradiction c w : sat c w -> contradiction c = false.
Proof.
  intros Hs. unfold contradiction. destruct (is_constant (qc_expr c)) eqn:E; [|done].
  cbn. by rewrite (proj2 (sat_constant c w E) Hs).
Qed.
Lemma sat_satisfied c w : sat c w -> is_satisfied_constant c = true.
Proof.
  intros Hs. destruct (is_constant (qc_expr c)) eqn:E; [by eapply sat_constant|].
  unfold is_satisfied_constant. by rewrite E.
Qed.

(** Reading a constraint as a bound. *)
Lemma bound_eval c v w : q_get (qc_expr c) v <> 0 ->
  qeval (qc_expr c) w = q_get (qc_expr c) v * (w v - qeval (bound_of c v) w).
Proof.
  intros Hn. rewrite (qeval_split _ v). unfold bound_of. rewrite qeval_scale, qeval_neg.
  field. done.
Qed.
Lemma mul_pos_sign k x : 0 < k -> (k * x < 0 <-> x < 0) /\ (k * x <= 0 <-> x <= 0).
Proof.
  intros Hk. split; split; intros H.
  - apply Qcnot_le_lt. intros Hx. apply Qclt_not_le in H. apply H.
    rewrite <- (Qcmult_0_l x). apply Qcmult_le_compat_r; [by apply Qclt_le_weak|done].
  - assert (x * k < 0 * k) by (by apply Qcmult_lt_compat_r). rewrite Qcmult_0_l in *. by rewrite Qcmult_comm.
  - apply Qcnot_lt_le. intros Hx. apply Qcle_not_lt in H. apply H.
    assert (0 * k < x * k) by (by apply Qcmult_lt_compat_r). rewrite Qcmult_0_l in *. by rewrite Qcmult_comm.
  - assert (x * k <= 0 * k) by (apply Qcmult_le_compat_r; [done|by apply Qclt_le_weak]). rewrite Qcmult_0_l in *. by rewrite Qcmult_comm.
Qed.
Lemma upper_sat c v w : is_upper v c = true -> (sat c w <-> lt_or_le (qc_strict c) (w v) (qeval (bound_of c v) w)).
Proof.
  unfold is_upper, independent. intros [H1 H2]%andb_true_iff. apply q_pos_spec in H2.
  unfold sat, lt_or_le. rewrite (bound_eval c v w) by (intros E; rewrite E in H2; by apply Qclt_not_eq in H2).
  destruct (mul_pos_sign _ (w v - qeval (bound_of c v) w) H2) as [A B].
  destruct (qc_strict c); [rewrite A|rewrite B]; split; intros; qlra.
Qed.
Lemma lower_sat c v w : is_lower v c = true -> (sat c w <-> lt_or_le (qc_strict c) (qeval (bound_of c v) w) (w v)).
Proof.
  unfold is_lower, independent. intros [H1 H2]%andb_true_iff. apply negb_true_iff in H1, H2.
  assert (Hn : q_get (qc_expr c) v <> 0).
  { intros E. apply q_isz_spec in E. congruence. }
  assert (H3 : 0 < - q_get (qc_expr c) v).
  { apply not_true_iff_false in H2. rewrite q_pos_spec in H2. apply Qcnot_lt_le in H2.
    destruct (Qcle_lt_or_eq _ _ H2) as [H4|H4]; [qlra|done]. }
  unfold sat, lt_or_le. rewrite (bound_eval c v w) by done.
  replace (q_get (qc_expr c) v * (w v - qeval (bound_of c v) w)) with (- q_get (qc_expr c) v * (qeval (bound_of c v) w - w v)) by ring.
  destruct (mul_pos_sign _ (qeval (bound_of c v) w - w v) H3) as [A B].
  destruct (qc_strict c); [rewrite A|rewrite B]; split; intros; qlra.
Qed.
Lemma trichotomy v c : independent v c = true \/ is_upper v c = true \/ is_lower v c = true.
Proof. unfold is_upper, is_lower. destruct (independent v c), (q_pos _); cbn; auto. Qed.

(** What elimination keeps. *)
Lemma in_eliminate cs v c : In c (eliminate cs v) <->
  (In c cs /\ independent v c = true) \/
  exists lo hi, In lo cs /\ In hi cs /\ is_lower v lo = true /\ is_upper v hi = true /\
    c = QC (q_sub (bound_of lo v) (bound_of hi v)) (qc_strict lo || qc_strict hi).
Proof.
  unfold eliminate. rewrite in_app_iff, filter_In, in_flat_map. split.
  - intros [?|(lo & H1 & H2)]; [by left|right]. apply in_map_iff in H2 as (hi & <- & H2).
    apply filter_In in H1 as [? ?]. apply filter_In in H2 as [? ?]. eauto 10.
  - intros [?|(lo & hi & H1 & H2 & H3 & H4 & ->)]; [by left|right]. exists lo. rewrite filter_In. split; [done|].
    apply in_map_iff. exists hi. rewrite filter_In. done.
Qed.
Lemma pair_sat lo hi v w :
  sat (QC (q_sub (bound_of lo v) (bound_of hi v)) (qc_strict lo || qc_strict hi)) w <->
  lt_or_le (qc_strict lo || qc_strict hi) (qeval (bound_of lo v) w) (qeval (bound_of hi v) w).
Proof. unfold sat, lt_or_le. cbn. rewrite qeval_sub. destruct (_ || _); split; intros; qlra. Qed.

Lemma eliminate_sound cs v w : (forall c, In c cs -> sat c w) -> forall c, In c (eliminate cs v) -> sat c w.
Proof.
  intros Hs c. rewrite in_eliminate. intros [[H _]|(lo & hi & H1 & H2 & H3 & H4 & ->)]; [by apply Hs|].
  apply pair_sat. pose proof (proj1 (lower_sat lo v w H3) (Hs _ H1)) as Hl.
  pose proof (proj1 (upper_sat hi v w H4) (Hs _ H2)) as Hh.
  unfold lt_or_le in *. destruct (qc_strict lo), (qc_strict hi); cbn; qlra.
Qed.
Lemma eliminate_all_sound vs : forall cs w, (forall c, In c cs -> sat c w) -> eliminate_all vs cs = false.
Proof.
  induction vs as [|v vs IH]; intros cs w Hs; cbn.
  - apply not_true_iff_false. intros (c & Hc & Hn)%existsb_exists. apply negb_true_iff in Hn.
    rewrite (sat_satisfied c w) in Hn by auto. done.
  - pose proof (eliminate_sound cs v w Hs) as Hs'.
    destruct (existsb contradiction (eliminate cs v)) eqn:E; [|by eapply IH].
    apply existsb_exists in E as (c & Hc & Hn). rewrite (sat_not_contradiction c w) in Hn by auto. done.
Qed.

(** A common point of finitely many compatible bounds. *)
Lemma best_lower (l : list (Qc * bool)) : l <> [] -> exists m s, In (m, s) l /\
  forall x b, In (x, b) l -> x < m \/ (x = m /\ (b = true -> s = true)).
Proof.
  induction l as [|[x b] l IH]; [done|]. intros _. destruct l as [|p l].
  - exists x, b. split; [by left|]. intros y c [[= -> ->]|[]]. by right.
  - destruct IH as (m & s & H1 & H2); [done|]. destruct (Qc_dec x m) as [[Hx|Hx]|Hx].
    + exists m, s. split; [by right|]. intros y c [[= -> ->]|H]; [by left|by apply H2].
    + exists x, b. split; [by left|]. intros y c [[= -> ->]|H]; [by right|].
      destruct (H2 _ _ H) as [?|[-> ?]]; left; [by eapply Qclt_trans|done].
    + subst x. destruct b.
      * exists m, true. split; [by left|]. intros y c [[= -> ->]|H]; [by right|].
        destruct (H2 _ _ H) as [?|[-> ?]]; [by left|by right].
      * exists m, s. split; [by right|]. intros y c [[= -> <-]|H]; [by right|by apply H2].
Qed.
Lemma best_upper (l : list (Qc * bool)) : l <> [] -> exists m s, In (m, s) l /\
  forall x b, In (x, b) l -> m < x \/ (x = m /\ (b = true -> s = true)).
Proof.
  intros Hl. destruct (best_lower ((fun p : Qc * bool => (- p.1, p.2)) <$> l)) as (m & s & H1 & H2).
  { by destruct l. }
  apply elem_of_list_In, elem_of_list_fmap in H1 as ([m' s'] & [= -> ->] & H1). exists m', s'. split; [by apply elem_of_list_In|].
  intros x b H. destruct (H2 (- x) b) as [H3|[H3 H4]].
  - apply elem_of_list_In, elem_of_list_fmap. exists (x, b). split; [done|by apply elem_of_list_In].
  - left. qlra.
  - right. split; [qlra|done].
Qed.
Lemma common_point (los his : list (Qc * bool)) :
  (forall l a h b, In (l, a) los -> In (h, b) his -> lt_or_le (a || b) l h) ->
  exists t, (forall l a, In (l, a) los -> lt_or_le a l t) /\ (forall h b, In (h, b) his -> lt_or_le b t h).
Proof.
  intros Hc.
  assert (Dl : los = [] \/ los <> []) by (destruct los; auto). assert (Dh : his = [] \/ his <> []) by (destruct his; auto).
  destruct Dl as [->|Dl], Dh as [->|Dh].
  - exists 0. split; intros ? ? [].
  - destruct (best_upper his Dh) as (m & s & H1 & H2). exists (m - 1). split; [intros ? ? []|].
    intros h b H. unfold lt_or_le. destruct (H2 _ _ H) as [?|[-> ?]]; destruct b; qlra.
  - destruct (best_lower los Dl) as (m & s & H1 & H2). exists (m + 1). split; [|intros ? ? []].
    intros h b H. unfold lt_or_le. destruct (H2 _ _ H) as [?|[-> ?]]; destruct b; qlra.
  - destruct (best_lower los Dl) as (m & s & H1 & H2). destruct (best_upper his Dh) as (m' & s' & H3 & H4).
    pose proof (Hc _ _ _ _ H1 H3) as Hm. destruct (Qc_dec m m') as [[Hx|Hx]|Hx].
    + exists ((m + m') * Q2Qc (1 # 2)). split.
      * intros l a H. unfold lt_or_le. destruct (H2 _ _ H) as [?|[-> ?]]; destruct a; qlra.
      * intros l a H. unfold lt_or_le. destruct (H4 _ _ H) as [?|[-> ?]]; destruct a; qlra.
    + exfalso. unfold lt_or_le in Hm. destruct (s || s'); qlra.
    + subst m'. assert (s = false /\ s' = false) as [-> ->].
      { unfold lt_or_le in Hm. destruct s, s'; cbn in Hm; try (exfalso; qlra). done. }
      exists m. split.
      * intros l a H. unfold lt_or_le. destruct (H2 _ _ H) as [?|[-> Ha]]; destruct a; try qlra.
      * intros l a H. unfold lt_or_le. destruct (H4 _ _ H) as [?|[-> Ha]]; destruct a; try qlra.
Qed.

(** Changing the assignment at a variable that does not occur. *)
Definition upd (w : Z -> Qc) (v : Z) (t : Qc) : Z -> Qc := fun x => if Z.eqb x v then t else w x.
Lemma eval_upd e v t w : q_get e v = 0 -> qeval e (upd w v t) = qeval e w.
Proof.
  intros Hg. rewrite !(qeval_split e v), Hg, !Qcmult_0_l, !Qcplus_0_l. unfold eval. f_equal.
  apply (msum_w_ext _ _ _ _ _ _ Qcrt); [|intros r; apply Qc_eq_dec].
  intros k Hk. unfold upd. destruct (Z.eqb_spec k v) as [->|]; [|done]. exfalso. apply Hk.
  unfold l_remove. cbn. rewrite get_delete. by case_decide.
Qed.
Lemma bound_upd c v t w : qeval (bound_of c v) (upd w v t) = qeval (bound_of c v) w.
Proof.
  unfold bound_of. rewrite !qeval_scale, !qeval_neg, eval_upd; [done|].
  unfold q_get, l_get, l_remove. cbn. by rewrite lookup_delete.
Qed.
Lemma eliminate_complete cs v w : (forall c, In c (eliminate cs v) -> sat c w) ->
  exists t, forall c, In c cs -> sat c (upd w v t).
Proof.
  intros Hs.
  destruct (common_point ((fun c => (qeval (bound_of c v) w, qc_strict c)) <$> List.filter (is_lower v) cs)
                         ((fun c => (qeval (bound_of c v) w, qc_strict c)) <$> List.filter (is_upper v) cs)) as (t & Hl & Hh).
  - intros l a h b (lo & [= -> ->] & H1)%elem_of_list_In%elem_of_list_fmap (hi & [= -> ->] & H2)%elem_of_list_In%elem_of_list_fmap.
    apply elem_of_list_In, filter_In in H1 as [? ?]. apply elem_of_list_In, filter_In in H2 as [? ?].
    apply pair_sat. apply Hs. apply in_eliminate. right. exists lo, hi. done.
  - exists t. intros c Hc. destruct (trichotomy v c) as [H|[H|H]].
    + assert (Hc' : sat c w) by (apply Hs, in_eliminate; by left).
      unfold sat in *. rewrite eval_upd; [done|]. by apply q_isz_spec.
    + apply (upper_sat c v _ H). rewrite bound_upd. unfold upd. rewrite Z.eqb_refl. apply Hh.
      apply elem_of_list_In, elem_of_list_fmap. exists c. split; [done|]. apply elem_of_list_In, filter_In. done.
    + apply (lower_sat c v _ H). rewrite bound_upd. unfold upd. rewrite Z.eqb_refl. apply Hl.
      apply elem_of_list_In, elem_of_list_fmap. exists c. split; [done|]. apply elem_of_list_In, filter_In. done.
Qed.

Definition within (vs : list Z) (c : qcons) : Prop := qwf (qc_expr c) /\ forall k, is_Some (lm (qc_expr c) !! k) -> In k vs.
Lemma merge_key (a b : gmap Z Qc) k : is_Some (merge (add_entry (Q2Qc 0) Qcplus q_isz) a b !! k) -> is_Some (a !! k) \/ is_Some (b !! k).
Proof.
  rewrite lookup_merge. destruct (a !! k) as [x|], (b !! k) as [y|]; cbn; eauto.
Qed.
Lemma bound_key c v k : is_Some (lm (bound_of c v) !! k) -> k <> v /\ is_Some (lm (qc_expr c) !! k).
Proof.
  unfold bound_of, q_scale, l_scale. destruct (q_isz _); cbn.
  - rewrite lookup_empty. by intros [? ?].
  - rewrite lookup_omap, lookup_fmap. destruct (decide (k = v)) as [->|Hk].
    + rewrite lookup_delete. cbn. by intros [? ?].
    + rewrite lookup_delete_ne by done. destruct (lm (qc_expr c) !! k); [by eauto|]. by intros [? ?].
Qed.
Lemma eliminate_within v vs cs : (forall c, In c cs -> within (v :: vs) c) -> forall c, In c (eliminate cs v) -> within vs c.
Proof.
  intros Hw c. rewrite in_eliminate. intros [[H Hi]|(lo & hi & H1 & H2 & H3 & H4 & ->)].
  - destruct (Hw _ H) as [Hwf Hk]. split; [done|]. intros k Hs. destruct (Hk k Hs) as [<-|?]; [|done]. exfalso.
    apply q_isz_spec in Hi. rewrite (wf_get_zero _ _ _ Hwf Hi) in Hs. by destruct Hs.
  - split.
    + apply (wf_sub _ _ _ _ q_isz_spec q_opp_nz); apply (wf_scale _ _ _ q_isz_spec).
    + cbn. intros k [Hk|Hk]%merge_key.
      * apply bound_key in Hk as [Hkv Hk]. destruct (proj2 (Hw _ H1) k Hk) as [<-|?]; done.
      * rewrite lookup_fmap in Hk. apply fmap_is_Some in Hk. apply bound_key in Hk as [Hkv Hk].
        destruct (proj2 (Hw _ H2) k Hk) as [<-|?]; done.
Qed.
Lemma eliminate_all_complete vs : forall cs, (forall c, In c cs -> within vs c) -> eliminate_all vs cs = false ->
  exists w, forall c, In c cs -> sat c w.
Proof.
  induction vs as [|v vs IH]; intros cs Hw; cbn.
  - intros E. exists (fun _ => 0). intros c Hc. apply sat_constant.
    + apply is_constant_empty. apply map_eq. intros k. rewrite lookup_empty. apply eq_None_not_Some.
      intros Hs. by apply (Hw _ Hc) in Hs.
    + destruct (is_satisfied_constant c) eqn:Es; [done|]. apply not_true_iff_false in E. exfalso. apply E.
      apply existsb_exists. exists c. by rewrite Es.
  - destruct (existsb contradiction _); [done|]. intros E.
    apply IH in E as (w & Hs); [|by apply eliminate_within].
    apply eliminate_complete in Hs as (t & Ht). eauto.
Qed.
Lemma all_vars_in cs c k : In c cs -> is_Some (lm (qc_expr c) !! k) -> In k (all_vars cs).
Proof.
  intros Hc Hk. unfold all_vars. apply elem_of_list_In. rewrite merge_sort_Permutation. apply elem_of_elements.
  apply elem_of_union_list. exists (dom (lm (qc_expr c))). split; [|by apply elem_of_dom].
  apply elem_of_list_fmap. exists c. split; [done|]. by apply elem_of_list_In.
Qed.
