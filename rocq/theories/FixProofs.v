(** Proofs about the guard of FixModel. *)
From Coq Require Import List Bool Arith Lia.
From stdpp Require Import base decidable list strings gmap.
From Verif Require Import SubstModel InferModel PosModel FixModel FixSem.

(** ** Checks *)
Section Check.
Context (c : context).
Lemma mem_In x l : mem x l = true <-> In x l.
Proof. unfold mem. rewrite existsb_exists. split; [intros (y & Hy & E); apply String.eqb_eq in E as ->; exact Hy|intros H; exists x; split; [exact H|apply String.eqb_refl]]. Qed.
Lemma mem_not x l : mem x l = false <-> ~ In x l.
Proof. rewrite <- mem_In. destruct (mem x l); split; congruence. Qed.
Lemma check_app g st k t u : check c g st k (TNode _ NApp [t; u]) = check c g [] 0 u && check c g (verify g u :: st) 0 t.
Proof. reflexivity. Qed.
Lemma check_var g st k x : check c g st k (TVar _ x) = if is_rec g x then match st !! g_pos g with Some b => b | None => false end else true.
Proof. reflexivity. Qed.
Fixpoint check_zip g (cs : list term) (ks : list (name * term)) : bool :=
  match cs, ks with t :: cs, (_, ty) :: ks => check c g [] (count_pis _ ty) t && check_zip g cs ks | _, _ => true end.
Lemma check_match g st k d m cases : check c g st k (TNode _ NMatch (d :: m :: cases)) =
  check c g [] 0 m && (if match d with TVar _ x => g_live g && String.eqb x (g_struct g) | _ => false end then check_zip g cases (get_constructors _ c (g_type g))
                       else check c g [] 0 d && forallb (check c g [] 0) cases).
Proof.
  cbn [check]. f_equal. destruct (match d with TVar _ x => g_live g && String.eqb x (g_struct g) | _ => false end); [|f_equal]; clear.
  - generalize (get_constructors univ c (g_type g)). induction cases as [|t cs IH]; intros [|[k ty] ks]; cbn [check_zip]; try reflexivity. f_equal. apply IH.
Qed.
Lemma check_zip_nth g cs ks j t k ty : check_zip g cs ks = true -> cs !! j = Some t -> ks !! j = Some (k, ty) -> check c g [] (count_pis _ ty) t = true.
Proof.
  revert cs ks. induction j as [|j IH]; intros [|t' cs] [|[k' ty'] ks] H H1 H2; cbn in H1, H2; try discriminate.
  - injection H1 as ->. injection H2 as -> ->. cbn [check_zip] in H. apply andb_true_iff in H as [H _]. exact H.
  - cbn [check_zip] in H. apply andb_true_iff in H as [_ H]. eapply IH; eassumption.
Qed.
Lemma check_lam0 g st x A b : check c g st 0 (TBind _ BLambda [A] x b) = check c g [] 0 A && check c (enter g x) [] 0 b.
Proof. reflexivity. Qed.
Lemma check_lamS g st k x A b : check c g st (S k) (TBind _ BLambda [A] x b) = check c (mark g x) [] k b.
Proof. reflexivity. Qed.
Lemma check_let g st k x A t b : check c g st k (TBind _ BLet [A; t] x b) = check c g [] 0 A && check c g [] 0 t && check c (enter g x) [] 0 b.
Proof. reflexivity. Qed.
Lemma check_fix g st k h b : check c g st k (TBind _ BFix [] h b) = check c (enter g h) [] 0 b.
Proof. reflexivity. Qed.

(** Nothing is refused once the recursive name is shadowed. *)
Lemma shadowed_enter g x : In (g_fix g) (g_shadowed g) -> In (g_fix (enter g x)) (g_shadowed (enter g x)).
Proof. intros H. unfold enter. cbn. destruct (String.eqb x (g_fix g)); [right|]; exact H. Qed.
Lemma shadowed_mark g x : In (g_fix g) (g_shadowed g) -> In (g_fix (mark g x)) (g_shadowed (mark g x)).
Proof. intros H. unfold mark. cbn. destruct (String.eqb x (g_fix g)); [right|]; exact H. Qed.
Fixpoint tsize (t : term) : nat :=
  match t with
  | TNode _ _ ts => S ((fix go ts := match ts with [] => 0 | t :: ts => tsize t + go ts end) ts)
  | TBind _ _ ts _ b => S ((fix go ts := match ts with [] => 0 | t :: ts => tsize t + go ts end) ts + tsize b)
  | _ => 1
  end.
Fixpoint tsizes (ts : list term) : nat := match ts with [] => 0 | t :: ts => tsize t + tsizes ts end.
Lemma tsize_node k ts : tsize (TNode _ k ts) = S (tsizes ts). Proof. reflexivity. Qed.
Lemma tsize_bind k ts x b : tsize (TBind _ k ts x b) = S (tsizes ts + tsize b). Proof. reflexivity. Qed.
Lemma tsizes_In t ts : In t ts -> tsize t <= tsizes ts.
Proof. induction ts as [|u ts IH]; intros []; cbn [tsizes]; [subst; lia|specialize (IH H); lia]. Qed.
Lemma check_shadowed n : forall t g st k, tsize t < n -> In (g_fix g) (g_shadowed g) -> check c g st k t = true.
Proof.
  induction n as [|n IH]; intros t g st k Hn H; [lia|].
  destruct t as [x|l| |nd ts|bd ts x b]; try reflexivity.
  - rewrite check_var. unfold is_rec. destruct (String.eqb x (g_fix g)) eqn:E; [|reflexivity]. apply String.eqb_eq in E as ->.
    rewrite (proj2 (mem_In _ _) H). reflexivity.
  - rewrite tsize_node in Hn. destruct nd.
    + destruct ts as [|t [|u [|w ts]]]; try reflexivity. cbn [tsizes] in Hn. rewrite check_app, !IH; [reflexivity|lia|exact H|lia|exact H].
    + destruct ts as [|d [|m cases]]; try reflexivity. cbn [tsizes] in Hn. rewrite check_match, (IH m); [|lia|exact H]. cbn [andb].
      destruct (match d with TVar _ x => g_live g && String.eqb x (g_struct g) | _ => false end).
      * assert (Hc : tsizes cases < n) by lia. clear -IH H Hc. generalize (get_constructors univ c (g_type g)).
        induction cases as [|t cs IHc]; intros [|[k ty] ks]; cbn [check_zip]; try reflexivity. cbn [tsizes] in Hc. rewrite IH; [|lia|exact H]. apply IHc. lia.
      * rewrite IH; [|lia|exact H]. apply forallb_forall. intros t Ht. apply IH; [|exact H]. pose proof (tsizes_In _ _ Ht). lia.
  - rewrite tsize_bind in Hn. destruct bd.
    + destruct ts as [|A [|? ?]]; try reflexivity. cbn [tsizes] in Hn. cbn [check]. rewrite !IH; [reflexivity|lia|exact (shadowed_enter _ _ H)|lia|exact H].
    + destruct ts as [|A [|? ?]]; try reflexivity. cbn [tsizes] in Hn. destruct k.
      * rewrite check_lam0, !IH; [reflexivity|lia|exact (shadowed_enter _ _ H)|lia|exact H].
      * rewrite check_lamS. apply IH; [lia|exact (shadowed_mark _ _ H)].
    + destruct ts as [|A ts]; try reflexivity. rewrite check_fix. apply IH; [cbn [tsizes] in Hn; lia|exact (shadowed_enter _ _ H)].
    + destruct ts as [|A [|t [|? ?]]]; try reflexivity. cbn [tsizes] in Hn. rewrite check_let, !IH; [reflexivity|lia|exact (shadowed_enter _ _ H)|lia|exact H|lia|exact H].
Qed.
End Check.

(** ** Calls *)
Section Calls.
Context (c : context) (pos : nat) (glob : leaf -> value) (result : list value -> value -> Prop).
Context (glob_unmarked : forall l, unmarked (glob l)) (result_unmarked : forall l v, result l v -> unmarked v).
Context (fn sp ty : name) (k0 : name) (fs : list value).
Notation top := (VData k0 fs).
Notation part := (part c pos glob result top).
Context (top_unmarked : unmarked top).
Context (cty : term) (top_ctor : constructors _ c !! k0 = Some (ty, cty)) (top_full : count_pis _ cty <= length (drop (params c k0) fs)).

Definition fits (g : gctx) : Prop := g_fix g = fn /\ g_pos g = pos /\ g_struct g = sp /\ g_type g = ty.
Definition tracks (g : gctx) (e : env) : Prop :=
  (forall y w, In y (g_smaller g) -> get e y = Some w -> part w) /\ (g_live g = true -> get e sp = Some top).
(** Values whose code passes the guard; [good (S k)] are also those that expect [S k] parts first. *)
Inductive good : nat -> value -> Prop :=
| g_data k i vs : (forall w, In w vs -> good 0 w) -> good k (VData i vs)
| g_junk k : good k VJunk
| g_clo k g e x b : fits g -> tracks g e -> (forall y w, get e y = Some w -> good 0 w \/ (y = fn /\ ~ In fn (g_shadowed g) /\ w = VRec [])) ->
    check c (enter g x) [] 0 b = true -> good k (VClo e x b)
| g_fixp k g e h b : fits g -> tracks g e -> (forall y w, get e y = Some w -> good 0 w \/ (y = fn /\ ~ In fn (g_shadowed g) /\ w = VRec [])) ->
    check c (enter g h) [] 0 b = true -> good k (VFix e h b)
| g_marked k g e x b : fits g -> tracks g e -> (forall y w, get e y = Some w -> good 0 w \/ (y = fn /\ ~ In fn (g_shadowed g) /\ w = VRec [])) ->
    check c (mark g x) [] k b = true -> good (S k) (VClo e x b).
Definition models (g : gctx) (e : env) : Prop :=
  fits g /\ tracks g e /\ (forall y w, get e y = Some w -> good 0 w \/ (y = fn /\ ~ In fn (g_shadowed g) /\ w = VRec [])).
Lemma good_any k v : good 0 v -> good k v.
Proof. intros H. inversion H; subst; [apply g_data|apply g_junk|eapply g_clo|eapply g_fixp]; eassumption. Qed.

Lemma get_In (e : env) x v : get e x = Some v -> In (x, v) e.
Proof. induction e as [|[y w] e IH]; cbn [get]; [discriminate|]. destruct (String.eqb x y) eqn:E; [intros [= ->]; apply String.eqb_eq in E as ->; left; reflexivity|right; auto]. Qed.
Definition g0 : gctx := Guard fn pos sp ty [] false [fn].
Lemma unmarked_models e : (forall y w, get e y = Some w -> good 0 w) -> models g0 e.
Proof. intros H. split; [repeat split|]. split; [split; [intros y w []|discriminate]|]. intros y w Hy. left. eauto. Qed.
Fixpoint unmarked_good (v : value) (H : unmarked v) {struct H} : good 0 v.
Proof.
  destruct H as [k vs H|e x b H|e h b H|].
  - apply g_data. induction H as [|w vs Hw H IH]; intros w' []; [subst; apply unmarked_good; exact Hw|auto].
  - assert (Hg : forall y w, get e y = Some w -> good 0 w).
    { induction H as [|[y v] e Hv H IH]; cbn [get]; intros y' w' E; [discriminate|]. destruct (String.eqb y' y); [injection E as <-; apply unmarked_good; exact Hv|eauto]. }
    destruct (unmarked_models e Hg) as (F & T & M). eapply g_clo; [exact F|exact T|exact M|]. eapply check_shadowed; [apply Nat.lt_succ_diag_r|apply shadowed_enter; left; reflexivity].
  - assert (Hg : forall y w, get e y = Some w -> good 0 w).
    { induction H as [|[y v] e Hv H IH]; cbn [get]; intros y' w' E; [discriminate|]. destruct (String.eqb y' y); [injection E as <-; apply unmarked_good; exact Hv|eauto]. }
    destruct (unmarked_models e Hg) as (F & T & M). eapply g_fixp; [exact F|exact T|exact M|]. eapply check_shadowed; [apply Nat.lt_succ_diag_r|apply shadowed_enter; left; reflexivity].
  - apply g_junk.
Qed.

Lemma models_enter g e x a : models g e -> good 0 a -> models (enter g x) ((x, a) :: e).
Proof.
  intros ((F1 & F2 & F3 & F4) & (T1 & T2) & M) Ha. split; [repeat split; assumption|]. split; [split|].
  - intros y w Hy. cbn in Hy. apply filter_In in Hy as [Hy Hn]. cbn [get]. destruct (String.eqb y x) eqn:E; [apply String.eqb_eq in E as ->; rewrite String.eqb_refl in Hn; discriminate|]. eauto.
  - cbn. destruct (String.eqb x (g_struct g)) eqn:E; [discriminate|]. intros L. rewrite F3 in E. rewrite String.eqb_sym, E. auto.
  - intros y w. cbn [get]. destruct (String.eqb y x) eqn:E; [intros [= <-]; left; exact Ha|]. intros Hy. destruct (M y w Hy) as [Hw|(-> & Hn & ->)]; [left; exact Hw|right].
    split; [reflexivity|split; [|reflexivity]]. cbn. rewrite F1, String.eqb_sym, E. exact Hn.
Qed.
Lemma models_mark g e x a : models g e -> good 0 a -> part a -> models (mark g x) ((x, a) :: e).
Proof.
  intros ((F1 & F2 & F3 & F4) & (T1 & T2) & M) Ha Hp. split; [repeat split; assumption|]. split; [split|].
  - intros y w Hy. cbn [get]. destruct (String.eqb y x) eqn:E; [intros [= <-]; exact Hp|]. cbn in Hy. destruct Hy as [->|Hy]; [rewrite String.eqb_refl in E; discriminate|eauto].
  - cbn. destruct (String.eqb x (g_struct g)) eqn:E; [discriminate|]. intros L. rewrite F3 in E. rewrite String.eqb_sym, E. auto.
  - intros y w. cbn [get]. destruct (String.eqb y x) eqn:E; [intros [= <-]; left; exact Ha|]. intros Hy. destruct (M y w Hy) as [Hw|(-> & Hn & ->)]; [left; exact Hw|right].
    split; [reflexivity|split; [|reflexivity]]. cbn. rewrite F1, String.eqb_sym, E. exact Hn.
Qed.
Lemma index_lookup {A} (P : A -> bool) l j : index P l = Some j -> exists a, l !! j = Some a /\ P a = true.
Proof.
  revert j. induction l as [|a l IH]; intros j H; cbn in H; [discriminate|]. destruct (P a) eqn:E; [injection H as <-; eauto|].
  destruct (index P l) as [j'|] eqn:E'; [|discriminate]. injection H as <-. destruct (IH j' eq_refl) as (b & Hb & Pb). exists b. split; assumption.
Qed.
Lemma get_constructors_type i j k t : get_constructors _ c i !! j = Some (k, t) -> exists i', constructors _ c !! k = Some (i', t).
Proof.
  intros H. apply elem_of_list_lookup_2 in H. unfold get_constructors in H. apply elem_of_list_omap in H as (k' & _ & E).
  destruct (constructors _ c !! k') as [[i' t']|] eqn:E'; [|discriminate]. injection E as -> ->. eauto.
Qed.

Definition P_ev (e : env) (t : term) (v : value) (q : list value) : Prop := forall g, models g e ->
  (verify g t = true -> part v) /\
  (forall st k, check c g st k t = true ->
     (good k v \/ exists vs j, v = VRec vs /\ (forall w, In w vs -> good 0 w) /\ pos = length vs + j /\ st !! j = Some true) /\ Forall part q).
Definition P_ap (f a v : value) (q : list value) : Prop :=
  (forall k, good k f -> good 0 a -> (k = 0 \/ part a) -> good (pred k) v /\ Forall part q).
Definition P_aps (f : value) (l : list value) (v : value) (q : list value) : Prop :=
  (forall k, good k f -> Forall (good 0) l -> k <= length l -> (k = 0 \/ Forall part l) -> good 0 v /\ Forall part q).
Lemma calls : (forall e t v q, ev c pos glob result e t v q -> P_ev e t v q) /\ (forall f a v q, ap c pos glob result f a v q -> P_ap f a v q) /\
  (forall f l v q, aps c pos glob result f l v q -> P_aps f l v q).
Proof.
  apply sem_ind.
  - (* var *) intros e x v Hx g Hm. split.
    + cbn [verify]. intros H. apply mem_In in H. exact (proj1 (proj1 (proj2 Hm)) x v H Hx).
    + intros st k. rewrite check_var. intros H. split; [|constructor]. destruct Hm as ((F1 & F2 & _) & _ & M). destruct (M x v Hx) as [Hg|(-> & Hn & ->)]; [left; apply good_any, Hg|right].
      unfold is_rec in H. rewrite F1, String.eqb_refl, (proj2 (mem_not _ _) Hn) in H. cbn [andb negb] in H.
      exists [], pos. split; [reflexivity|]. split; [intros w []|]. split; [reflexivity|]. rewrite F2 in H. destruct (st !! pos) as [[]|]; congruence.
  - intros e l g Hm. split; [discriminate|]. intros st k _. split; [left; apply good_any, unmarked_good, glob_unmarked|constructor].
  - intros e g Hm. split; [discriminate|]. intros st k _. split; [left; apply g_junk|constructor].
  - intros e x A B g Hm. split; [discriminate|]. intros st k _. split; [left; apply g_junk|constructor].
  - intros e x A b g (F & T & M). split; [discriminate|]. intros st [|k] H; (split; [left|constructor]).
    + rewrite check_lam0 in H. apply andb_true_iff in H as [_ H]. eapply g_clo; eassumption.
    + rewrite check_lamS in H. eapply g_marked; eassumption.
  - intros e h b g (F & T & M). split; [discriminate|]. intros st k H. split; [left|constructor]. rewrite check_fix in H. eapply g_fixp; eassumption.
  - (* let *) intros e x A t b w v q q' _ IHt _ IHb g Hm. split; [discriminate|]. intros st k H. rewrite check_let in H. apply andb_true_iff in H as [H Hb]. apply andb_true_iff in H as [_ Ht].
    destruct (proj2 (IHt g Hm) [] 0 Ht) as [[Hw|(vs & j & _ & _ & _ & E)] Q]; [|rewrite lookup_nil in E; discriminate].
    destruct (proj2 (IHb (enter g x) (models_enter _ _ _ _ Hm Hw)) [] 0 Hb) as [[Hv|(vs & j & _ & _ & _ & E)] Q']; [|rewrite lookup_nil in E; discriminate].
    split; [left; apply good_any, Hv|apply Forall_app_2; assumption].
  - (* app *) intros e t u f a v q q' q'' _ IHt _ IHu Hap IHap g Hm. split.
    + cbn [verify]. intros H. eapply part_result; [exact (proj1 (IHt g Hm) H)|exact Hap].
    + intros st k H. rewrite check_app in H. apply andb_true_iff in H as [Hu Ht].
      destruct (proj2 (IHu g Hm) [] 0 Hu) as [[Ha|(vs & j & _ & _ & _ & E)] Q']; [|rewrite lookup_nil in E; discriminate].
      destruct (proj2 (IHt g Hm) _ 0 Ht) as [[Hf|(vs & j & -> & Hvs & Hpos & E)] Q].
      * destruct (IHap 0 Hf Ha (or_introl eq_refl)) as [Hv Q'']. split; [left; apply good_any, Hv|]. apply Forall_app_2; [exact Q|apply Forall_app_2; assumption].
      * inversion Hap; subst.
        -- destruct j as [|j]; [lia|]. split; [right; exists (vs ++ [a]), j|rewrite !app_nil_r; apply Forall_app_2; assumption].
           split; [reflexivity|]. split; [intros w Hw; apply in_app_or in Hw as [Hw|[<-|[]]]; auto|]. split; [rewrite app_length; cbn; lia|exact E].
        -- destruct j as [|j]; [|lia]. cbn in E. injection E as E. split; [left; apply good_any, unmarked_good; eauto|].
           apply Forall_app_2; [exact Q|apply Forall_app_2; [exact Q'|]]. constructor; [exact (proj1 (IHu g Hm) E)|constructor].
  - (* match *) intros e d m cases k vs t f v q q' q'' Hd IHd Hc _ IHt _ IHaps g Hm. split; [discriminate|]. intros st k' H. rewrite check_match in H. apply andb_true_iff in H as [_ H].
    destruct (match d with TVar _ x => g_live g && String.eqb x (g_struct g) | _ => false end) eqn:L.
    + destruct d as [x| | | |]; try discriminate. apply andb_true_iff in L as [L E]. apply String.eqb_eq in E as ->.
      pose proof Hm as ((F1 & F2 & F3 & F4) & (T1 & T2) & M). rewrite F3 in Hd. inversion Hd as [? ? ? G| | | | | | | |]; subst. rewrite (T2 L) in G. injection G as <- <-.
      unfold choose in Hc. rewrite top_ctor in Hc. cbn in Hc. destruct (index _ _) as [j|] eqn:J; [|discriminate]. cbn in Hc.
      apply index_lookup in J as ([k1 ty1] & J & K). apply String.eqb_eq in K as <-. destruct (get_constructors_type _ _ _ _ J) as (i' & E'). rewrite top_ctor in E'. injection E' as E1 E2. subst ty1.
      assert (Ht : check c g [] (count_pis _ cty) t = true) by (rewrite F4 in H; eapply check_zip_nth; eassumption).
      destruct (proj2 (IHt g Hm) [] _ Ht) as [[Hf|(vs & j' & _ & _ & _ & E)] Q']; [|rewrite lookup_nil in E; discriminate].
      assert (Gf : Forall (good 0) fs). { pose proof (unmarked_good _ top_unmarked) as G. inversion G; subst. apply List.Forall_forall. assumption. }
      assert (Pf : Forall part fs). { apply List.Forall_forall. intros w Hw. eapply part_field; [reflexivity|exact Hw]. }
      destruct (IHaps _ Hf (Forall_drop _ _ _ Gf) top_full (or_intror (Forall_drop _ _ _ Pf))) as [Hv Q''].
      split; [left; apply good_any, Hv|]. cbn [Datatypes.app]. apply Forall_app_2; assumption.
    + apply andb_true_iff in H as [H1 H2]. destruct (proj2 (IHd g Hm) [] 0 H1) as [[Hdv|(vs' & j & _ & _ & _ & E)] Q]; [|rewrite lookup_nil in E; discriminate].
      assert (Ht : check c g [] 0 t = true).
      { unfold choose in Hc. destruct (constructors _ c !! k) as [[i' t']|]; cbn in Hc; [|discriminate]. destruct (index _ _) as [j|]; cbn in Hc; [|discriminate].
        rewrite forallb_forall in H2. apply H2. apply elem_of_list_In. eapply elem_of_list_lookup_2; eassumption. }
      destruct (proj2 (IHt g Hm) [] 0 Ht) as [[Hf|(vs' & j & _ & _ & _ & E)] Q']; [|rewrite lookup_nil in E; discriminate].
      assert (Gv : Forall (good 0) vs) by (inversion Hdv; subst; apply List.Forall_forall; assumption).
      destruct (IHaps 0 Hf (Forall_drop _ _ _ Gv) (Nat.le_0_l _) (or_introl eq_refl)) as [Hv Q''].
      split; [left; apply good_any, Hv|]. apply Forall_app_2; [exact Q|apply Forall_app_2; assumption].
  - intros i vs a _ k Hf Ha _. split; [|constructor]. inversion Hf; subst. apply g_data. intros w Hw. apply in_app_or in Hw as [Hw|[<-|[]]]; auto.
  - intros e x b a v q _ IH k Hf Ha Hp. inversion Hf as [| |? g ? ? ? F T M H| |? g ? ? ? F T M H]; subst.
    + destruct (proj2 (IH (enter g x) (models_enter g e x a (conj F (conj T M)) Ha)) [] 0 H) as [[Hv|(vs & j & _ & _ & _ & E)] Q]; [|rewrite lookup_nil in E; discriminate].
      split; [apply good_any, Hv|exact Q].
    + destruct Hp as [?|Hp]; [lia|]. destruct (proj2 (IH (mark g x) (models_mark g e x a (conj F (conj T M)) Ha Hp)) [] _ H) as [[Hv|(vs & j & _ & _ & _ & E)] Q]; [|rewrite lookup_nil in E; discriminate].
      split; [exact Hv|exact Q].
  - intros e h b f a v q q' _ IHb _ IHap k Hf Ha Hp. inversion Hf as [| | |? g ? ? ? F T M H|]; subst.
    destruct (proj2 (IHb (enter g h) (models_enter g e h _ (conj F (conj T M)) (good_any 0 _ (g_fixp 0 g e h b F T M H)))) [] 0 H) as [[Hv|(vs & j & _ & _ & _ & E)] Q]; [|rewrite lookup_nil in E; discriminate].
    destruct (IHap 0 Hv Ha (or_introl eq_refl)) as [Hr Q']. split; [apply good_any, Hr|apply Forall_app_2; assumption].
  - intros vs a _ k Hf. inversion Hf.
  - intros vs a v _ _ k Hf. inversion Hf.
  - intros v k Hv _ Hk _. cbn in Hk. assert (k = 0) as -> by lia. split; [exact Hv|constructor].
  - intros f a l g v q q' _ IH1 _ IH2 k Hf Hl Hk Hp. inversion Hl; subst. cbn [length] in Hk.
    destruct (IH1 k Hf H1) as [Hg Q]; [destruct Hp as [->|Hp]; [left; reflexivity|right; inversion Hp; assumption]|].
    destruct (IH2 (pred k) Hg H2) as [Hv Q']; [lia|destruct Hp as [->|Hp]; [left; reflexivity|right; inversion Hp; assumption]|].
    split; [exact Hv|apply Forall_app_2; assumption].
Qed.
End Calls.

(** ** Whole activations *)
Section Activation.
Context (c : context) (pos : nat) (glob : leaf -> value) (result : list value -> value -> Prop).
Lemma aps_chain : forall p body e l r0 x A v q args r q', telescope body = (l, r0) -> l !! p = Some (x, A) -> p < length args ->
  ev c pos glob result e body v q -> aps c pos glob result v args r q' ->
  q = [] /\ exists v' q1 q2, ev c pos glob result (bind l (take (S p) args) e) (skip_lams (S p) body) v' q1 /\ aps c pos glob result v' (drop (S p) args) r q2 /\ q' = q1 ++ q2.
Proof.
  induction p as [|p IH]; intros body e l r0 x A v q args r q' Ht Hp Hl Hev Haps.
  all: destruct body as [y|lf| |nd ts|bd ts y b]; cbn [telescope] in Ht; try (injection Ht as <- <-; discriminate).
  all: destruct bd; try (injection Ht as <- <-; discriminate).
  all: destruct ts as [|A' [|? ?]]; try (injection Ht as <- <-; discriminate).
  all: destruct (telescope b) as [l' r'] eqn:Hb; injection Ht as <- <-.
  all: inversion Hev; subst; destruct args as [|a args]; [cbn in Hl; lia|]; inversion Haps; subst.
  all: match goal with H : ap _ _ _ _ (VClo _ _ _) _ _ _ |- _ => inversion H; subst end; (split; [reflexivity|]).
  - refine (ex_intro _ g (ex_intro _ _ (ex_intro _ _ (conj _ (conj _ eq_refl))))); cbn [take drop bind skip_lams]; [|rewrite drop_0; eassumption].
    destruct l' as [|[? ?] ?]; cbn [bind]; destruct b; eassumption.
  - cbn [length] in Hl. cbn in Hp. apply Nat.succ_lt_mono in Hl.
    match goal with H : ev _ _ _ _ _ b _ _, H' : aps _ _ _ _ _ args _ _ |- _ => destruct (IH b _ l' r' x A _ _ args _ _ Hb Hp Hl H H') as (-> & v' & q1 & q2 & E1 & E2 & ->) end.
    exists v', q1, q2. change (skip_lams (S (S p)) (TBind _ BLambda [A'] y b)) with (skip_lams (S p) b). cbn [take drop bind]. split; [exact E1|split; [exact E2|reflexivity]].
Qed.
Lemma get_bind l vs (e : env) y w : get (bind l vs e) y = Some w -> In w vs \/ get e y = Some w.
Proof.
  revert vs e. induction l as [|[z A] l IH]; intros [|v vs] e H; cbn [bind] in H; auto. apply IH in H as [H|H]; [left; right; exact H|].
  cbn [get] in H. destruct (String.eqb y z); [injection H as ->; left; left; reflexivity|right; exact H].
Qed.
Lemma get_bind_last l p x A vs (e : env) : l !! p = Some (x, A) -> length vs = S p -> get (bind l vs e) x = vs !! p.
Proof.
  revert l vs e. induction p as [|p IH]; intros [|[z B] l] [|v vs] e Hl Hv; cbn in Hl, Hv; try discriminate.
  - injection Hl as -> ->. destruct vs; [|discriminate]. cbn [bind]. destruct l as [|[? ?] ?]; cbn [bind get]; rewrite String.eqb_refl; reflexivity.
  - cbn [bind]. rewrite (IH l vs); [reflexivity|exact Hl|congruence].
Qed.
End Activation.

Lemma structural_param_spec c body x i p inner : structural_param c body = Some (x, i, p, inner) ->
  exists A, fst (telescope body) !! p = Some (x, A) /\ inductive_name c A = Some i /\ inner = skip_lams (S p) body.
Proof.
  unfold structural_param. destruct (telescope body) as [chain r] eqn:T. cbn [fst]. destruct (struct_pos c chain r) as [p'|]; cbn [mbind option_bind]; [|discriminate].
  destruct (chain !! p') as [[x' A]|] eqn:E; cbn [mbind option_bind]; [|discriminate]. destruct (inductive_name c A) as [i'|] eqn:I; cbn [mbind option_bind]; [|discriminate]. intros [= -> -> -> <-]. exists A. auto.
Qed.
Lemma activation (c : context) (f : name) (body : term) x i p inner glob (result : list value -> value -> Prop) (e0 : env) args k fs (ty : term) v q r q' :
  check_termination c f body = true -> structural_param c body = Some (x, i, p, inner) ->
  (forall l, unmarked (glob l)) -> (forall l w, result l w -> unmarked w) ->
  Forall (fun b => unmarked (snd b)) e0 -> Forall unmarked args -> args !! p = Some (VData k fs) ->
  constructors _ c !! k = Some (i, ty) -> count_pis _ ty <= length (drop (params c k) fs) ->
  ev c p glob result ((f, VRec []) :: e0) body v q -> aps c p glob result v args r q' ->
  Forall (part c p glob result (VData k fs)) (q ++ q').
Proof.
  intros Hc Hs Hglob Hres He Hargs Hp Hk Hfull Hev Haps. destruct (structural_param_spec _ _ _ _ _ _ Hs) as (A & Hl & Hi & ->).
  unfold check_termination in Hc. rewrite Hs in Hc. destruct (telescope body) as [l r0] eqn:T. cbn [fst] in Hl.
  assert (Hlen : p < length args) by (apply lookup_lt_Some in Hp; exact Hp).
  destruct (aps_chain c p glob result p body _ l r0 x A v q args r q' T Hl Hlen Hev Haps) as (-> & v' & q1 & q2 & E1 & E2 & ->). cbn [Datatypes.app].
  assert (Hu : unmarked (VData k fs)) by (rewrite List.Forall_forall in Hargs; apply Hargs; apply elem_of_list_In; eapply elem_of_list_lookup_2; exact Hp).
  set (g := Guard f p x i [] true []) in *.
  assert (G : forall w, unmarked w -> good c p glob result f x i k fs 0 w) by (intros w Hw; apply unmarked_good; exact Hw).
  assert (M : models c p glob result f x i k fs g (bind l (take (S p) args) ((f, VRec []) :: e0))).
  { split; [repeat split|]. split; [split; [intros y w []|]|].
    - intros _. rewrite (get_bind_last l p x A); [rewrite lookup_take; [exact Hp|lia]|exact Hl|rewrite take_length; lia].
    - intros y w Hy. apply get_bind in Hy as [Hy|Hy].
      + left. apply G. rewrite List.Forall_forall in Hargs. apply Hargs. apply elem_of_list_In in Hy. apply elem_of_list_In. eapply elem_of_take in Hy as (j & Hj & _). eapply elem_of_list_lookup_2; exact Hj.
      + cbn [get] in Hy. destruct (String.eqb y f) eqn:E; [injection Hy as <-; apply String.eqb_eq in E as ->; right; split; [reflexivity|split; [intros []|reflexivity]]|].
        left. apply G. apply get_In in Hy. rewrite List.Forall_forall in He. exact (He _ Hy). }
  destruct (calls c p glob result Hglob Hres f x i k fs Hu ty Hk Hfull) as (C1 & _ & C3).
  destruct (proj2 (C1 _ _ _ _ E1 g M) [] 0 Hc) as [[Hv|(vs & j & _ & _ & _ & E)] Q1]; [|rewrite lookup_nil in E; discriminate].
  destruct (C3 _ _ _ _ E2 0 Hv) as [_ Q2]; [|lia|left; reflexivity|].
  - apply Forall_drop. eapply Forall_impl; [exact Hargs|exact G].
  - apply Forall_app_2; assumption.
Qed.

(** ** First-order data *)
Lemma data_part c pos glob result k fs w : data c (VData k fs) -> part c pos glob result (VData k fs) w -> In w fs.
Proof.
  intros D H. induction H as [k' vs w E Hw|w a r q H IH Hap]; [injection E as -> ->; exact Hw|]. exfalso.
  inversion D as [? ? _ Hall]; subst. rewrite List.Forall_forall in Hall. specialize (Hall _ IH). inversion Hall as [k' vs Hl Hv]; subst. inversion Hap; subst. lia.
Qed.
Lemma size_field k fs w : In w fs -> size w < size (VData k fs).
Proof.
  cbn [size]. intros H. enough (size w <= (fix go (vs : list value) : nat := match vs with [] => 0 | w :: vs => size w + go vs end) fs) by lia.
  induction fs as [|v fs IH]; [destruct H|]. destruct H as [->|H]; [lia|specialize (IH H); lia].
Qed.
Fixpoint data_unmarked c v (H : data c v) {struct H} : unmarked v.
Proof. destruct H as [k vs Hl Hv]. constructor. clear Hl. induction Hv as [|w vs Hw Hv IH]; constructor; [exact (data_unmarked c w Hw)|exact IH]. Qed.

(** ** The two guards *)
Section Agree.
Context (c : context).
(** No match on a variable of the name of the structural parameter has more cases than its type has constructors. *)
Inductive covered (sp i : name) : term -> Prop :=
| cv_var x : covered sp i (TVar _ x)
| cv_leaf l : covered sp i (TLeaf _ l)
| cv_hole : covered sp i (THole _)
| cv_app t u : covered sp i t -> covered sp i u -> covered sp i (TNode _ NApp [t; u])
| cv_match d m cases : covered sp i d -> covered sp i m -> (forall t, In t cases -> covered sp i t) ->
    (d = TVar _ sp -> length cases <= length (get_constructors _ c i)) -> covered sp i (TNode _ NMatch (d :: m :: cases))
| cv_bind k ts x b : (forall t, In t ts -> covered sp i t) -> covered sp i b -> covered sp i (TBind _ k ts x b).

Context (fn sp ty : name) (pos fixl structl : nat).
Definition agree (g : gctx) (s : list name) (sm : list nat) : Prop :=
  g_fix g = fn /\ g_pos g = pos /\ g_struct g = sp /\ g_type g = ty /\ fixl < length s /\ structl < length s /\ (forall l, In l sm -> l < length s) /\
  forall y k, index (String.eqb y) s = Some k ->
    k < length s /\ is_rec g y = is_level (length s) k fixl /\ mem y (g_smaller g) = bool_decide (length s - 1 - k ∈ sm) /\ g_live g && String.eqb y sp = is_level (length s) k structl.
Lemma index_cons y x s k : index (String.eqb y) (x :: s) = Some k -> (y = x /\ k = 0) \/ (y <> x /\ exists k', k = S k' /\ index (String.eqb y) s = Some k').
Proof.
  cbn [index]. destruct (String.eqb y x) eqn:E; [intros [= <-]; left; apply String.eqb_eq in E; auto|]. apply String.eqb_neq in E.
  destruct (index (String.eqb y) s) as [k'|]; [|discriminate]. intros [= <-]. right. split; [exact E|]. eauto.
Qed.
Lemma is_level_S n k l : is_level (S n) (S k) l = is_level n k l.
Proof.
  unfold is_level, level_of. change (S k <? S n) with (k <? n). destruct (k <? n) eqn:E; [|reflexivity]. apply Nat.ltb_lt in E. apply bool_decide_ext. replace (S n - 1 - S k) with (n - 1 - k) by lia. reflexivity.
Qed.
Lemma is_level_0 n l : l < n -> is_level (S n) 0 l = false.
Proof. intros H. unfold is_level, level_of. cbn. apply bool_decide_eq_false. intros [= E]. lia. Qed.
Lemma agree_enter g s sm x : agree g s sm -> agree (enter g x) (x :: s) sm.
Proof.
  intros (F1 & F2 & F3 & F4 & L1 & L2 & L3 & H). unfold agree. cbn [length]. repeat (split; [first [assumption|lia|intros l Hl; specialize (L3 l Hl); lia]|]).
  intros y k Hk. apply index_cons in Hk as [[-> ->]|(Hn & k' & -> & Hk)].
  - split; [lia|]. split; [|split].
    + rewrite is_level_0 by lia. unfold is_rec, enter. cbn. destruct (String.eqb x (g_fix g)) eqn:E; [|reflexivity]. cbn. rewrite String.eqb_refl. reflexivity.
    + transitivity false; [|symmetry; apply bool_decide_eq_false; intros Hl; apply elem_of_list_In in Hl; specialize (L3 _ Hl); lia]. apply mem_not. cbn. intros Hin. apply filter_In in Hin as [_ Hin]. rewrite String.eqb_refl in Hin. discriminate.
    + rewrite is_level_0 by lia. cbn. rewrite F3. destruct (String.eqb x sp); [reflexivity|apply andb_false_r].
  - destruct (H y k' Hk) as (H0 & H1 & H2 & H3). split; [lia|]. rewrite !is_level_S. split; [|split].
    + rewrite <- H1. unfold is_rec, enter. cbn. destruct (String.eqb x (g_fix g)); [|reflexivity]. cbn. rewrite (proj2 (String.eqb_neq y x) Hn). reflexivity.
    + replace (S (length s) - 1 - S k') with (length s - 1 - k') by lia. rewrite <- H2. unfold enter; cbn [g_smaller]. apply eq_iff_eq_true. rewrite !mem_In, filter_In. split; [intros [? _]; assumption|intros Hin; split; [exact Hin|]].
      destruct (String.eqb x y) eqn:E; [apply String.eqb_eq in E; congruence|reflexivity].
    + rewrite <- H3. cbn. destruct (String.eqb x (g_struct g)) eqn:E; [|reflexivity]. apply String.eqb_eq in E. rewrite F3 in E. subst x. rewrite (proj2 (String.eqb_neq y sp) Hn), !andb_false_r. reflexivity.
Qed.
Lemma agree_mark g s sm x : agree g s sm -> agree (mark g x) (x :: s) (length s :: sm).
Proof.
  intros (F1 & F2 & F3 & F4 & L1 & L2 & L3 & H). unfold agree. cbn [length]. repeat (split; [first [assumption|lia|intros l [<-|Hl]; [lia|specialize (L3 l Hl); lia]]|]).
  intros y k Hk. apply index_cons in Hk as [[-> ->]|(Hn & k' & -> & Hk)].
  - split; [lia|]. split; [|split].
    + rewrite is_level_0 by lia. unfold is_rec, mark. cbn. destruct (String.eqb x (g_fix g)) eqn:E; [|reflexivity]. cbn. rewrite String.eqb_refl. reflexivity.
    + transitivity true; [apply mem_In; left; reflexivity|symmetry; apply bool_decide_eq_true]. replace (S (length s) - 1 - 0) with (length s) by lia. left.
    + rewrite is_level_0 by lia. cbn. rewrite F3. destruct (String.eqb x sp); [reflexivity|apply andb_false_r].
  - destruct (H y k' Hk) as (H0 & H1 & H2 & H3). split; [lia|]. rewrite !is_level_S. split; [|split].
    + rewrite <- H1. unfold is_rec, mark. cbn. destruct (String.eqb x (g_fix g)); [|reflexivity]. cbn. rewrite (proj2 (String.eqb_neq y x) Hn). reflexivity.
    + replace (S (length s) - 1 - S k') with (length s - 1 - k') by lia. apply eq_iff_eq_true. rewrite mem_In, bool_decide_eq_true. cbn. rewrite elem_of_cons. rewrite <- mem_In, H2, bool_decide_eq_true.
      split; [intros [->|?]; [congruence|right; assumption]|intros [?|?]; [lia|right; assumption]].
    + rewrite <- H3. cbn. destruct (String.eqb x (g_struct g)) eqn:E; [|reflexivity]. apply String.eqb_eq in E. rewrite F3 in E. subst x. rewrite (proj2 (String.eqb_neq y sp) Hn), !andb_false_r. reflexivity.
Qed.
Fixpoint db_zip sm n (cs : list db) (ks : list (name * term)) : bool :=
  match cs, ks with
  | t :: cs, (_, u) :: ks => db_check c fixl pos structl ty sm n [] (count_pis _ u) t && db_zip sm n cs ks
  | t :: cs, [] => db_check c fixl pos structl ty sm n [] 0 t && db_zip sm n cs []
  | [], _ => true
  end.
Lemma db_check_match sm n st k d m cases : db_check c fixl pos structl ty sm n st k (DMatch d m cases) =
  db_check c fixl pos structl ty sm n [] 0 m && (if match d with DVar x => is_level n x structl | _ => false end then db_zip sm n cases (get_constructors _ c ty)
                       else db_check c fixl pos structl ty sm n [] 0 d && forallb (db_check c fixl pos structl ty sm n [] 0) cases).
Proof.
  cbn [db_check]. f_equal. destruct (match d with DVar x => is_level n x structl | _ => false end); [|f_equal]; clear.
  generalize (get_constructors univ c ty). induction cases as [|t cs IH]; intros [|[k' u] ks]; cbn [db_zip]; try reflexivity; f_equal; apply IH.
Qed.
Fixpoint to_dbs (s : list name) (cs : list term) : option (list db) := match cs with [] => Some [] | t :: cs => t ← to_db s t; cs ← to_dbs s cs; Some (t :: cs) end.
Lemma to_db_match s d m cs : to_db s (TNode _ NMatch (d :: m :: cs)) = (d ← to_db s d; m ← to_db s m; cs ← to_dbs s cs; Some (DMatch d m cs)).
Proof.
  cbn [to_db]. destruct (to_db s d) as [d'|]; [|reflexivity]. cbn [mbind option_bind]. destruct (to_db s m) as [m'|]; [|reflexivity]. cbn [mbind option_bind]. f_equal.
  clear. induction cs as [|t cs IH]; [reflexivity|]. cbn [to_dbs]. rewrite <- IH. reflexivity.
Qed.
Lemma agree_verify t : forall g s sm d, agree g s sm -> to_db s t = Some d -> verify g t = db_verify (length s) sm d.
Proof.
  assert (HH : forall n t g s sm d, tsize t < n -> agree g s sm -> to_db s t = Some d -> verify g t = db_verify (length s) sm d); [|intros; eapply HH; eauto].
  clear t. induction n as [|n IH]; intros t g s sm d Hn Ha Hd; [lia|]. destruct t as [x|l| |nd ts|bd ts x b].
  - cbn [to_db] in Hd. destruct (index (String.eqb x) s) as [k|] eqn:E; [|discriminate]. injection Hd as <-. cbn [verify db_verify]. destruct Ha as (_ & _ & _ & _ & _ & _ & _ & H).
    destruct (H x k E) as (H0 & _ & H2 & _). unfold level_of. rewrite (proj2 (Nat.ltb_lt _ _) H0). exact H2.
  - injection Hd as <-. reflexivity.
  - discriminate.
  - destruct nd.
    + destruct ts as [|t [|u [|? ?]]]; try discriminate. rewrite tsize_node in Hn. cbn [tsizes] in Hn. cbn [to_db] in Hd. destruct (to_db s t) as [t'|] eqn:E; [|discriminate]. cbn in Hd. destruct (to_db s u); [|discriminate]. injection Hd as <-.
      cbn [verify db_verify]. eapply IH; [lia|exact Ha|exact E].
    + destruct ts as [|t [|u cs]]; try discriminate. rewrite to_db_match in Hd. destruct (to_db s t); [|discriminate]. cbn in Hd. destruct (to_db s u); [|discriminate]. cbn in Hd. destruct (to_dbs s cs); [|discriminate]. injection Hd as <-. reflexivity.
  - destruct bd; cbn [to_db] in Hd; repeat (destruct ts as [|? ts]; try discriminate); repeat (match type of Hd with context [to_db ?a ?b] => destruct (to_db a b); [|discriminate] end; cbn in Hd); injection Hd as <-; reflexivity.
Qed.
Lemma agree_check n : forall t g s sm d st k, tsize t < n -> agree g s sm -> covered sp ty t -> to_db s t = Some d ->
  check c g st k t = db_check c fixl pos structl ty sm (length s) st k d.
Proof.
  induction n as [|n IH]; intros t g s sm d st k Hn Ha Hc Hd; [lia|]. destruct t as [x|l| |nd ts|bd ts x b].
  - cbn [to_db] in Hd. destruct (index (String.eqb x) s) as [j|] eqn:E; [|discriminate]. injection Hd as <-. rewrite check_var. cbn [db_check].
    destruct Ha as (_ & F2 & _ & _ & _ & _ & _ & H). destruct (H x j E) as (_ & H1 & _). rewrite H1, F2. reflexivity.
  - injection Hd as <-. reflexivity.
  - discriminate.
  - rewrite tsize_node in Hn. destruct nd.
    + destruct ts as [|t [|u [|? ?]]]; try discriminate. cbn [tsizes] in Hn. cbn [to_db] in Hd. destruct (to_db s t) as [t'|] eqn:E; [|discriminate]. cbn in Hd. destruct (to_db s u) as [u'|] eqn:E'; [|discriminate]. injection Hd as <-.
      rewrite check_app. cbn [db_check]. inversion Hc; subst. rewrite (agree_verify u g s sm u' Ha E'). f_equal; eapply IH; try eassumption; lia.
    + destruct ts as [|t [|u cs]]; try discriminate. cbn [tsizes] in Hn. rewrite to_db_match in Hd. destruct (to_db s t) as [t'|] eqn:E; [|discriminate]. cbn in Hd. destruct (to_db s u) as [u'|] eqn:E'; [|discriminate]. cbn in Hd. destruct (to_dbs s cs) as [cs'|] eqn:E''; [|discriminate]. injection Hd as <-.
      inversion Hc as [| | | |? ? ? C1 C2 C3 C4|]; subst. rewrite check_match, db_check_match. f_equal; [eapply IH; try eassumption; lia|].
      assert (B : match t with TVar _ x => g_live g && String.eqb x (g_struct g) | _ => false end = match t' with DVar x => is_level (length s) x structl | _ => false end).
      { destruct t as [x|l| |nd ts|bd ts x b]; try (cbn [to_db] in E; injection E as <-; reflexivity); try discriminate.
        - cbn [to_db] in E. destruct (index (String.eqb x) s) as [j|] eqn:J; [|discriminate]. injection E as <-. destruct Ha as (_ & _ & F3 & _ & _ & _ & _ & H). destruct (H x j J) as (_ & _ & _ & H3). rewrite F3. exact H3.
        - destruct nd.
          + destruct ts as [|t1 [|t2 [|? ?]]]; try discriminate. cbn [to_db] in E. destruct (to_db s t1); [|discriminate]. cbn in E. destruct (to_db s t2); [|discriminate]. injection E as <-. reflexivity.
          + destruct ts as [|t1 [|t2 ts]]; try discriminate. rewrite to_db_match in E. destruct (to_db s t1); [|discriminate]. cbn in E. destruct (to_db s t2); [|discriminate]. cbn in E. destruct (to_dbs s ts); [|discriminate]. injection E as <-. reflexivity.
        - destruct bd; cbn [to_db] in E; repeat (destruct ts as [|? ts]; try discriminate); repeat (match type of E with context [to_db ?a ?b] => destruct (to_db a b); [|discriminate] end; cbn in E); injection E as <-; reflexivity. }
      rewrite <- B. destruct (match t with TVar _ x => g_live g && String.eqb x (g_struct g) | _ => false end) eqn:L.
      * assert (Hlen : length cs <= length (get_constructors _ c ty)).
        { apply C4. destruct t; try discriminate. apply andb_true_iff in L as [_ L]. apply String.eqb_eq in L as ->. destruct Ha as (_ & _ & -> & _). reflexivity. }
        pose proof Ha as Ha'. destruct Ha as (F1 & F2 & F3 & F4 & Ha). rewrite F4.
        assert (Hcs : tsizes cs < n) by lia. clear -IH Ha' C3 E'' Hlen Hcs. revert cs' Hlen C3 Hcs E''. generalize (get_constructors univ c ty).
        induction cs as [|t cs IHc]; intros [|[k u] ks] cs' Hlen C3 Hcs E; cbn [to_dbs] in E.
        -- injection E as <-. reflexivity.
        -- injection E as <-. reflexivity.
        -- cbn [length] in Hlen. lia.
        -- destruct (to_db s t) as [t'|] eqn:Et; [|discriminate]. cbn in E. destruct (to_dbs s cs) as [cs''|] eqn:Ecs; [|discriminate]. injection E as <-. cbn [tsizes length] in Hcs, Hlen. cbn [check_zip db_zip]. f_equal.
           ++ eapply IH; [lia|exact Ha'|apply C3; left; reflexivity|exact Et].
           ++ apply IHc; [lia|intros; apply C3; right; assumption|lia|reflexivity].
      * f_equal; [eapply IH; try eassumption; lia|]. assert (Hcs : tsizes cs < n) by lia. clear -IH Ha C3 E'' Hcs. revert cs' C3 Hcs E''.
        induction cs as [|t cs IHc]; intros cs' C3 Hcs E; cbn [to_dbs] in E.
        -- injection E as <-. reflexivity.
        -- destruct (to_db s t) as [t'|] eqn:Et; [|discriminate]. cbn in E. destruct (to_dbs s cs) as [cs''|] eqn:Ecs; [|discriminate]. injection E as <-. cbn [tsizes] in Hcs. cbn [forallb]. f_equal.
           ++ eapply IH; [lia|exact Ha|apply C3; left; reflexivity|exact Et].
           ++ apply IHc; [intros; apply C3; right; assumption|lia|reflexivity].
  - rewrite tsize_bind in Hn. inversion Hc as [| | | | |? ? ? ? C1 C2]; subst. destruct bd; cbn [to_db] in Hd; repeat (destruct ts as [|? ts]; try discriminate); cbn [tsizes] in Hn;
      repeat (match type of Hd with context [to_db ?a ?b] => let E := fresh "E" in destruct (to_db a b) eqn:E; [|discriminate] end; cbn in Hd); injection Hd as <-.
    + cbn [check db_check]. f_equal; [eapply IH; [lia|exact Ha|apply C1; left; reflexivity|eassumption]|]. change (S (length s)) with (length (x :: s)). eapply IH; [lia|exact (agree_enter _ _ _ _ Ha)|exact C2|eassumption].
    + destruct k; [rewrite check_lam0|rewrite check_lamS]; cbn [db_check].
      * f_equal; [eapply IH; [lia|exact Ha|apply C1; left; reflexivity|eassumption]|]. change (S (length s)) with (length (x :: s)). eapply IH; [lia|exact (agree_enter _ _ _ _ Ha)|exact C2|eassumption].
      * change (S (length s)) with (length (x :: s)). eapply IH; [lia|exact (agree_mark _ _ _ _ Ha)|exact C2|eassumption].
    + rewrite check_fix. cbn [db_check]. change (S (length s)) with (length (x :: s)). eapply IH; [lia|exact (agree_enter _ _ _ _ Ha)|exact C2|eassumption].
    + rewrite check_let. cbn [db_check]. f_equal; [f_equal; (eapply IH; [lia|exact Ha|apply C1; cbn; auto|eassumption])|]. change (S (length s)) with (length (x :: s)). eapply IH; [lia|exact (agree_enter _ _ _ _ Ha)|exact C2|eassumption].
Qed.
End Agree.

Lemma to_db_inductive c s t : forall d, to_db s t = Some d -> db_inductive c d = inductive_name c t.
Proof.
  assert (HH : forall n t d, tsize t < n -> to_db s t = Some d -> db_inductive c d = inductive_name c t); [|intros; eapply HH; eauto].
  clear t. induction n as [|n IH]; intros t d Hn Hd; [lia|]. destruct t as [x|l| |nd ts|bd ts x b].
  - cbn [to_db] in Hd. destruct (index (String.eqb x) s); [|discriminate]. injection Hd as <-. reflexivity.
  - injection Hd as <-. destruct l; reflexivity.
  - discriminate.
  - rewrite tsize_node in Hn. destruct nd.
    + destruct ts as [|t [|u [|? ?]]]; try discriminate. cbn [tsizes] in Hn. cbn [to_db] in Hd. destruct (to_db s t) as [t'|] eqn:E; [|discriminate]. cbn in Hd. destruct (to_db s u); [|discriminate]. injection Hd as <-.
      cbn [db_inductive inductive_name]. eapply IH; [lia|exact E].
    + destruct ts as [|t [|u cs]]; try discriminate. rewrite to_db_match in Hd. destruct (to_db s t); [|discriminate]. cbn in Hd. destruct (to_db s u); [|discriminate]. cbn in Hd. destruct (to_dbs s cs); [|discriminate]. injection Hd as <-. reflexivity.
  - destruct bd; cbn [to_db] in Hd; repeat (destruct ts as [|? ts]; try discriminate); repeat (match type of Hd with context [to_db ?a ?b] => destruct (to_db a b); [|discriminate] end; cbn in Hd); injection Hd as <-; reflexivity.
Qed.
Lemma to_db_shape s t d : to_db s t = Some d -> (exists x A b A' b', t = lam x A b /\ d = DLam A' b' /\ to_db s A = Some A' /\ to_db (x :: s) b = Some b') \/ (telescope t = ([], t) /\ db_telescope d = ([], d) /\ forall k, skip_lams k t = t /\ db_skip k d = d).
Proof.
  intros Hd. destruct t as [x|l| |nd ts|bd ts x b].
  - right. cbn [to_db] in Hd. destruct (index (String.eqb x) s); [|discriminate]. injection Hd as <-. repeat split; destruct k; reflexivity.
  - right. injection Hd as <-. repeat split; destruct k; reflexivity.
  - discriminate.
  - right. destruct nd.
    + destruct ts as [|t [|u [|? ?]]]; try discriminate. cbn [to_db] in Hd. destruct (to_db s t) as [t'|] eqn:E; [|discriminate]. cbn in Hd. destruct (to_db s u); [|discriminate]. injection Hd as <-. repeat split; destruct k; reflexivity.
    + destruct ts as [|t [|u cs]]; try discriminate. rewrite to_db_match in Hd. destruct (to_db s t); [|discriminate]. cbn in Hd. destruct (to_db s u); [|discriminate]. cbn in Hd. destruct (to_dbs s cs); [|discriminate]. injection Hd as <-. repeat split; destruct k; reflexivity.
  - destruct bd; cbn [to_db] in Hd; repeat (destruct ts as [|? ts]; try discriminate); repeat (match type of Hd with context [to_db ?a ?b] => let E := fresh "E" in destruct (to_db a b) eqn:E; [|discriminate] end; cbn in Hd); injection Hd as <-;
      first [left; do 5 eexists; repeat split; eassumption|right; repeat split; destruct k; reflexivity].
Qed.
Lemma to_db_telescope c t : forall s d, to_db s t = Some d -> exists l r ds r', telescope t = (l, r) /\ db_telescope d = (ds, r') /\ length ds = length l /\
  to_db (rev (map fst l) ++ s) r = Some r' /\ (forall p, db_inductive c <$> (ds !! p) = inductive_name c <$> (snd <$> (l !! p))) /\
  (forall k, k <= length l -> to_db (rev (map fst (take k l)) ++ s) (skip_lams k t) = Some (db_skip k d)).
Proof.
  assert (HH : forall n t s d, tsize t < n -> to_db s t = Some d -> exists l r ds r', telescope t = (l, r) /\ db_telescope d = (ds, r') /\ length ds = length l /\
  to_db (rev (map fst l) ++ s) r = Some r' /\ (forall p, db_inductive c <$> (ds !! p) = inductive_name c <$> (snd <$> (l !! p))) /\
  (forall k, k <= length l -> to_db (rev (map fst (take k l)) ++ s) (skip_lams k t) = Some (db_skip k d))); [|intros; eapply HH; eauto].
  clear t. induction n as [|n IH]; intros t s d Hn Hd; [lia|]. pose proof (to_db_shape s t d Hd) as [(x & A & b & A' & b' & -> & -> & HA & Hb)|(T1 & T2 & K)].
  - rewrite tsize_bind in Hn. cbn [tsizes] in Hn. destruct (IH b (x :: s) b') as (l & r & ds & r' & E1 & E2 & E3 & E4 & E5 & E6); [lia|exact Hb|].
    exists ((x, A) :: l), r, (A' :: ds), r'. cbn [telescope db_telescope]. rewrite E1, E2. split; [reflexivity|]. split; [reflexivity|]. split; [cbn; lia|]. split; [|split].
    + cbn [map fst rev]. rewrite <- app_assoc. exact E4.
    + intros [|p]; [cbn; f_equal; apply (to_db_inductive c s A A' HA)|exact (E5 p)].
    + intros [|k] Hk; [cbn [take map rev skip_lams db_skip Datatypes.app]; exact Hd|]. cbn [length] in Hk. cbn [take map fst rev skip_lams db_skip]. rewrite <- app_assoc. apply E6. lia.
  - exists [], t, [], d. split; [exact T1|]. split; [exact T2|]. split; [reflexivity|]. split; [exact Hd|]. split; [intros p; reflexivity|]. intros k Hk. destruct (K k) as [-> ->]. destruct k; exact Hd.
Qed.
Lemma index_ext {A B} (P : A -> bool) (Q : B -> bool) l m : length l = length m -> (forall j a b, l !! j = Some a -> m !! j = Some b -> P a = Q b) -> index P l = index Q m.
Proof.
  revert m. induction l as [|a l IH]; intros [|b m] Hl H; cbn in Hl; try discriminate; [reflexivity|]. cbn [index]. rewrite (H 0 a b eq_refl eq_refl). destruct (Q b); [reflexivity|]. f_equal. apply IH; [congruence|]. intros j. exact (H (S j)).
Qed.
Lemma index_app_l y (l m : list name) : In y l -> index (String.eqb y) (l ++ m) = index (String.eqb y) l.
Proof. induction l as [|x l IH]; intros []; cbn [index Datatypes.app]; [subst; rewrite String.eqb_refl; reflexivity|]. destruct (String.eqb y x); [reflexivity|]. rewrite (IH H). reflexivity. Qed.
Lemma index_app_r y (l m : list name) : ~ In y l -> index (String.eqb y) (l ++ m) = (fun k => length l + k) <$> index (String.eqb y) m.
Proof.
  induction l as [|x l IH]; intros Hn; cbn [index Datatypes.app length]; [destruct (index (String.eqb y) m); reflexivity|]. destruct (String.eqb y x) eqn:E; [apply String.eqb_eq in E; subst; exfalso; apply Hn; left; reflexivity|].
  rewrite IH; [|intros ?; apply Hn; right; assumption]. destruct (index (String.eqb y) m); reflexivity.
Qed.
Lemma index_nodup y (l : list name) p : List.NoDup l -> l !! p = Some y -> index (String.eqb y) l = Some p.
Proof.
  revert p. induction l as [|x l IH]; intros p Hd Hp; [discriminate|]. inversion Hd; subst. cbn [index]. destruct p as [|p]; cbn in Hp; [injection Hp as ->; rewrite String.eqb_refl; reflexivity|].
  destruct (String.eqb y x) eqn:E; [apply String.eqb_eq in E; subst; exfalso; apply H1; apply elem_of_list_In; eapply elem_of_list_lookup_2; exact Hp|]. rewrite (IH p H2 Hp). reflexivity.
Qed.
Lemma lookup_rev {A} (l : list A) p : p < length l -> rev l !! (length l - 1 - p) = l !! p.
Proof.
  intros H. replace (rev l) with (reverse l) by (unfold reverse; symmetry; apply rev_alt). rewrite reverse_lookup by lia. f_equal. lia.
Qed.
Lemma index_lt {A} (P : A -> bool) l j : index P l = Some j -> j < length l.
Proof. intros H. destruct (index_lookup P l j H) as (a & Ha & _). eapply lookup_lt_Some; exact Ha. Qed.
Lemma lookup_take_lt {A} (l : list A) i n : i < n -> take n l !! i = l !! i.
Proof. apply lookup_take. Qed.

Lemma same_guard c f s body b : to_db (f :: s) body = Some b -> List.NoDup (f :: map fst (fst (telescope body))) ->
  (forall x i p inner, structural_param c body = Some (x, i, p, inner) -> covered c x i inner) ->
  check_termination c f body = db_check_terminates c (length s) b.
Proof.
  intros Hb Hnd Hcov. destruct (to_db_telescope c body (f :: s) b Hb) as (l & r & ds & r' & E1 & E2 & E3 & E4 & E5 & E6).
  unfold check_termination, db_check_terminates. rewrite E2. rewrite E1 in Hnd. cbn [fst] in Hnd. inversion Hnd as [|? ? Hf Hl]; subst.
  assert (Hfirst : index (fun '(_, A) => is_some (inductive_name c A)) l = index (fun A => is_some (db_inductive c A)) ds).
  { apply index_ext; [congruence|]. intros j [x A] B H1 H2. specialize (E5 j). rewrite H1, H2 in E5. cbn in E5. injection E5 as ->. reflexivity. }
  assert (Hind : forall p, match l !! p with Some (_, A) => is_some (inductive_name c A) | None => false end = match ds !! p with Some A => is_some (db_inductive c A) | None => false end).
  { intros p. specialize (E5 p). destruct (l !! p) as [[x A]|], (ds !! p) as [B|]; cbn in E5; try discriminate; [injection E5 as ->; reflexivity|reflexivity]. }
  assert (Hscr : match r with matches (TVar _ d) _ _ => index (fun '(x, _) => String.eqb x d) l | _ => None end =
    match r' with DMatch (DVar k) _ _ => match level_of (S (length s) + length ds) k with Some lv => if S (length s) <=? lv then Some (lv - S (length s)) else None | None => None end | _ => None end).
  { destruct r as [x|lf| |nd ts|bd ts x b0].
    - cbn [to_db] in E4. destruct (index (String.eqb x) _); [|discriminate]. injection E4 as <-. reflexivity.
    - injection E4 as <-. reflexivity.
    - discriminate.
    - destruct nd.
      + destruct ts as [|t [|u [|? ?]]]; try discriminate. cbn [to_db] in E4. destruct (to_db _ t) as [t'|]; [|discriminate]. cbn in E4. destruct (to_db _ u); [|discriminate]. injection E4 as <-. reflexivity.
      + destruct ts as [|t [|u cs]]; try discriminate. rewrite to_db_match in E4. destruct (to_db _ t) as [t'|] eqn:Et; [|discriminate]. cbn in E4. destruct (to_db _ u) as [u'|]; [|discriminate]. cbn in E4. destruct (to_dbs _ cs) as [cs'|]; [|discriminate]. injection E4 as <-.
        destruct t as [d|lf| |nd ts|bd ts x b0].
        * cbn [to_db] in Et. destruct (index (String.eqb d) (rev (map fst l) ++ f :: s)) as [k|] eqn:Ek; [|discriminate]. injection Et as <-.
          assert (Hk : k < length l + S (length s)). { apply index_lt in Ek. rewrite app_length, rev_length, map_length in Ek. exact Ek. }
          unfold level_of. rewrite E3. destruct (Nat.ltb_spec k (S (length s) + length l)); [|lia].
          destruct (in_dec string_dec d (map fst l)) as [Hin|Hout].
          -- rewrite index_app_l in Ek by (rewrite <- in_rev; exact Hin). destruct (In_nth_error _ _ Hin) as [p Hp]. assert (Hp' : map fst l !! p = Some d) by (clear -Hp; revert p Hp; induction (map fst l) as [|? ? IH]; intros [|p] Hp; cbn in *; try discriminate; auto).
             pose proof (lookup_lt_Some _ _ _ Hp') as Hlt. rewrite map_length in Hlt.
             assert (Hrev : rev (map fst l) !! (length l - 1 - p) = Some d). { rewrite <- (map_length fst l). rewrite lookup_rev; [exact Hp'|rewrite map_length; exact Hlt]. }
             rewrite (index_nodup d (rev (map fst l)) (length l - 1 - p)) in Ek; [|apply NoDup_rev; exact Hl|exact Hrev]. injection Ek as <-.
             destruct (Nat.leb_spec (S (length s)) (S (length s) + length l - 1 - (length l - 1 - p))); [|lia]. replace (S (length s) + length l - 1 - (length l - 1 - p) - S (length s)) with p by lia.
             transitivity (index (String.eqb d) (map fst l)); [|apply index_nodup; assumption]. apply index_ext; [rewrite map_length; reflexivity|]. intros j [x A] y H1 H2.
             assert (H2' : map fst l !! j = Some x) by (clear -H1; revert j H1; induction l as [|? ? IH]; intros [|j] H1; cbn in *; try discriminate; [injection H1 as ->; reflexivity|auto]). rewrite H2 in H2'. injection H2' as ->. apply String.eqb_sym.
          -- rewrite index_app_r in Ek by (rewrite <- in_rev; exact Hout). destruct (index (String.eqb d) (f :: s)) as [k'|]; [|discriminate]. cbn in Ek. injection Ek as <-. rewrite rev_length, map_length in *.
             destruct (Nat.leb_spec (S (length s)) (S (length s) + length l - 1 - (length l + k'))); [lia|].
             clear -Hout. induction l as [|[x A] l IH]; [reflexivity|]. cbn [index]. destruct (String.eqb x d) eqn:E; [apply String.eqb_eq in E; subst; exfalso; apply Hout; left; reflexivity|]. rewrite IH; [reflexivity|]. intros ?; apply Hout; right; assumption.
        * injection Et as <-. reflexivity.
        * discriminate.
        * assert (Hnv : forall k, t' <> DVar k).
          { intros k ->. destruct nd.
            - destruct ts as [|t1 [|t2 [|? ?]]]; try discriminate. cbn [to_db] in Et. destruct (to_db _ t1); [|discriminate]. cbn in Et. destruct (to_db _ t2); discriminate.
            - destruct ts as [|t1 [|t2 ts]]; try discriminate. rewrite to_db_match in Et. destruct (to_db _ t1); [|discriminate]. cbn in Et. destruct (to_db _ t2); [|discriminate]. cbn in Et. destruct (to_dbs _ ts); discriminate. }
          destruct t'; try reflexivity. exfalso. eapply Hnv; reflexivity.
        * assert (Hnv : forall k, t' <> DVar k).
          { intros k ->. destruct bd; cbn [to_db] in Et; repeat (destruct ts as [|? ts]; try discriminate); repeat (match type of Et with context [to_db ?a ?b] => destruct (to_db a b); [|discriminate] end; cbn in Et); discriminate. }
          destruct t'; try reflexivity. exfalso. eapply Hnv; reflexivity.
    - destruct bd; cbn [to_db] in E4; repeat (destruct ts as [|? ts]; try discriminate); repeat (match type of E4 with context [to_db ?a ?b] => destruct (to_db a b); [|discriminate] end; cbn in E4); injection E4 as <-; reflexivity. }
  assert (Hpos : struct_pos c l r = db_struct_pos c (S (length s)) ds r').
  { unfold struct_pos, db_struct_pos. rewrite Hscr, Hfirst. destruct (match r' with DMatch (DVar k) _ _ => _ | _ => None end) as [p|]; [|reflexivity]. rewrite Hind. reflexivity. }
  unfold structural_param in *. rewrite E1 in *. rewrite <- Hpos. destruct (struct_pos c l r) as [p|]; [|reflexivity]. cbn [mbind option_bind] in *.
  specialize (E5 p). destruct (l !! p) as [[x A]|] eqn:Lp, (ds !! p) as [B|]; cbn in E5; try discriminate; [|reflexivity]. injection E5 as E5. cbn [mbind option_bind] in *. rewrite E5.
  destruct (inductive_name c A) as [i|]; [|reflexivity]. cbn [mbind option_bind] in *.
  specialize (Hcov x i p _ eq_refl). pose proof (lookup_lt_Some _ _ _ Lp) as Hlt.
  set (names := rev (map fst (take (S p) l))). assert (Hlen : length names = S p) by (unfold names; rewrite rev_length, map_length, take_length; lia).
  replace (S (length s) + p + 1) with (length (names ++ f :: s)) by (rewrite app_length, Hlen; cbn; lia).
  eapply (agree_check c f x i p (length s) (S (length s) + p)); [apply Nat.lt_succ_diag_r| |exact Hcov|apply E6; lia].
  unfold agree. cbn [g_fix g_pos g_struct g_type g_smaller g_live g_shadowed]. rewrite app_length, Hlen. cbn [length].
  repeat (split; [first [reflexivity|lia|intros ? []]|]). intros y k Hk. pose proof (index_lt _ _ _ Hk) as Hkl. rewrite app_length, Hlen in Hkl. cbn [length] in Hkl. split; [exact Hkl|].
  assert (Hnd' : List.NoDup (names ++ [f])).
  { unfold names. change (rev (map fst (take (S p) l)) ++ [f]) with (rev (f :: map fst (take (S p) l))). apply NoDup_rev. constructor.
    - intros Hin. apply Hf. apply in_map_iff in Hin as (xA & E & Hin). apply in_map_iff. exists xA. split; [exact E|]. rewrite <- (take_drop (S p) l). apply in_or_app. left. exact Hin.
    - assert (Hsub : map fst l = map fst (take (S p) l) ++ map fst (drop (S p) l)) by (rewrite <- map_app, take_drop; reflexivity). rewrite Hsub in Hl. apply NoDup_ListNoDup, NoDup_app in Hl as (Hl & _). apply NoDup_ListNoDup. exact Hl. }
  assert (Hx : names !! 0 = Some x).
  { unfold names. assert (Hm : map fst (take (S p) l) !! p = Some x). { rewrite list_lookup_fmap. rewrite lookup_take by lia. rewrite Lp. reflexivity. }
    assert (Hlm : length (map fst (take (S p) l)) = S p) by (rewrite map_length, take_length; lia).
    replace 0 with (length (map fst (take (S p) l)) - 1 - p) by lia. rewrite lookup_rev by lia. exact Hm. }
  assert (Hmf : (names ++ f :: s) !! S p = Some f). { rewrite lookup_app_r by lia. rewrite Hlen, Nat.sub_diag. reflexivity. }
  assert (Hfull : forall j z, j <= S p -> (names ++ f :: s) !! j = Some z -> index (String.eqb z) (names ++ f :: s) = Some j).
  { intros j z Hj Hz. assert (Hz' : (names ++ [f]) !! j = Some z). { destruct (Nat.eq_dec j (S p)) as [->|]; [rewrite lookup_app_r by lia; rewrite lookup_app_r in Hz by lia; rewrite Hlen, Nat.sub_diag in *; exact Hz|rewrite lookup_app_l by lia; rewrite lookup_app_l in Hz by lia; exact Hz]. }
    change (f :: s) with ([f] ++ s). rewrite app_assoc. rewrite index_app_l; [apply index_nodup; assumption|]. apply elem_of_list_In. eapply elem_of_list_lookup_2. exact Hz'. }
  assert (Hy : (names ++ f :: s) !! k = Some y). { destruct (index_lookup _ _ _ Hk) as (y' & Hy & E). apply String.eqb_eq in E as ->. exact Hy. }
  unfold is_level, level_of. destruct (Nat.ltb_spec k (S p + S (length s))); [|lia]. split; [|split].
  - unfold is_rec. cbn [g_fix g_shadowed mem existsb negb]. rewrite andb_true_r. destruct (String.eqb y f) eqn:E; symmetry.
    + apply String.eqb_eq in E as ->. rewrite (Hfull (S p) f) in Hk; [|lia|exact Hmf]. injection Hk as <-. apply bool_decide_eq_true. f_equal. lia.
    + apply bool_decide_eq_false. intros [= Hl']. assert (k = S p) as -> by lia. rewrite Hmf in Hy. injection Hy as ->. rewrite String.eqb_refl in E. discriminate.
  - symmetry. apply bool_decide_eq_false. intros Hin. inversion Hin.
  - cbn [andb]. destruct (String.eqb y x) eqn:E; symmetry.
    + apply String.eqb_eq in E as ->. rewrite (Hfull 0 x) in Hk; [|lia|rewrite lookup_app_l by lia; exact Hx]. injection Hk as <-. apply bool_decide_eq_true. f_equal. lia.
    + apply bool_decide_eq_false. intros [= Hl']. assert (k = 0) as -> by lia. rewrite lookup_app_l in Hy by lia. rewrite Hx in Hy. injection Hy as ->. rewrite String.eqb_refl in E. discriminate.
Qed.
