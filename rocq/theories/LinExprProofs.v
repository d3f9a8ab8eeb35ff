(** Lemmas on linear expressions, the interner, and reification. *)
From Coq Require Import ZArith String List Lia Ring_theory Ring.
From stdpp Require Import gmap strings list.
From Verif Require Import SynModel SynSem LinMap LinExprModel.
Local Open Scope string_scope.

(** * The interner *)
Record in_ok (st : interner) : Prop := {
  ok_range : forall s i, in_map st !! s = Some i -> (in_next st < i <= -1000000)%Z;
  ok_inj : forall s s' i, in_map st !! s = Some i -> in_map st !! s' = Some i -> s = s';
  ok_next : (in_next st <= -1000000)%Z }.
Definition ext (st st' : interner) : Prop := in_map st ⊆ in_map st'.
Lemma in_new_ok : in_ok in_new.
Proof. split; cbn; [| |lia]; intros *; rewrite lookup_empty; done. Qed.
Lemma ext_refl st : ext st st.
Proof. unfold ext. done. Qed.
Lemma ext_trans st st' st'' : ext st st' -> ext st' st'' -> ext st st''.
Proof. unfold ext. intros. by etrans. Qed.
Lemma ext_lookup st st' s i : ext st st' -> in_map st !! s = Some i -> in_map st' !! s = Some i.
Proof. unfold ext. intros. eapply lookup_weaken; done. Qed.
Lemma intern_ok st s st' i : intern st s = (st', i) -> in_ok st ->
  in_ok st' /\ ext st st' /\ in_map st' !! s = Some i.
Proof.
  unfold intern. destruct (in_map st !! s) as [j|] eqn:E; intros [= <- <-] Hok.
  - split; [done|]. split; [apply ext_refl|done].
  - split; [|split].
    + destruct Hok as [Hr Hi Hn]. split; cbn.
      * intros s' i. destruct (decide (s = s')) as [<-|Hs].
        -- rewrite lookup_insert. intros [= <-]. lia.
        -- rewrite lookup_insert_ne by done. intros ?%Hr. lia.
      * intros s1 s2 i. destruct (decide (s = s1)) as [<-|Hs], (decide (s = s2)) as [<-|Hs2].
        -- done.
        -- rewrite lookup_insert, lookup_insert_ne by done. intros [= <-] ?%Hr. lia.
        -- rewrite lookup_insert, lookup_insert_ne by done. intros H [= <-]. apply Hr in H. lia.
        -- rewrite !lookup_insert_ne by done. apply Hi.
      * lia.
    + unfold ext. cbn. by apply insert_subseteq.
    + cbn. by rewrite lookup_insert.
Qed.

(** An assignment of the indices agrees with an interpretation of variables and names. *)
Definition agrees {R} (st : interner) (rv : Z -> R) (rn : string -> R) (w : Z -> R) : Prop :=
  (forall s i, in_map st !! s = Some i -> w i = rn s) /\ (forall i, (-1000000 < i)%Z -> w i = rv i).
Lemma agrees_ext {R} st st' (rv : Z -> R) rn w : ext st st' -> agrees st' rv rn w -> agrees st rv rn w.
Proof. intros He [A B]. split; [|done]. intros s i Hs. eapply A, ext_lookup; done. Qed.
Lemma agrees_exists {R} st (rv : Z -> R) rn : in_ok st -> exists w, agrees st rv rn w.
Proof.
  intros Hok.
  exists (fun i => match list_find (fun p : string * Z => p.2 = i) (map_to_list (in_map st)) with
                   | Some (_, (s, _)) => rn s | None => rv i end).
  split.
  - intros s i Hs. destruct (list_find _ _) as [[n [s' j]]|] eqn:E.
    + apply list_find_Some in E as (E1 & E2 & _). cbn in E2. subst j.
      apply elem_of_list_lookup_2, elem_of_map_to_list in E1. f_equal. eapply ok_inj; eauto.
    + apply list_find_None in E. rewrite List.Forall_forall in E. exfalso. apply (E (s, i)); [|done].
      apply elem_of_list_In, elem_of_map_to_list. done.
  - intros i Hi. destruct (list_find _ _) as [[n [s' j]]|] eqn:E; [|done].
    apply list_find_Some in E as (E1 & E2 & _). cbn in E2. subst j.
    apply elem_of_list_lookup_2, elem_of_map_to_list in E1. eapply ok_range in E1; [|done]. lia.
Qed.

Fixpoint xvars_above (k : Z) (x : stx) : Prop :=
  match x with XVar i => (k < i)%Z | XBin _ a b => xvars_above k a /\ xvars_above k b | _ => True end.
Lemma xvars_read k t : vars_above k t -> xvars_above k (read t).
Proof.
  remember (tsize t) as n eqn:E. assert (Hn : tsize t <= n) by lia. clear E. revert t Hn.
  induction n as [|n IH]; intros t Hn; [destruct t; cbn in Hn; lia|].
  destruct t as [f b|s|z|s|m]; try done. destruct f as [f1 f2|c|z|s|m]; try done.
  - destruct f1 as [g1 g2|c|z|s|m]; try done. destruct f2 as [h1 a|c'|z|s|m]; try done.
    destruct h1 as [i1 o|c'|z|s|m]; try done. destruct i1 as [?|c2|?|?|?]; try done.
    intros Hv. assert (Hab : vars_above k a /\ vars_above k b).
    { cbn in Hv. destruct b; split; cbn; tauto. }
    cbn in Hn. cbn [read extract_slit extract_svar extract_sname].
    destruct (extract_binary_app _) as [[[op ?] ?]|]; [|done]. split; apply IH; try lia; tauto.
  - destruct b as [?|?|z|s|?]; try done.
    + cbn. destruct (c =? "SLit") eqn:E1; [done|]. destruct (c =? "SVar"); done.
    + cbn. by destruct (c =? "SName").
Qed.

(** * Linear expressions *)
Section LinExpr.
  Context {R : Type} (rO rI : R) (radd rmul rsub : R -> R -> R) (ropp : R -> R) (isz : R -> bool) (of_Z : Z -> R).
  Context (Rth : ring_theory rO rI radd rmul rsub ropp eq).
  Context (isz_spec : forall r, isz r = true <-> r = rO).
  Context (one_nz : rI <> rO).
  Context (mul_nz : forall a b, a <> rO -> b <> rO -> rmul a b <> rO).
  Context (opp_nz : forall a, a <> rO -> ropp a <> rO).
  Add Ring Rring2 : Rth.

  Notation get := (get rO).
  Notation msum := (msum rO radd rmul).
  Definition eval (e : lexpr R) (w : Z -> R) : R := radd (lc e) (msum (lm e) w).
  Definition wf (e : lexpr R) : Prop := forall k c, lm e !! k = Some c -> c <> rO.

  Lemma isz_false r : isz r = false <-> r <> rO.
  Proof. rewrite <- isz_spec. destruct (isz r); split; congruence. Qed.
  Lemma eval_const c w : eval (l_const c) w = c.
  Proof. unfold eval, l_const. cbn. erewrite msum_empty by done. ring. Qed.
  Lemma eval_var i w : eval (l_var rO rI i) w = w i.
  Proof. unfold eval, l_var. cbn. erewrite msum_singleton by done. ring. Qed.
  Lemma get_add (a b : gmap Z R) (k : Z) : get (merge (add_entry rO radd isz) a b) k = radd (get a k) (get b k).
  Proof.
    unfold LinMap.get. rewrite lookup_merge.
    destruct (a !! k) as [x|], (b !! k) as [y|]; cbn; try ring.
    - destruct (isz (radd x y)) eqn:E; cbn; [|done]. symmetry. by apply isz_spec.
    - destruct (isz (radd rO y)) eqn:E; cbn; [|done]. symmetry. by apply isz_spec.
  Qed.
  Lemma eval_add a b w : eval (l_add rO radd isz a b) w = radd (eval a w) (eval b w).
  Proof.
    unfold eval, l_add. cbn. erewrite (msum_add _ _ _ _ _ _ Rth _ (lm a) (lm b)) by apply get_add. ring.
  Qed.
  Lemma eval_neg a w : eval (l_neg ropp a) w = ropp (eval a w).
  Proof.
    unfold eval, l_neg. cbn. erewrite (msum_scale _ _ _ _ _ _ Rth _ (lm a) (ropp rI)); [ring|].
    intros k. unfold LinMap.get. rewrite lookup_fmap. destruct (lm a !! k); cbn; ring.
  Qed.
  Lemma eval_sub a b w : eval (l_sub rO radd ropp isz a b) w = rsub (eval a w) (eval b w).
  Proof. unfold l_sub. rewrite eval_add, eval_neg. ring. Qed.
  Lemma eval_scale a k w : eval (l_scale rO rmul isz a k) w = rmul (eval a w) k.
  Proof.
    unfold l_scale. destruct (isz k) eqn:E.
    - apply isz_spec in E. subst. rewrite eval_const. ring.
    - unfold eval. cbn. erewrite (msum_scale _ _ _ _ _ _ Rth _ (lm a) k); [ring|].
      intros x. unfold LinMap.get. rewrite lookup_omap. destruct (lm a !! x) as [c|]; cbn; [|ring].
      destruct (isz (rmul c k)) eqn:E2; cbn; [|ring]. apply isz_spec in E2. rewrite <- E2. ring.
  Qed.
  Lemma is_constant_empty (a : lexpr R) : is_constant a = true <-> lm a = ∅.
  Proof. unfold is_constant. rewrite Nat.eqb_eq. apply map_size_empty_iff. Qed.
  Lemma eval_constant a w : is_constant a = true -> eval a w = lc a.
  Proof. rewrite is_constant_empty. unfold eval. intros ->. erewrite msum_empty by done. ring. Qed.
  Lemma eval_split a v w : eval a w = radd (rmul (l_get rO a v) (w v)) (eval (l_remove a v) w).
  Proof. unfold eval, l_remove. cbn. erewrite (msum_split _ _ _ _ _ _ Rth (lm a) v). unfold l_get, LinMap.get. ring. Qed.

  Lemma wf_const c : wf (l_const c).
  Proof. intros k x. cbn. by rewrite lookup_empty. Qed.
  Lemma wf_var i : wf (l_var rO rI i).
  Proof. intros k x. cbn. intros [_ <-]%lookup_singleton_Some. done. Qed.
  Lemma wf_add a b : wf a -> wf b -> wf (l_add rO radd isz a b).
  Proof.
    intros Ha Hb k c. cbn. rewrite lookup_merge.
    destruct (lm a !! k) as [x|] eqn:Ea, (lm b !! k) as [y|] eqn:Eb; cbn; try done; eauto.
    - destruct (isz _) eqn:E; [done|]. intros [= <-]. by apply isz_false.
    - intros [= <-]. eauto.
    - destruct (isz (radd rO y)) eqn:E; [done|]. intros [= <-]. by apply isz_false.
  Qed.
  Lemma wf_neg a : wf a -> wf (l_neg ropp a).
  Proof. intros Ha k c. cbn. rewrite lookup_fmap. destruct (lm a !! k) eqn:E; cbn; [|done]. intros [= <-]. eauto. Qed.
  Lemma wf_sub a b : wf a -> wf b -> wf (l_sub rO radd ropp isz a b).
  Proof. intros. apply wf_add; [done|]. by apply wf_neg. Qed.
  Lemma wf_scale a k : wf (l_scale rO rmul isz a k).
  Proof.
    unfold l_scale. destruct (isz k); [apply wf_const|]. intros x c. cbn. rewrite lookup_omap.
    destruct (lm a !! x); cbn; [|done]. destruct (isz _) eqn:E; [done|]. intros [= <-]. by apply isz_false.
  Qed.
  Lemma wf_remove a v : wf a -> wf (l_remove a v).
  Proof. intros Ha k c. cbn. intros [_ ?]%lookup_delete_Some. eauto. Qed.
  Lemma wf_get_zero a v : wf a -> l_get rO a v = rO -> lm a !! v = None.
  Proof. intros Ha. unfold l_get. destruct (lm a !! v) eqn:E; [|done]. cbn. intros ->. by apply Ha in E. Qed.

  Notation reify := (reify_lin rO rI radd rmul ropp isz of_Z).
  Notation xval := (xval radd rmul rsub of_Z).
  Lemma reify_ok x : forall st r st', reify x st = (r, st') -> in_ok st ->
    in_ok st' /\ ext st st' /\
    (forall e, r = Some e -> wf e /\
       forall st'' rv rn w, ext st' st'' -> agrees st'' rv rn w -> xvars_above (-1000000) x -> xval rv rn x = Some (eval e w)).
  Proof.
    induction x as [n|i|s|op a IHa b IHb|]; intros st r st'; cbn.
    - intros [= <- <-] Hok. split; [done|]. split; [apply ext_refl|]. intros e [= <-].
      split; [apply wf_const|]. intros. by rewrite eval_const.
    - intros [= <- <-] Hok. split; [done|]. split; [apply ext_refl|]. intros e [= <-].
      split; [apply wf_var|]. intros * _ [_ Hw] Hv. rewrite eval_var, Hw; done.
    - destruct (intern st s) as [st1 i] eqn:E. intros [= <- <-] Hok. pose proof (intern_ok _ _ _ _ E Hok) as (H1 & H2 & H3).
      split; [done|]. split; [done|]. intros e [= <-]. split; [apply wf_var|]. intros * He [Hw _] _.
      rewrite eval_var. f_equal. symmetry. apply Hw. eapply ext_lookup; done.
    - destruct ((op =? "add") || (op =? "sub") || (op =? "mul")) eqn:Eop.
      2: { intros [= <- <-] Hok. split; [done|]. split; [apply ext_refl|]. done. }
      destruct (reify a st) as [ra sa] eqn:Ea. intros H Hok. apply IHa in Ea as (A1 & A2 & A3); [|done].
      destruct ra as [la|]; [|injection H as <- <-; split; [done|]; split; [done|]; done].
      destruct (reify b sa) as [rb sb] eqn:Eb. apply IHb in Eb as (B1 & B2 & B3); [|done].
      destruct rb as [lb|]; [|injection H as <- <-; split; [done|]; split; [by eapply ext_trans|]; done].
      injection H as <- <-. split; [done|]. split; [by eapply ext_trans|]. intros e He.
      specialize (A3 _ eq_refl) as [Wa Va]. specialize (B3 _ eq_refl) as [Wb Vb].
      assert (V : forall st'' rv rn w, ext sb st'' -> agrees st'' rv rn w -> xvars_above (-1000000) a /\ xvars_above (-1000000) b ->
        xval rv rn a = Some (eval la w) /\ xval rv rn b = Some (eval lb w)).
      { intros * H1 H2 [H3 H4]. split; [apply (Va st'')|apply (Vb st'')]; try done. exact (ext_trans _ _ _ B2 H1). }
      destruct (op =? "add"); [|destruct (op =? "sub"); [|destruct (op =? "mul") eqn:Em]]; [| | |done].
      + injection He as <-. split; [by apply wf_add|]. intros * H1 H2 H3. destruct (V _ _ _ _ H1 H2 H3) as [-> ->].
        by rewrite eval_add.
      + injection He as <-. split; [by apply wf_sub|]. intros * H1 H2 H3. destruct (V _ _ _ _ H1 H2 H3) as [-> ->].
        by rewrite eval_sub.
      + destruct (is_constant la) eqn:Ca; [|destruct (is_constant lb) eqn:Cb; [|done]]; injection He as <-;
          (split; [apply wf_scale|]); intros * H1 H2 H3; destruct (V _ _ _ _ H1 H2 H3) as [-> ->]; rewrite eval_scale; f_equal.
        * rewrite (eval_constant la) by done. ring.
        * rewrite (eval_constant lb) by done. ring.
    - intros [= <- <-] Hok. split; [done|]. split; [apply ext_refl|]. done.
  Qed.
End LinExpr.
