(** Properties C58 (unification of terms) and C59 (composition of substitutions). *)
From Coq Require Import String List Arith Lia.
From stdpp Require Import gmap strings list.
From Verif Require Import UnifyModel UnifyProofs.
Local Open Scope string_scope.
Local Open Scope list_scope.

Global Instance uerr_eq_dec : EqDecision uerr.
Proof. solve_decision. Defined.
Global Instance ures_eq_dec {A} `{EqDecision A} : EqDecision (ures A).
Proof. solve_decision. Defined.
Ltac decided := apply (bool_decide_unpack _); vm_compute; exact I.

(** A computation with a step bound returns [r] when every large enough bound gives [r]. *)
Definition returns {A} (f : nat -> option A) (r : A) : Prop := exists n, forall m, n <= m -> f m = Some r.
Definition unify_returns (t1 t2 : pterm) (r : ures subst) : Prop := returns (fun n => unify_terms n t1 t2) r.
Definition apply_returns (s : subst) (t u : pterm) : Prop := returns (fun n => apply n s t) u.

Lemma returns_App s t u : apply_returns s t u <-> App s t u.
Proof.
  split; [intros [n H]; exists n; by apply H|]. intros [n H]. exists n. intros m Hm. by apply (apply_mono n).
Qed.
Lemma returns_U t1 t2 r : unify_returns t1 t2 r <-> U ∅ t1 t2 r.
Proof.
  split; [intros [n H]; exists n; by apply H|]. intros [n H]. exists n. intros m Hm. by apply (unify_mono n).
Qed.
Definition both_names (t1 t2 : pterm) : gset string := list_to_set (names t1 ++ names t2).
Lemma unify_result t1 t2 : exists r, unify_returns t1 t2 r /\ good1 (both_names t1 t2) ∅ t1 t2 r.
Proof.
  destruct (App_total ∅ t1 acyclic_empty) as [u Hu].
  destruct (unify_ok (both_names t1 t2) (free (both_names t1 t2) ∅) (tsize u) ∅ t1 t2 u) as (r & HU & HG); try done.
  - split; [apply acyclic_empty|]. intros x t H. by rewrite lookup_empty in H.
  - intros y Hy. apply elem_of_list_to_set, elem_of_app. by left.
  - intros y Hy. apply elem_of_list_to_set, elem_of_app. by right.
  - exists r. split; [by apply returns_U|done].
Qed.
Lemma unify_good t1 t2 r : unify_returns t1 t2 r -> good1 (both_names t1 t2) ∅ t1 t2 r.
Proof.
  intros H. destruct (unify_result t1 t2) as (r' & H' & HG). apply returns_U in H, H'. by rewrite (U_det _ _ _ _ _ H H').
Qed.

(** * C58 *)
(** Unification always returns, whatever the terms. *)
Theorem C58_total t1 t2 : exists r, unify_returns t1 t2 r.
Proof. destruct (unify_result t1 t2) as (r & H & _). eauto. Qed.

(** A returned substitution can be applied to any term, the result mentions no name it binds, and it
    makes the two terms identical. *)
Theorem C58_sound t1 t2 s : unify_returns t1 t2 (UOk s) ->
  (forall t, exists u, apply_returns s t u /\ forall y, y ∈ names u -> s !! y = None) /\
  exists u, apply_returns s t1 u /\ apply_returns s t2 u.
Proof.
  intros H. destruct (unify_good _ _ _ H) as (_ & [Ha _] & (u & Hu1 & Hu2) & _). split.
  - intros t. destruct (App_total s t Ha) as [v Hv]. exists v. split; [by apply returns_App|].
    intros y Hy. by apply (App_names s t v).
  - exists u. split; by apply returns_App.
Qed.
Example C58_sound_ex :
  let t1 := PFun "f" [PVar "x"; PFun "g" [PVar "y"; PVar "x"]] in
  let t2 := PFun "f" [PVar "y"; PFun "g" [PConst "a"; PVar "z"]] in
  exists s, unify_returns t1 t2 (UOk s) /\ apply_returns s t1 (PFun "f" [PConst "a"; PFun "g" [PConst "a"; PConst "a"]]).
Proof.
  cbn zeta. exists {["x" := PVar "y"; "y" := PConst "a"; "z" := PConst "a"]}. split.
  - apply returns_U. exists 8. decided.
  - apply returns_App. exists 8. decided.
Qed.

(** Only names of the two terms are bound, to terms over names of the two terms. *)
Theorem C58_scope t1 t2 s : unify_returns t1 t2 (UOk s) ->
  forall x t, s !! x = Some t -> forall y, y = x \/ y ∈ names t -> y ∈ names t1 \/ y ∈ names t2.
Proof.
  intros H x t Hx y Hy. destruct (unify_good _ _ _ H) as (_ & [_ Hs] & _). destruct (Hs x t Hx) as [H1 H2].
  assert (Hn : y ∈ both_names t1 t2) by (destruct Hy as [-> |Hy]; [done|by apply H2]).
  unfold both_names in Hn. by rewrite elem_of_list_to_set, elem_of_app in Hn.
Qed.
Example C58_scope_ex : exists s, unify_returns (PFun "f" [PVar "x"]) (PFun "f" [PFun "g" [PVar "y"]]) (UOk s) /\ s !! "x" = Some (PFun "g" [PVar "y"]).
Proof. exists {["x" := PFun "g" [PVar "y"]]}. split; [apply returns_U; exists 5|]; decided. Qed.

(** The returned substitution is most general: any simultaneous substitution that makes the two terms
    equal is an instance of it. [K] says which names are variables and which are bound-variable
    references; no name may be both. *)
Theorem C58_most_general K t1 t2 s θ : kinds K t1 -> kinds K t2 -> unify_returns t1 t2 (UOk s) ->
  tsub θ t1 = tsub θ t2 ->
  forall t u, kinds K t -> apply_returns s t u -> tsub θ u = tsub θ t.
Proof.
  intros K1 K2 H He t u Kt Hu. destruct (unify_good _ _ _ H) as (_ & _ & _ & HK).
  destruct (HK K (conj K1 K2)) as [HKs Hr]; [intros x v Hx; by rewrite lookup_empty in Hx|].
  apply (App_resp K θ s); try done; [|by apply returns_App].
  apply Hr; [|done]. intros x v Hx. by rewrite lookup_empty in Hx.
Qed.
Example C58_most_general_ex : exists s, unify_returns (PFun "f" [PVar "x"; PBound "b"]) (PFun "f" [PVar "y"; PVar "x"]) (UOk s) /\
  let θ := {["x" := PConst "c"; "y" := PConst "c"; "b" := PConst "c"]} in
  tsub θ (PFun "f" [PVar "x"; PBound "b"]) = tsub θ (PFun "f" [PVar "y"; PVar "x"]) /\
  kinds (fun x => negb (x =? "b")) (PFun "f" [PVar "x"; PBound "b"]).
Proof.
  exists {["x" := PVar "y"; "y" := PBound "b"]}. split; [apply returns_U; exists 5; decided|]. cbn zeta. split; vm_compute; auto.
Qed.

(** An error is returned only for terms that no substitution makes equal. *)
Theorem C58_complete K t1 t2 e θ : kinds K t1 -> kinds K t2 -> unify_returns t1 t2 (UErr e) -> tsub θ t1 <> tsub θ t2.
Proof.
  intros K1 K2 H He. refine (unify_good _ _ _ H K θ (conj K1 K2) _ _ He); intros x v Hx; by rewrite lookup_empty in Hx.
Qed.
Example C58_complete_ex : exists e, unify_returns (PFun "f" [PVar "x"; PVar "x"]) (PFun "f" [PVar "y"; PFun "g" [PVar "y"]]) (UErr e).
Proof. exists OccursCheck. apply returns_U. exists 6. decided. Qed.

(** Without the condition on kinds this fails: a variable and a bound-variable reference of the same
    name are equal under any binding of that name, but unification reports an occurs-check error. *)
Theorem C58_complete_refuted : exists t1 t2 e θ, unify_returns t1 t2 (UErr e) /\ tsub θ t1 = tsub θ t2.
Proof.
  exists (PVar "x"), (PBound "x"), OccursCheck, {["x" := PConst "a"]}. split; [apply returns_U; exists 3|]; decided.
Qed.

(** Applying a substitution that binds a name to a term containing it never returns. *)
Theorem C58_apply_refuted : exists s t, forall n, apply n s t = None.
Proof.
  exists {["x" := PVar "x"]}, (PVar "x"). induction n as [|n IH]; [done|]. cbn [apply]. rewrite lookup_singleton. exact IH.
Qed.

(** * C59 *)
(** Applying [s] returns on every term. *)
Definition applies (s : subst) : Prop := forall t, exists u, apply_returns s t u.
Lemma applies_bound s : applies s -> forall l : list string, exists n, forall x, x ∈ l -> is_Some (apply n s (PVar x)).
Proof.
  intros H. induction l as [|x l [n IH]]; [exists 0; intros x Hx; by apply elem_of_nil in Hx|].
  destruct (H (PVar x)) as [u Hu]. apply returns_App in Hu as [m Hm]. exists (max n m). intros y Hy.
  apply elem_of_cons in Hy as [-> |Hy].
  - exists u. apply (apply_mono m); [done|lia].
  - destruct (IH y Hy) as [v Hv]. exists v. apply (apply_mono n); [done|lia].
Qed.
(** The least number of steps for a variable. *)
Fixpoint least (s : subst) (x : string) (n : nat) : nat :=
  match n with
  | O => O
  | S n => match apply n s (PVar x) with Some _ => least s x n | None => S n end
  end.
Lemma least_some s x n : is_Some (apply n s (PVar x)) -> is_Some (apply (least s x n) s (PVar x)).
Proof. induction n as [|n IH]; intros H; [done|]. cbn [least]. destruct (apply n s (PVar x)) eqn:E; [by apply IH|done]. Qed.
Lemma least_le s x n k : is_Some (apply k s (PVar x)) -> least s x n <= k.
Proof.
  intros [u Hu]. induction n as [|n IH]; cbn [least]; [lia|]. destruct (apply n s (PVar x)) eqn:E; [done|].
  destruct (decide (k <= n)) as [Hk|]; [|lia]. rewrite (apply_mono _ n _ _ _ Hu Hk) in E. done.
Qed.
Lemma apply_names n s t u y : apply n s t = Some u -> y ∈ names t -> is_Some (apply n s (PVar y)).
Proof.
  revert n u. induction t as [c|x|x|f l IH|l IH] using pterm_ind'; intros [|n] u; cbn [names]; try done; intros H Hy.
  - by apply elem_of_nil in Hy.
  - apply elem_of_list_singleton in Hy as ->. eauto.
  - apply elem_of_list_singleton in Hy as ->. cbn in *. destruct (s !! x); eauto.
  - cbn in H. destruct (map_opt (apply n s) l) as [r|] eqn:E; [|done]. apply map_opt_Some in E.
    apply in_names_list in Hy as (a & Ha & Hy). apply elem_of_list_lookup in Ha as [i Hi].
    destruct (Forall2_lookup_l _ _ _ _ _ E Hi) as (b & _ & Hb). rewrite Forall_forall in IH.
    destruct (IH a (elem_of_list_lookup_2 _ _ _ Hi) n b Hb Hy) as [v Hv]. exists v. apply (apply_mono n); [done|lia].
  - cbn in H. destruct (map_opt (apply n s) l) as [r|] eqn:E; [|done]. apply map_opt_Some in E.
    apply in_names_list in Hy as (a & Ha & Hy). apply elem_of_list_lookup in Ha as [i Hi].
    destruct (Forall2_lookup_l _ _ _ _ _ E Hi) as (b & _ & Hb). rewrite Forall_forall in IH.
    destruct (IH a (elem_of_list_lookup_2 _ _ _ Hi) n b Hb Hy) as [v Hv]. exists v. apply (apply_mono n); [done|lia].
Qed.
Lemma applies_acyclic s : applies s <-> acyclic s.
Proof.
  split.
  - intros H. destruct (applies_bound s H (map fst (map_to_list s))) as [n Hn]. exists (fun x => least s x n).
    intros x t Hx y Hy.
    assert (Hin : x ∈ map fst (map_to_list s)).
    { apply elem_of_list_In, in_map_iff. exists (x, t). split; [done|]. apply elem_of_list_In. by apply elem_of_map_to_list. }
    destruct (least_some s x n (Hn x Hin)) as [u Hu]. destruct (least s x n) as [|k] eqn:E; [done|]. cbn [apply] in Hu. rewrite Hx in Hu.
    destruct (apply_names k s t u y Hu Hy) as [v Hv]. pose proof (least_le s y n k (ex_intro _ v Hv)). lia.
  - intros H t. destruct (App_total s t H) as [u Hu]. exists u. by apply returns_App.
Qed.

Lemma compose_lookup n s1 s2 s : compose n s1 s2 = Some s ->
  forall x, match s1 !! x with
            | Some t => exists u, apply n s2 t = Some u /\ s !! x = Some u
            | None => s !! x = s2 !! x
            end.
Proof.
  unfold compose. destruct (map_opt _ (map_to_list s1)) as [l|] eqn:E; [|done]. intros [= <-] x.
  apply map_opt_Some in E.
  assert (Hfst : l.*1 = (map_to_list s1).*1).
  { clear -E. induction E as [|[k v] [k' v'] l1 l2 H _ IH]; [done|]. cbn in *. destruct (apply n s2 v); [|done]. injection H as -> ->. by f_equal. }
  assert (Hnd : NoDup l.*1) by (rewrite Hfst; apply NoDup_fst_map_to_list).
  destruct (s1 !! x) as [t|] eqn:Ex.
  - apply elem_of_map_to_list in Ex. apply elem_of_list_lookup in Ex as [i Hi].
    destruct (Forall2_lookup_l _ _ _ _ _ E Hi) as ([k v] & Hk & Hkv). cbn in Hkv.
    destruct (apply n s2 t) as [u|]; [|done]. injection Hkv as <- <-. exists u. split; [done|].
    apply lookup_union_Some_l. apply elem_of_list_to_map_1; [done|]. by apply (elem_of_list_lookup_2 _ i).
  - apply lookup_union_r. apply not_elem_of_list_to_map_1. rewrite Hfst. intros Hin.
    apply elem_of_list_fmap in Hin as ([k v] & -> & Hin). apply elem_of_map_to_list in Hin. cbn in Ex. congruence.
Qed.
Lemma compose_some s1 s2 : applies s2 -> exists n s, compose n s1 s2 = Some s.
Proof.
  intros H2. unfold compose. cut (exists n, is_Some (map_opt (fun kv => match apply n s2 (snd kv) with Some t => Some (fst kv, t) | None => None end) (map_to_list s1))).
  { intros [n [l Hl]]. exists n. rewrite Hl. eauto. }
  induction (map_to_list s1) as [|[k v] l [n [r Hr]]]; [exists 0; cbn; eauto|].
  destruct (H2 v) as [u Hu]. apply returns_App in Hu as [m Hm]. exists (max n m). cbn [map_opt snd fst].
  rewrite (apply_mono m _ _ _ _ Hm) by lia.
  assert (Hr' : map_opt (fun kv : string * pterm => match apply (max n m) s2 (snd kv) with Some t => Some (fst kv, t) | None => None end) l = Some r).
  { apply map_opt_Some. apply map_opt_Some in Hr. eapply Forall2_impl; [exact Hr|]. intros [k' v'] b Hb. cbn in *.
    destruct (apply n s2 v') as [w|] eqn:E; [|done]. by rewrite (apply_mono n _ _ _ _ E) by lia. }
  rewrite Hr'. eauto.
Qed.
Definition compose_returns (s1 s2 s : subst) : Prop := returns (fun n => compose n s1 s2) s.
Lemma compose_mono n m s1 s2 s : compose n s1 s2 = Some s -> n <= m -> compose m s1 s2 = Some s.
Proof.
  unfold compose. destruct (map_opt _ _) as [l|] eqn:E; [|done]. intros [= <-] Hl.
  assert (Hr' : map_opt (fun kv : string * pterm => match apply m s2 (snd kv) with Some t => Some (fst kv, t) | None => None end) (map_to_list s1) = Some l).
  { apply map_opt_Some. apply map_opt_Some in E. eapply Forall2_impl; [exact E|]. intros [k' v'] b Hb. cbn in *.
    destruct (apply n s2 v') as [w|] eqn:E'; [|done]. by rewrite (apply_mono n _ _ _ _ E'). }
  by rewrite Hr'.
Qed.

(** Applying the composition is applying the first substitution and then the second, when the second
    neither binds nor mentions a name bound by the first. *)
Theorem C59_compose s1 s2 : applies s1 -> applies s2 ->
  (forall x t, s2 !! x = Some t -> forall y, y = x \/ y ∈ names t -> s1 !! y = None) ->
  exists s, compose_returns s1 s2 s /\ applies s /\
    forall t u w, apply_returns s1 t u -> apply_returns s2 u w -> apply_returns s t w.
Proof.
  intros H1 H2 Hd. destruct (compose_some s1 s2 H2) as (n & s & Hs). exists s.
  split; [exists n; intros m Hm; by apply (compose_mono n)|].
  pose proof (compose_lookup _ _ _ _ Hs) as HL.
  assert (Hsub : s2 ⊆ s).
  { apply map_subseteq_spec. intros x t Hx. specialize (HL x). rewrite (Hd x t Hx x (or_introl eq_refl)) in HL. congruence. }
  destruct (proj1 (applies_acyclic s1) H1) as [r1 Hr1]. destruct (proj1 (applies_acyclic s2) H2) as [r2 Hr2].
  assert (Ha : acyclic s).
  { exists (fun z => match s1 !! z with Some _ => S (r1 z) | None => match s2 !! z with Some _ => S (r2 z) | None => 0 end end).
    intros x t Hx y Hy. specialize (HL x). destruct (s1 !! x) as [v|] eqn:E1.
    - destruct HL as (u & Hu & Hsx). rewrite Hx in Hsx. apply (inj Some) in Hsx as <-.
      destruct (App_names s2 v t y (ex_intro _ n Hu) Hy) as [Hn2 Hor].
      destruct (s1 !! y) as [w|] eqn:Ey.
      + destruct Hor as [Hor|(z & q & Hz & Hq)]; [pose proof (Hr1 x v E1 y Hor); lia|].
        rewrite (Hd z q Hz y (or_intror Hq)) in Ey. done.
      + rewrite Hn2. lia.
    - rewrite HL in Hx. rewrite Hx. rewrite (Hd x t Hx y (or_intror Hy)).
      destruct (s2 !! y) eqn:Ey; [pose proof (Hr2 x t Hx y Hy); lia|lia]. }
  split; [by apply applies_acyclic|]. intros t u w Htu Huw. apply returns_App in Htu, Huw. apply returns_App.
  assert (HA : forall t u, App s1 t u -> forall w, App s2 u w -> App s t w).
  { apply (App_ind s1 (fun t u => forall w, App s2 u w -> App s t w)).
    - intros c v Hv. apply App_const in Hv as ->. by apply App_const.
    - intros x Hx v Hv. apply (App_sub s2 s _ v _ Hsub Hv). apply App_id. intros y Hy.
      destruct (App_names _ _ _ _ Hv Hy) as [Hy2 Hor]. specialize (HL y).
      assert (Hy1 : s1 !! y = None). { destruct Hor as [Hor|(z & q & Hz & Hq)]; [|by apply (Hd z q Hz); right]. cbn in Hor. by apply elem_of_list_singleton in Hor as ->. }
      rewrite Hy1 in HL. congruence.
    - intros x Hx v Hv. apply (App_sub s2 s _ v _ Hsub Hv). apply App_id. intros y Hy.
      destruct (App_names _ _ _ _ Hv Hy) as [Hy2 Hor]. specialize (HL y).
      assert (Hy1 : s1 !! y = None). { destruct Hor as [Hor|(z & q & Hz & Hq)]; [|by apply (Hd z q Hz); right]. cbn in Hor. by apply elem_of_list_singleton in Hor as ->. }
      rewrite Hy1 in HL. congruence.
    - intros x r u0 Hx _ IH v Hv. apply App_var. specialize (HL x). rewrite Hx in HL. destruct HL as (r' & Hr' & ->).
      apply (App_sub_inv s2 s r r' v Hsub Ha); [by exists n|by apply IH].
    - intros x r u0 Hx _ IH v Hv. apply App_bound. specialize (HL x). rewrite Hx in HL. destruct HL as (r' & Hr' & ->).
      apply (App_sub_inv s2 s r r' v Hsub Ha); [by exists n|by apply IH].
    - intros f l r _ IH v Hv. apply App_fun in Hv as (q & -> & Hq). apply App_fun. exists q; split; [done|].
      revert q Hq. induction IH as [|a b l r Hab _ IHl]; intros q Hq; inversion Hq; subst; constructor; eauto.
    - intros l r _ IH v Hv. apply App_group in Hv as (q & -> & Hq). apply App_group. exists q; split; [done|].
      revert q Hq. induction IH as [|a b l r Hab _ IHl]; intros q Hq; inversion Hq; subst; constructor; eauto. }
  by apply (HA t u).
Qed.
Example C59_compose_ex : let s1 := {["x" := PFun "f" [PVar "y"]]} in let s2 := {["y" := PVar "z"; "z" := PConst "a"]} in
  applies s1 /\ applies s2 /\ (forall x t, s2 !! x = Some t -> forall y, y = x \/ y ∈ names t -> s1 !! y = None).
Proof.
  cbn zeta. split; [|split].
  - apply applies_acyclic. exists (fun x => if x =? "x" then 1 else 0). intros x t H y Hy.
    apply lookup_singleton_Some in H as [<- <-]. cbn in Hy. apply elem_of_list_singleton in Hy as ->. cbn. lia.
  - apply applies_acyclic. exists (fun x => if x =? "y" then 1 else 0). intros x t H y Hy.
    apply lookup_insert_Some in H as [[<- <-]|[_ H]].
    + cbn in Hy. apply elem_of_list_singleton in Hy as ->. cbn. lia.
    + apply lookup_singleton_Some in H as [<- <-]. cbn in Hy. by apply elem_of_nil in Hy.
  - intros x t H y Hy. apply lookup_singleton_None. apply lookup_insert_Some in H as [[<- <-]|[_ H]].
    + destruct Hy as [-> |Hy]; [done|]. cbn in Hy. by apply elem_of_list_singleton in Hy as ->.
    + apply lookup_singleton_Some in H as [<- <-].
      destruct Hy as [-> |Hy]; [done|]. cbn in Hy. by apply elem_of_nil in Hy.
Qed.

(** The use made by the proof engine: a substitution extended by the unifier of two terms it has
    already been applied to. *)
Theorem C59_extend s1 t1 t2 u1 u2 d : applies s1 -> apply_returns s1 t1 u1 -> apply_returns s1 t2 u2 ->
  unify_returns u1 u2 (UOk d) ->
  exists s, compose_returns s1 d s /\ applies s /\ exists v, apply_returns s t1 v /\ apply_returns s t2 v.
Proof.
  intros H1 Hu1 Hu2 Hd. destruct (C58_sound _ _ _ Hd) as [Hda (v & Hv1 & Hv2)].
  assert (HN : forall x t, d !! x = Some t -> forall y, y = x \/ y ∈ names t -> s1 !! y = None).
  { intros x t Hx y Hy. destruct (C58_scope _ _ _ Hd x t Hx y Hy) as [H|H].
    - apply (App_names s1 t1 u1 y); [by apply returns_App|done].
    - apply (App_names s1 t2 u2 y); [by apply returns_App|done]. }
  destruct (C59_compose s1 d) as (s & Hs & Has & Happ); try done.
  { intros t. destruct (Hda t) as (u & Hu & _). eauto. }
  exists s. split; [done|]. split; [done|]. exists v. split; by eapply Happ.
Qed.
Example C59_extend_ex : exists d, unify_returns (PFun "f" [PVar "y"; PVar "z"]) (PFun "f" [PConst "a"; PVar "y"]) (UOk d) /\
  apply_returns {["x" := PVar "y"]} (PFun "f" [PVar "x"; PVar "z"]) (PFun "f" [PVar "y"; PVar "z"]).
Proof. exists {["y" := PConst "a"; "z" := PConst "a"]}. split; [apply returns_U; exists 6|apply returns_App; exists 5]; decided. Qed.

(** Without the condition the documented equation fails: two substitutions that can both be applied
    compose to one that cannot, *)
Theorem C59_cycle_refuted : exists s1 s2 s t, applies s1 /\ applies s2 /\ compose_returns s1 s2 s /\ forall n, apply n s t = None.
Proof.
  exists {["x" := PVar "y"]}, {["y" := PVar "x"]}, {["x" := PVar "x"; "y" := PVar "x"]}, (PVar "x"). split; [|split; [|split]].
  - apply applies_acyclic. exists (fun x => if x =? "x" then 1 else 0). intros x t H y Hy.
    apply lookup_singleton_Some in H as [<- <-]. cbn in Hy. apply elem_of_list_singleton in Hy as ->. cbn. lia.
  - apply applies_acyclic. exists (fun x => if x =? "y" then 1 else 0). intros x t H y Hy.
    apply lookup_singleton_Some in H as [<- <-]. cbn in Hy. apply elem_of_list_singleton in Hy as ->. cbn. lia.
  - exists 3. intros m Hm. apply (compose_mono 3); [|done]. decided.
  - induction n as [|n IH]; [done|]. cbn [apply]. rewrite lookup_insert. exact IH.
Qed.
(** and a chain in the first substitution is resolved with the second one's binding. *)
Theorem C59_chain_refuted : exists s1 s2 s t u w, applies s1 /\ applies s2 /\ compose_returns s1 s2 s /\
  apply_returns s1 t u /\ apply_returns s2 u u /\ apply_returns s t w /\ u <> w.
Proof.
  exists {["x" := PVar "y"; "y" := PConst "a"]}, {["y" := PConst "b"]}, {["x" := PConst "b"; "y" := PConst "a"]}, (PVar "x"), (PConst "a"), (PConst "b").
  split; [|split; [|split; [|split; [|split; [|split]]]]].
  - apply applies_acyclic. exists (fun x => if x =? "x" then 1 else 0). intros x t H y Hy.
    apply lookup_insert_Some in H as [[<- <-]|[_ H]].
    + cbn in Hy. apply elem_of_list_singleton in Hy as ->. cbn. lia.
    + apply lookup_singleton_Some in H as [<- <-]. cbn in Hy. by apply elem_of_nil in Hy.
  - apply applies_acyclic. exists (fun x => 0). intros x t H y Hy.
    apply lookup_singleton_Some in H as [<- <-]. cbn in Hy. by apply elem_of_nil in Hy.
  - exists 3. intros m Hm. apply (compose_mono 3); [|done]. decided.
  - apply returns_App. exists 5. decided.
  - apply returns_App. exists 5. decided.
  - apply returns_App. exists 5. decided.
  - done.
Qed.
