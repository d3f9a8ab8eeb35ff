(** Lemmas for C60 (unification of expressions), the meaning of expressions, and C60_total. *)
From Coq Require Import String List Arith Lia Bool.
From stdpp Require Import gmap strings list.
From Verif Require Import UnifyModel UnifyProofs UnifyProps.
Local Open Scope string_scope.
Local Open Scope list_scope.

(** * Meaning: truth in a first-order structure. *)
Record structure (D : Type) := Structure {
  s_const : string -> D; s_fun : string -> list D -> D; s_group : list D -> D;
  s_pred : string -> option string -> list D -> Prop; s_atom : string -> Prop;
  s_temp : string -> Prop -> Prop; s_temp2 : string -> Prop -> Prop -> Prop; s_other : nat -> Prop }.
Global Arguments s_const {D}. Global Arguments s_fun {D}. Global Arguments s_group {D}. Global Arguments s_pred {D}.
Global Arguments s_atom {D}. Global Arguments s_temp {D}. Global Arguments s_temp2 {D}. Global Arguments s_other {D}.
Section Truth.
  Context {D : Type} (M : structure D).
  Fixpoint value (ρ : string -> D) (t : pterm) : D :=
    match t with
    | PVar x | PBound x => ρ x
    | PConst c => s_const M c
    | PFun f l => s_fun M f (map (value ρ) l)
    | PGroup l => s_group M (map (value ρ) l)
    end.
  Definition upd (ρ : string -> D) (x : string) (d : D) : string -> D := fun y => if String.eqb y x then d else ρ y.
  Fixpoint truth (ρ : string -> D) (e : pexpr) : Prop :=
    match e with
    | EPred p l w => s_pred M p w (map (value ρ) l)
    | EIdent a b => value ρ a = value ρ b
    | EAtom s => s_atom M s
    | EBin CAnd a b => truth ρ a /\ truth ρ b
    | EBin COr a b => truth ρ a \/ truth ρ b
    | EBin CImplies a b => truth ρ a -> truth ρ b
    | EBin CIff a b => truth ρ a <-> truth ρ b
    | ENot a => ~ truth ρ a
    | EQuant QAll x b => forall d, truth (upd ρ x d) b
    | EQuant QEx x b => exists d, truth (upd ρ x d) b
    | ETemp o a => s_temp M o (truth ρ a)
    | ETemp2 o a b => s_temp2 M o (truth ρ a) (truth ρ b)
    | EOther k => s_other M k
    end.
End Truth.

(** * Unification of expressions *)
Definition unify_exprs_returns (e1 e2 : pexpr) (c : nat) (r : ures (subst * nat)) : Prop := returns (fun n => unify_exprs n e1 e2 c) r.
Definition apply_expr_returns (s : subst) (e u : pexpr) : Prop := returns (fun n => apply_expr n s e) u.

Definition UE (s : subst) (c : nat) (e1 e2 : pexpr) (r : ures (subst * nat)) : Prop := exists n, unify_expr n e1 e2 s c = Some r.
Lemma map_opt_mono n m s l r : map_opt (apply n s) l = Some r -> n <= m -> map_opt (apply m s) l = Some r.
Proof. intros H Hl. apply map_opt_Some. apply map_opt_Some in H. eapply Forall2_impl; [exact H|]. intros a b Hab. by apply (apply_mono n). Qed.
Lemma apply_expr_mono n m s e u : apply_expr n s e = Some u -> n <= m -> apply_expr m s e = Some u.
Proof.
  intros H Hl. revert u H. induction e as [p l w|a b|a|c a IHa b IHb|a IHa|q x a IHa|o a IHa|o a IHa b IHb|k]; intros u; cbn [apply_expr]; try done.
  - destruct (map_opt (apply n s) l) eqn:E; [|done]. by rewrite (map_opt_mono _ m _ _ _ E).
  - destruct (apply n s a) eqn:E1; [|done]. destruct (apply n s b) eqn:E2; [|done].
    by rewrite (apply_mono _ m _ _ _ E1), (apply_mono _ m _ _ _ E2).
  - destruct (apply_expr n s a); [|done]. destruct (apply_expr n s b); [|done]. by rewrite (IHa _ eq_refl), (IHb _ eq_refl).
  - destruct (apply_expr n s a); [|done]. by rewrite (IHa _ eq_refl).
  - destruct (apply_expr n s a); [|done]. by rewrite (IHa _ eq_refl).
  - destruct (apply_expr n s a); [|done]. by rewrite (IHa _ eq_refl).
  - destruct (apply_expr n s a); [|done]. destruct (apply_expr n s b); [|done]. by rewrite (IHa _ eq_refl), (IHb _ eq_refl).
Qed.
Lemma unify_args_mono' n m l1 l2 s r : unify_args (unify n) l1 l2 s = Some r -> n <= m -> unify_args (unify m) l1 l2 s = Some r.
Proof. intros H Hl. eapply unify_args_mono; [|exact H]. intros a b s' r' Hab. by apply (unify_mono n). Qed.
Lemma unify_expr_mono n m e1 e2 s c r : unify_expr n e1 e2 s c = Some r -> n <= m -> unify_expr m e1 e2 s c = Some r.
Proof.
  revert m e1 e2 s c r; induction n as [|n IH]; intros [|m] e1 e2 s c r; cbn [unify_expr]; try done; [lia|]. intros H Hl.
  assert (IHm : forall e1 e2 s c r, unify_expr n e1 e2 s c = Some r -> unify_expr m e1 e2 s c = Some r) by (intros; apply (IH m); [done|lia]).
  assert (HB : forall a1 a2 b1 b2 r, match unify_expr n a1 a2 s c with Some (UOk (s, c)) => unify_expr n b1 b2 s c | r => r end = Some r ->
    match unify_expr m a1 a2 s c with Some (UOk (s, c)) => unify_expr m b1 b2 s c | r => r end = Some r).
  { intros a1 a2 b1 b2 r0 H0. destruct (unify_expr n a1 a2 s c) as [[[s' c']|e]|] eqn:E; [| |done].
    - rewrite (IHm _ _ _ _ _ E). by apply IHm.
    - by rewrite (IHm _ _ _ _ _ E). }
  assert (HA : forall l1 l2 r, match unify_args (unify n) l1 l2 s with Some (UOk s) => Some (UOk (s, c)) | Some (UErr e) => Some (UErr e) | None => None end = Some r ->
    match unify_args (unify m) l1 l2 s with Some (UOk s) => Some (UOk (s, c)) | Some (UErr e) => Some (UErr e) | None => None end = Some r).
  { intros l1 l2 r0 H0. destruct (unify_args (unify n) l1 l2 s) as [r1|] eqn:E; [|done]. by rewrite (unify_args_mono' n m _ _ _ _ E) by lia. }
  destruct e1, e2; try exact H.
  - destruct (negb (p =? p0)); [done|]. destruct (negb (Nat.eqb (length l) (length l0))); [done|].
    match goal with |- context[if ?b then _ else _] => destruct b end; [done|]. by apply HA.
  - by apply HA.
  - destruct (conn_eqb c0 c1); [|done]. by apply HB.
  - by apply IHm.
  - destruct (quant_eqb q q0); [|done].
    destruct (apply_expr n {[x := fresh_alpha c]} e1) eqn:E1; [|done]. destruct (apply_expr n {[x0 := fresh_alpha c]} e2) eqn:E2; [|done].
    rewrite (apply_expr_mono n m _ _ _ E1), (apply_expr_mono n m _ _ _ E2) by lia. by apply IHm.
  - destruct (op =? op0); [|done]. by apply IHm.
  - destruct (op =? op0); [|done]. by apply HB.
Qed.
Lemma returns_UE e1 e2 c r : unify_exprs_returns e1 e2 c r <-> UE ∅ c e1 e2 r.
Proof. split; [intros [n H]; exists n; by apply H|]. intros [n H]. exists n. intros m Hm. by apply (unify_expr_mono n). Qed.
Lemma UE_det s c e1 e2 r r' : UE s c e1 e2 r -> UE s c e1 e2 r' -> r = r'.
Proof. intros [n Hn] [m Hm]. apply (unify_expr_mono _ (max n m)) in Hn; [|lia]. apply (unify_expr_mono _ (max n m)) in Hm; [|lia]. congruence. Qed.

(** Replacing a name by a constant, in terms and in expressions, also under binders. *)
Fixpoint esize (e : pexpr) : nat :=
  match e with
  | EBin _ a b | ETemp2 _ a b => S (esize a + esize b)
  | ENot a | EQuant _ _ a | ETemp _ a => S (esize a)
  | _ => 1
  end.
Fixpoint ecsub (x k : string) (e : pexpr) : pexpr :=
  match e with
  | EPred p l w => EPred p (map (tsub {[x := PConst k]}) l) w
  | EIdent a b => EIdent (tsub {[x := PConst k]} a) (tsub {[x := PConst k]} b)
  | EAtom a => EAtom a
  | EBin c a b => EBin c (ecsub x k a) (ecsub x k b)
  | ENot a => ENot (ecsub x k a)
  | EQuant q y b => EQuant q y (ecsub x k b)
  | ETemp o a => ETemp o (ecsub x k a)
  | ETemp2 o a b => ETemp2 o (ecsub x k a) (ecsub x k b)
  | EOther n => EOther n
  end.
Lemma ecsub_size x k e : esize (ecsub x k e) = esize e.
Proof. induction e; cbn; lia. Qed.
Lemma App_csub x k t : App {[x := PConst k]} t (tsub {[x := PConst k]} t).
Proof.
  induction t as [c|y|y|f l IH|l IH] using pterm_ind'.
  - by apply App_const.
  - apply App_var. cbn. destruct (decide (x = y)) as [-> |Hn]; [rewrite lookup_singleton; by apply App_const|]. by rewrite lookup_singleton_ne.
  - apply App_bound. cbn. destruct (decide (x = y)) as [-> |Hn]; [rewrite lookup_singleton; by apply App_const|]. by rewrite lookup_singleton_ne.
  - apply App_fun. exists (map (tsub {[x := PConst k]}) l). split; [done|]. induction IH; cbn; constructor; eauto.
  - apply App_group. exists (map (tsub {[x := PConst k]}) l). split; [done|]. induction IH; cbn; constructor; eauto.
Qed.
Lemma App_csub_list x k l : Forall2 (App {[x := PConst k]}) l (map (tsub {[x := PConst k]}) l).
Proof. induction l as [|a l IH]; cbn; constructor; [apply App_csub|done]. Qed.
Lemma apply_expr_csub x k e : exists n, apply_expr n {[x := PConst k]} e = Some (ecsub x k e).
Proof.
  induction e as [p l w|a b|a|c a [n IHa] b [m IHb]|a [n IHa]|q y a [n IHa]|o a [n IHa]|o a [n IHa] b [m IHb]|j].
  - destruct (App_list _ _ _ (App_csub_list x k l)) as [n Hn]. exists n. cbn [apply_expr]. by rewrite Hn.
  - destruct (App_csub x k a) as [n Hn], (App_csub x k b) as [m Hm]. exists (max n m). cbn [apply_expr].
    by rewrite (apply_mono n _ _ _ _ Hn), (apply_mono m _ _ _ _ Hm) by lia.
  - by exists 0.
  - exists (max n m). cbn [apply_expr]. by rewrite (apply_expr_mono n _ _ _ _ IHa), (apply_expr_mono m _ _ _ _ IHb) by lia.
  - exists n. cbn [apply_expr]. by rewrite IHa.
  - exists n. cbn [apply_expr]. rewrite IHa. cbn [ecsub]. do 2 f_equal.
    destruct (decide (x = y)) as [-> |Hn]; [by rewrite lookup_singleton|by rewrite lookup_singleton_ne].
  - exists n. cbn [apply_expr]. by rewrite IHa.
  - exists (max n m). cbn [apply_expr]. by rewrite (apply_expr_mono n _ _ _ _ IHa), (apply_expr_mono m _ _ _ _ IHb) by lia.
  - by exists 0.
Qed.
Lemma tsub_const_names x k t y : y ∈ names (tsub {[x := PConst k]} t) -> y ∈ names t.
Proof.
  induction t as [c|z|z|f l IH|l IH] using pterm_ind'; cbn [tsub names]; try done.
  - destruct (decide (x = z)) as [-> |Hn]; [rewrite lookup_singleton; intros H; cbn in H; by apply elem_of_nil in H|]. by rewrite lookup_singleton_ne.
  - destruct (decide (x = z)) as [-> |Hn]; [rewrite lookup_singleton; intros H; cbn in H; by apply elem_of_nil in H|]. by rewrite lookup_singleton_ne.
  - rewrite !in_names_list. intros (a & Ha & Hy). apply elem_of_list_fmap in Ha as (b & -> & Hb). rewrite Forall_forall in IH. exists b. split; [done|]. by apply IH.
  - rewrite !in_names_list. intros (a & Ha & Hy). apply elem_of_list_fmap in Ha as (b & -> & Hb). rewrite Forall_forall in IH. exists b. split; [done|]. by apply IH.
Qed.
Fixpoint eterms (e : pexpr) : list pterm :=
  match e with
  | EPred _ l _ => l
  | EIdent a b => [a; b]
  | EBin _ a b | ETemp2 _ a b => eterms a ++ eterms b
  | ENot a | EQuant _ _ a | ETemp _ a => eterms a
  | EAtom _ | EOther _ => []
  end.
Lemma eterms_csub x k e : eterms (ecsub x k e) = map (tsub {[x := PConst k]}) (eterms e).
Proof. induction e; cbn; try done; try (by rewrite map_app, IHe1, IHe2); done. Qed.

Section Total.
  Context (N : gset string).
  Lemma UL_ok s l m : inv N s -> length l = length m -> Forall (tin N) l -> Forall (tin N) m -> exists r, UL s l m r /\ goodL N s l m r.
  Proof.
    intros Hi Hlen Hl Hm.
    apply (args_ok N (free N ∅) (S (list_sum (map tsize l))) ∅); try done.
    - intros s' t1 t2 u1 H1 H2 H3 H4 _. by apply (unify_ok N (free N s') (tsize u1) s' t1 t2 u1).
    - apply map_subseteq_spec. intros x t Hx. by rewrite lookup_empty in Hx.
    - rewrite Forall_forall in Hl |- *. intros a Ha. split; [by apply Hl|]. split; [pose proof (sum_elem l a Ha); lia|].
      intros y _. by apply lookup_empty.
  Qed.
  Lemma UE_terms s c e1 e2 l m :
    (forall n, unify_expr (S n) e1 e2 s c = match unify_args (unify n) l m s with Some (UOk s) => Some (UOk (s, c)) | Some (UErr e) => Some (UErr e) | None => None end) ->
    inv N s -> length l = length m -> Forall (tin N) l -> Forall (tin N) m ->
    exists r, UE s c e1 e2 r /\ match r with UOk (s', c') => s ⊆ s' /\ inv N s' /\ c <= c' | UErr _ => True end.
  Proof.
    intros H Hi Hlen Hl Hm. destruct (UL_ok s l m Hi Hlen Hl Hm) as ([s'|e] & [n Hn] & HG).
    - exists (UOk (s', c)). split; [exists (S n); rewrite H; by rewrite Hn|]. split; [apply HG|]. split; [apply HG|done].
    - exists (UErr e). split; [exists (S n); rewrite H; by rewrite Hn|done].
  Qed.
  Lemma UE_both s c e1 e2 a1 a2 b1 b2 :
    (forall n, unify_expr (S n) e1 e2 s c = match unify_expr n a1 a2 s c with Some (UOk (s, c)) => unify_expr n b1 b2 s c | r => r end) ->
    (exists r, UE s c a1 a2 r /\ match r with UOk (s', c') => s ⊆ s' /\ inv N s' /\ c <= c' | UErr _ => True end) ->
    (forall s c, inv N s -> exists r, UE s c b1 b2 r /\ match r with UOk (s', c') => s ⊆ s' /\ inv N s' /\ c <= c' | UErr _ => True end) ->
    exists r, UE s c e1 e2 r /\ match r with UOk (s', c') => s ⊆ s' /\ inv N s' /\ c <= c' | UErr _ => True end.
  Proof.
    intros H ([[s1 c1]|e] & [n Hn] & Hi1) Hb; [destruct Hi1 as (Hs1 & Hi1 & Hc1)|].
    - destruct (Hb s1 c1 Hi1) as (r & [m Hm] & Hr). exists r. split; [|destruct r as [[s2 c2]|]; [|done]; destruct Hr as (Hs2 & Hi2 & Hc2); split; [by transitivity s1|split; [done|lia]]]. exists (S (max n m)). rewrite H.
      rewrite (unify_expr_mono n (max n m) _ _ _ _ _ Hn) by lia. apply (unify_expr_mono m); [done|lia].
    - exists (UErr e). split; [|done]. exists (S n). rewrite H. by rewrite Hn.
  Qed.
  Lemma UE_total k : forall e1 e2 s c, esize e1 <= k -> inv N s -> Forall (tin N) (eterms e1) -> Forall (tin N) (eterms e2) ->
    exists r, UE s c e1 e2 r /\ match r with UOk (s', c') => s ⊆ s' /\ inv N s' /\ c <= c' | UErr _ => True end.
  Proof.
    induction k as [|k IH]; intros e1 e2 s c Hk Hi H1 H2; [destruct e1; cbn in Hk; lia|].
    assert (HE : forall e, (forall n, unify_expr (S n) e1 e2 s c = Some (UErr e)) -> exists r, UE s c e1 e2 r /\ match r with UOk (s', c') => s ⊆ s' /\ inv N s' /\ c <= c' | UErr _ => True end).
    { intros e He. exists (UErr e). split; [by exists 1|done]. }
    destruct e1, e2; try (by apply (HE ExprUnificationFailed)); cbn [eterms esize] in *.
    - destruct (p =? p0) eqn:E1; [|apply (HE SymbolMismatch); intros n; cbn; by rewrite E1].
      destruct (Nat.eqb (length l) (length l0)) eqn:E2; [|apply (HE ArityMismatch); intros n; cbn; by rewrite E1, E2].
      destruct (match world, world0 with Some w, Some v => negb (String.eqb w v) | _, _ => false end) eqn:E3; [apply (HE SymbolMismatch); intros n; cbn; by rewrite E1, E2, E3|].
      apply (UE_terms s c _ _ l l0); try done; [|by apply Nat.eqb_eq].
      intros n. cbn [unify_expr]. by rewrite E1, E2, E3.
    - by apply (UE_terms s c _ _ [a; b] [a0; b0]).
    - destruct (String.eqb s0 s1) eqn:E.
      + exists (UOk (s, c)). split; [exists 1; cbn; by rewrite E|done].
      + apply (HE ExprUnificationFailed). intros n. cbn. by rewrite E.
    - destruct (conn_eqb c0 c1) eqn:E; [|apply (HE ExprUnificationFailed); intros n; cbn; by rewrite E].
      apply Forall_app in H1 as [H1 H1'], H2 as [H2 H2'].
      apply (UE_both s c _ _ e1_1 e2_1 e1_2 e2_2); [intros n; cbn [unify_expr]; by rewrite E| |]; [|intros s' c' Hi']; apply IH; done || lia.
    - destruct (IH e1 e2 s c ltac:(lia) Hi H1 H2) as (r & [n Hn] & Hr). exists r. split; [by exists (S n)|done].
    - destruct (quant_eqb q q0) eqn:E; [|apply (HE ExprUnificationFailed); intros n; cbn; by rewrite E].
      unfold fresh_alpha in *. set (k0 := "#α" +:+ pretty.pretty c) in *.
      destruct (apply_expr_csub x k0 e1) as [n1 Hn1]. destruct (apply_expr_csub x0 k0 e2) as [n2 Hn2].
      destruct (IH (ecsub x k0 e1) (ecsub x0 k0 e2) s (S c)) as (r & [n Hn] & Hr).
      + rewrite ecsub_size. lia.
      + done.
      + rewrite eterms_csub. rewrite Forall_forall in H1 |- *. intros a Ha y Hy. apply elem_of_list_fmap in Ha as (b & -> & Hb).
        apply (H1 b Hb). by apply tsub_const_names in Hy.
      + rewrite eterms_csub. rewrite Forall_forall in H2 |- *. intros a Ha y Hy. apply elem_of_list_fmap in Ha as (b & -> & Hb).
        apply (H2 b Hb). by apply tsub_const_names in Hy.
      + exists r. split; [|destruct r as [[s' c']|]; [|done]; destruct Hr as (? & ? & ?); split; [done|split; [done|lia]]]. exists (S (max (max n1 n2) n)). cbn [unify_expr]. rewrite E. unfold fresh_alpha. fold k0.
        rewrite (apply_expr_mono n1 _ _ _ _ Hn1), (apply_expr_mono n2 _ _ _ _ Hn2) by lia. apply (unify_expr_mono n); [done|lia].
    - destruct (op =? op0) eqn:E; [|apply (HE ExprUnificationFailed); intros n; cbn; by rewrite E].
      destruct (IH e1 e2 s c ltac:(lia) Hi H1 H2) as (r & [n Hn] & Hr). exists r. split; [exists (S n); cbn; by rewrite E|done].
    - destruct (op =? op0) eqn:E; [|apply (HE ExprUnificationFailed); intros n; cbn; by rewrite E].
      apply Forall_app in H1 as [H1 H1'], H2 as [H2 H2'].
      apply (UE_both s c _ _ e1_1 e2_1 e1_2 e2_2); [intros n; cbn [unify_expr]; by rewrite E| |]; [|intros s' c' Hi']; apply IH; done || lia.
  Qed.
End Total.
Lemma inv_empty N : inv N ∅.
Proof. split; [apply acyclic_empty|]. intros x t H. by rewrite lookup_empty in H. Qed.

(** Unification of expressions always returns. *)
Theorem C60_total e1 e2 c : exists r, unify_exprs_returns e1 e2 c r.
Proof.
  set (N := list_to_set (flat_map names (eterms e1 ++ eterms e2)) : gset string).
  destruct (UE_total N (esize e1) e1 e2 ∅ c) as (r & Hr & _); [done|apply inv_empty| | |exists r; by apply returns_UE].
  - apply Forall_forall. intros a Ha y Hy. apply elem_of_list_to_set, in_names_list. exists a. split; [|done]. apply elem_of_app. by left.
  - apply Forall_forall. intros a Ha y Hy. apply elem_of_list_to_set, in_names_list. exists a. split; [|done]. apply elem_of_app. by right.
Qed.

(** ** Expressions without quantifiers *)
Fixpoint qfree (e : pexpr) : bool :=
  match e with
  | EQuant _ _ _ => false
  | EBin _ a b | ETemp2 _ a b => qfree a && qfree b
  | ENot a | ETemp _ a => qfree a
  | _ => true
  end.
(** Equal, except that a world annotation may be missing on one side. *)
Fixpoint same_but_worlds (e1 e2 : pexpr) : Prop :=
  match e1, e2 with
  | EPred p l w, EPred q m v => p = q /\ l = m /\ (w = v \/ w = None \/ v = None)
  | EIdent a b, EIdent c d => a = c /\ b = d
  | EAtom a, EAtom b => a = b
  | EBin c a b, EBin d a' b' => c = d /\ same_but_worlds a a' /\ same_but_worlds b b'
  | ENot a, ENot b => same_but_worlds a b
  | EQuant q x a, EQuant r y b => q = r /\ x = y /\ same_but_worlds a b
  | ETemp o a, ETemp p b => o = p /\ same_but_worlds a b
  | ETemp2 o a b, ETemp2 p a' b' => o = p /\ same_but_worlds a a' /\ same_but_worlds b b'
  | EOther k, EOther m => k = m
  | _, _ => False
  end.
(** The two expressions have the same shape, and no part outside the forms unification handles. *)
Fixpoint skel (e1 e2 : pexpr) : Prop :=
  match e1, e2 with
  | EPred p l w, EPred q m v => p = q /\ length l = length m /\ (w = v \/ w = None \/ v = None)
  | EIdent a b, EIdent c d => True
  | EAtom a, EAtom b => a = b
  | EBin c a b, EBin d a' b' => c = d /\ skel a a' /\ skel b b'
  | ENot a, ENot b => skel a b
  | ETemp o a, ETemp p b => o = p /\ skel a b
  | ETemp2 o a b, ETemp2 p a' b' => o = p /\ skel a a' /\ skel b b'
  | _, _ => False
  end.
Lemma skel_length e1 e2 : skel e1 e2 -> length (eterms e1) = length (eterms e2).
Proof.
  revert e2. induction e1; intros [] H; cbn in *; try done; try (by destruct H as (? & ? & ?));
    try (destruct H as (_ & H1 & H2)); try (destruct H as (_ & H1)); rewrite ?app_length; auto.
Qed.
Lemma UL_app s l m l' m' s1 r : length l = length m -> UL s l m (UOk s1) -> UL s1 l' m' r -> UL s (l ++ l') (m ++ m') r.
Proof.
  intros Hlen [n Hn] [k Hk]. exists (max n k). apply (unify_args_mono' _ (max n k)) in Hn; [|lia]. apply (unify_args_mono' _ (max n k)) in Hk; [|lia].
  revert m s Hlen Hn. induction l as [|a l IH]; intros [|b m] s Hlen Hn; try done; cbn [unify_args app] in *.
  - by injection Hn as ->.
  - destruct (unify (max n k) a b s) as [[s2|e]|] eqn:E; [|done|done]. apply IH; [by injection Hlen|done].
Qed.
Lemma UL_app_err s l m l' m' e : length l = length m -> UL s l m (UErr e) -> UL s (l ++ l') (m ++ m') (UErr e).
Proof.
  intros Hlen [n Hn]. exists n. revert m s Hlen Hn. induction l as [|a l IH]; intros [|b m] s Hlen Hn; try done; cbn [unify_args app] in *.
  destruct (unify n a b s) as [[s2|e']|] eqn:E; [|done|done]. apply IH; [by injection Hlen|done].
Qed.
Lemma UL_nil s : UL s [] [] (UOk s).
Proof. by exists 0. Qed.
Lemma world_ok (w v : option string) : (match w, v with Some w, Some v => negb (String.eqb w v) | _, _ => false end) = false <-> (w = v \/ w = None \/ v = None).
Proof.
  destruct w as [w|], v as [v|]; split; try (by auto).
  - intros H. apply negb_false_iff, String.eqb_eq in H as ->. by left.
  - intros [H|[H|H]]; try done. injection H as ->. by rewrite String.eqb_refl.
Qed.
Lemma UE_qfree n : forall e1 e2 s c r, qfree e1 = true -> unify_expr n e1 e2 s c = Some r ->
  match r with
  | UOk (s', _) => skel e1 e2 /\ UL s (eterms e1) (eterms e2) (UOk s')
  | UErr _ => ~ skel e1 e2 \/ exists e, UL s (eterms e1) (eterms e2) (UErr e)
  end.
Proof.
  induction n as [|n IH]; intros e1 e2 s c r Hq H; [done|].
  assert (HT : forall l m, match unify_args (unify n) l m s with Some (UOk s) => Some (UOk (s, c)) | Some (UErr e) => Some (UErr e) | None => None end = Some r ->
    match r with UOk (s', _) => UL s l m (UOk s') | UErr e => UL s l m (UErr e) end).
  { intros l m Hl. destruct (unify_args (unify n) l m s) as [[s'|e]|] eqn:E; [| |done]; injection Hl as <-; by exists n. }
  assert (HB : forall a1 a2 b1 b2, qfree a1 = true -> qfree b1 = true ->
    match unify_expr n a1 a2 s c with Some (UOk (s, c)) => unify_expr n b1 b2 s c | r => r end = Some r ->
    match r with
    | UOk (s', _) => (skel a1 a2 /\ skel b1 b2) /\ UL s (eterms a1 ++ eterms b1) (eterms a2 ++ eterms b2) (UOk s')
    | UErr _ => ~ (skel a1 a2 /\ skel b1 b2) \/ exists e, UL s (eterms a1 ++ eterms b1) (eterms a2 ++ eterms b2) (UErr e)
    end).
  { intros a1 a2 b1 b2 Hq1 Hq2 Hab. destruct (unify_expr n a1 a2 s c) as [[[s1 c1]|e]|] eqn:E; [| |done].
    - destruct (IH _ _ _ _ _ Hq1 E) as [Hs1 Hu1]. pose proof (IH _ _ _ _ _ Hq2 Hab) as Hb. destruct r as [[s2 c2]|e].
      + destruct Hb as [Hs2 Hu2]. split; [done|]. apply (UL_app s _ _ _ _ s1); try done. by apply skel_length.
      + destruct Hb as [Hn|[e' He']]; [left; tauto|right]. exists e'. apply (UL_app s _ _ _ _ s1); try done. by apply skel_length.
    - injection Hab as <-. destruct (IH _ _ _ _ _ Hq1 E) as [Hn|[e' He']]; [left; tauto|].
      destruct (decide (length (eterms a1) = length (eterms a2))) as [Hlen|Hlen].
      + right. exists e'. by apply UL_app_err.
      + left. intros [Hs _]. by apply skel_length in Hs. }
  destruct e1, e2; cbn [unify_expr qfree skel eterms] in *; try done; try (injection H as <-; left; tauto).
  - destruct (String.eqb p p0) eqn:E1; [|injection H as <-; left; intros [-> _]; by rewrite String.eqb_refl in E1].
    destruct (Nat.eqb (length l) (length l0)) eqn:E2; [|injection H as <-; left; intros (_ & Hl & _); by apply Nat.eqb_neq in E2].
    cbn [negb] in H. match type of H with context[if ?b then _ else _] => destruct b eqn:E3 end.
    + injection H as <-. left. intros (_ & _ & Hw). apply world_ok in Hw. congruence.
    + specialize (HT _ _ H). apply String.eqb_eq in E1 as ->. apply Nat.eqb_eq in E2. apply world_ok in E3.
      destruct r as [[s' c']|e]; [done|right; eauto].
  - specialize (HT _ _ H). destruct r as [[s' c']|e]; [done|right; eauto].
  - destruct (String.eqb s0 s1) eqn:E; injection H as <-; [|left; intros ->; by rewrite String.eqb_refl in E].
    apply String.eqb_eq in E as ->. split; [done|apply UL_nil].
  - apply andb_true_iff in Hq as [Hq1 Hq2]. destruct (conn_eqb c0 c1) eqn:E; [|injection H as <-; left; intros [-> _]; by destruct c1].
    assert (c0 = c1) as -> by (by destruct c0, c1). specialize (HB _ _ _ _ Hq1 Hq2 H). destruct r as [[s' c']|e]; tauto.
  - by apply (IH _ _ _ _ _ Hq H).
  - destruct (String.eqb op op0) eqn:E; [|injection H as <-; left; intros [-> _]; by rewrite String.eqb_refl in E].
    apply String.eqb_eq in E as ->. pose proof (IH _ _ _ _ _ Hq H). destruct r as [[s' c']|e]; tauto.
  - apply andb_true_iff in Hq as [Hq1 Hq2]. destruct (String.eqb op op0) eqn:E; [|injection H as <-; left; intros [-> _]; by rewrite String.eqb_refl in E].
    apply String.eqb_eq in E as ->. specialize (HB _ _ _ _ Hq1 Hq2 H). destruct r as [[s' c']|e]; tauto.
Qed.
Fixpoint esub (θ : subst) (e : pexpr) : pexpr :=
  match e with
  | EPred p l w => EPred p (map (tsub θ) l) w
  | EIdent a b => EIdent (tsub θ a) (tsub θ b)
  | EBin c a b => EBin c (esub θ a) (esub θ b)
  | ENot a => ENot (esub θ a)
  | EQuant q x a => EQuant q x (esub θ a)
  | ETemp o a => ETemp o (esub θ a)
  | ETemp2 o a b => ETemp2 o (esub θ a) (esub θ b)
  | EAtom _ | EOther _ => e
  end.
Lemma UL_good N l m r : length l = length m -> Forall (tin N) l -> Forall (tin N) m -> UL ∅ l m r -> goodL N ∅ l m r.
Proof.
  intros Hlen Hl Hm [n Hn]. destruct (UL_ok N ∅ l m (inv_empty N) Hlen Hl Hm) as (r' & [k Hk] & HG).
  apply (unify_args_mono' _ (max n k)) in Hn; [|lia]. apply (unify_args_mono' _ (max n k)) in Hk; [|lia]. congruence.
Qed.
Lemma apply_expr_terms s e l : qfree e = true -> Forall2 (App s) (eterms e) l ->
  exists u, (exists n, apply_expr n s e = Some u) /\ eterms u = l /\ qfree u = true.
Proof.
  revert l. induction e as [p ts w|a b|a|c a IHa b IHb|a IHa|q x a IHa|o a IHa|o a IHa b IHb|k]; intros l Hq Hl; cbn [eterms qfree] in *; try done.
  - destruct (App_list _ _ _ Hl) as [n Hn]. exists (EPred p l w). split; [|done]. exists n. cbn [apply_expr]. by rewrite Hn.
  - inversion Hl as [|? a' ? l1 [n Hn] Hl1]; subst. inversion Hl1 as [|? b' ? l2 [m Hm] Hl2]; subst. inversion Hl2; subst.
    exists (EIdent a' b'). split; [|done]. exists (max n m). cbn [apply_expr]. by rewrite (apply_mono n _ _ _ _ Hn), (apply_mono m _ _ _ _ Hm) by lia.
  - inversion Hl; subst. exists (EAtom a). split; [by exists 0|done].
  - apply andb_true_iff in Hq as [Hq1 Hq2]. apply Forall2_app_inv_l in Hl as (l1 & l2 & H1 & H2 & ->).
    destruct (IHa l1 Hq1 H1) as (u & [n Hn] & <- & Hqu). destruct (IHb l2 Hq2 H2) as (v & [m Hm] & <- & Hqv).
    exists (EBin c u v). split; [|split; [done|cbn; by rewrite Hqu, Hqv]]. exists (max n m). cbn [apply_expr].
    by rewrite (apply_expr_mono n _ _ _ _ Hn), (apply_expr_mono m _ _ _ _ Hm) by lia.
  - destruct (IHa l Hq Hl) as (u & [n Hn] & <- & Hqu). exists (ENot u). split; [|done]. exists n. cbn [apply_expr]. by rewrite Hn.
  - destruct (IHa l Hq Hl) as (u & [n Hn] & <- & Hqu). exists (ETemp o u). split; [|done]. exists n. cbn [apply_expr]. by rewrite Hn.
  - apply andb_true_iff in Hq as [Hq1 Hq2]. apply Forall2_app_inv_l in Hl as (l1 & l2 & H1 & H2 & ->).
    destruct (IHa l1 Hq1 H1) as (u & [n Hn] & <- & Hqu). destruct (IHb l2 Hq2 H2) as (v & [m Hm] & <- & Hqv).
    exists (ETemp2 o u v). split; [|split; [done|cbn; by rewrite Hqu, Hqv]]. exists (max n m). cbn [apply_expr].
    by rewrite (apply_expr_mono n _ _ _ _ Hn), (apply_expr_mono m _ _ _ _ Hm) by lia.
  - inversion Hl; subst. exists (EOther k). split; [by exists 0|done].
Qed.
