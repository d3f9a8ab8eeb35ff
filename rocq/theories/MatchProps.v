(** Property C61: one-sided matching of a pattern against a term or an expression. *)
From Coq Require Import String List Arith Lia Bool.
From stdpp Require Import gmap strings list.
From Verif Require Import UnifyModel UnifyProofs UnifyProps UnifyExprProofs UnifyExprProps UnifyAlphaProps.
Local Open Scope string_scope.
Local Open Scope list_scope.

(** The instance of a pattern: its variables that are not in [B] are replaced, everything else stays. *)
Fixpoint psub (B : list string) (θ : subst) (p : pterm) : pterm :=
  match p with
  | PVar x => if existsb (String.eqb x) B then p else default p (θ !! x)
  | PConst _ | PBound _ => p
  | PFun f l => PFun f (map (psub B θ) l)
  | PGroup l => PGroup (map (psub B θ) l)
  end.
Fixpoint pvars (B : list string) (p : pterm) : list string :=
  match p with
  | PVar x => if existsb (String.eqb x) B then [] else [x]
  | PConst _ | PBound _ => []
  | PFun _ l | PGroup l => flat_map (pvars B) l
  end.
Fixpoint epsub (B : list string) (θ : subst) (p : pexpr) : pexpr :=
  match p with
  | EPred f l w => EPred f (map (psub B θ) l) w
  | EIdent a b => EIdent (psub B θ a) (psub B θ b)
  | EBin c a b => EBin c (epsub B θ a) (epsub B θ b)
  | ENot a => ENot (epsub B θ a)
  | EQuant q x a => EQuant q x (epsub (x :: B) θ a)
  | ETemp o a => ETemp o (epsub B θ a)
  | ETemp2 o a b => ETemp2 o (epsub B θ a) (epsub B θ b)
  | EAtom _ | EOther _ => p
  end.
Fixpoint epvars (B : list string) (p : pexpr) : list string :=
  match p with
  | EPred f l w => flat_map (pvars B) l
  | EIdent a b => pvars B a ++ pvars B b
  | EBin c a b | ETemp2 c a b => epvars B a ++ epvars B b
  | ENot a | ETemp _ a => epvars B a
  | EQuant q x a => epvars (x :: B) a
  | EAtom _ | EOther _ => []
  end.

(** What a successful or failed match from [s] must satisfy; [inst θ] is the instance under [θ] and [vs]
    the variables. *)
Definition mgood (inst : subst -> Prop) (vs : list string) (B : list string) (s : subst) (r : option subst) : Prop :=
  match r with
  | Some s' => s ⊆ s' /\ (forall θ, (forall x, x ∈ vs -> θ !! x = s' !! x) -> inst θ) /\
      (forall x, is_Some (s' !! x) <-> is_Some (s !! x) \/ x ∈ vs) /\
      (forall θ, inst θ -> (forall x, x ∈ vs -> is_Some (θ !! x)) -> (forall x v, s !! x = Some v -> θ !! x = Some v) -> forall x v, s' !! x = Some v -> θ !! x = Some v)
  | None => forall θ, inst θ -> (forall x, x ∈ vs -> is_Some (θ !! x)) -> (forall x v, x ∈ vs -> θ !! x = Some v -> mentions_any v B = false) ->
      (forall x v, s !! x = Some v -> θ !! x = Some v) -> False
  end.
Lemma mgood_seq inst1 vs1 inst2 vs2 B s r1 (f : subst -> option subst) :
  mgood inst1 vs1 B s r1 -> (forall s', r1 = Some s' -> mgood inst2 vs2 B s' (f s')) ->
  mgood (fun θ => inst1 θ /\ inst2 θ) (vs1 ++ vs2) B s (match r1 with Some s => f s | None => None end).
Proof.
  intros H1 H2. destruct r1 as [s1|]; cycle 1.
  { intros θ [Hi _] Ht Hb Hs. apply (H1 θ Hi); try done; set_solver. }
  specialize (H2 s1 eq_refl). destruct H1 as (A1 & A2 & A3 & A5). destruct (f s1) as [s2|]; cbn in *.
  - destruct H2 as (B1 & B2 & B3 & B5). split; [by transitivity s1|]. split; [|split].
    + intros θ Hθ. split; [|apply B2; set_solver]. apply A2. intros x Hx. rewrite Hθ by set_solver.
      destruct (proj2 (A3 x) (or_intror Hx)) as [v Hv]. rewrite Hv. by apply (lookup_weaken s1).
    + intros x. rewrite B3, A3, elem_of_app. tauto.
    + intros θ [I1 I2] Ht Hs. apply B5; try done; [set_solver|]. apply A5; try done; set_solver.
  - intros θ [I1 I2] Ht Hb Hs. apply (H2 θ); try done; [set_solver|set_solver|]. apply A5; try done; set_solver.
Qed.
Lemma mgood_iff inst inst' vs B s r : (forall θ, inst θ <-> inst' θ) -> mgood inst vs B s r -> mgood inst' vs B s r.
Proof.
  intros Hi. destruct r as [s'|]; cbn.
  - intros (A1 & A2 & A3 & A5). split; [done|]. split; [intros θ H; by apply Hi, A2|]. split; [done|]. intros θ H. by apply A5, Hi.
  - intros H θ Ht. by apply H, Hi.
Qed.
Lemma mgood_true (inst : subst -> Prop) B s : (forall θ, inst θ) -> mgood inst [] B s (Some s).
Proof. intros Hi. split; [done|]. split; [by intros|]. split; [set_solver|]. auto. Qed.
Lemma mgood_false (inst : subst -> Prop) vs B s : (forall θ, ~ inst θ) -> mgood inst vs B s None.
Proof. intros Hi θ H. by destruct (Hi θ). Qed.
Lemma match_into_ok B p : forall t s, mgood (fun θ => psub B θ p = t) (pvars B p) B s (match_into B p t s).
Proof.
  assert (HL : forall l, Forall (fun p => forall t s, mgood (fun θ => psub B θ p = t) (pvars B p) B s (match_into B p t s)) l ->
    forall m s, length l = length m -> mgood (fun θ => map (psub B θ) l = m) (flat_map (pvars B) l) B s
      ((fix go l m s := match l, m with a :: l, b :: m => match match_into B a b s with Some s => go l m s | None => None end | _, _ => Some s end) l m s)).
  { induction 1 as [|a l Ha _ IHl]; intros [|b m] s Hlen; try done; cbn [flat_map map]; [by apply mgood_true|]. injection Hlen as Hlen.
    eapply mgood_iff; [|apply (mgood_seq (fun θ => psub B θ a = b) _ (fun θ => map (psub B θ) l = m)); [apply Ha|intros s' _; by apply IHl]].
    intros θ. cbn beta. split; [intros [-> ->]; done|intros H; by injection H]. }
  induction p as [c|x|x|f l IH|l IH] using pterm_ind'; intros t s; cbn [psub pvars match_into].
  - destruct t; try (by apply mgood_false). destruct (String.eqb_spec c c0) as [-> |Hn]; [by apply mgood_true|]. apply mgood_false. congruence.
  - destruct (existsb (String.eqb x) B) eqn:E.
    + destruct t as [d|y|g m|m|y]; try (by apply mgood_false). destruct (String.eqb_spec y x) as [-> |Hn]; [by apply mgood_true|]. apply mgood_false. congruence.
    + unfold match_bind. destruct (s !! x) as [e|] eqn:Ex.
      * destruct (pterm_eqb e t) eqn:Et.
        -- apply pterm_eqb_ok in Et as ->. cbn. split; [done|]. split; [intros θ H; rewrite H by set_solver; by rewrite Ex|].
           split; [intros y; rewrite elem_of_list_singleton; split; [auto|intros [?| ->]; [done|by rewrite Ex]]|]. auto.
        -- intros θ Hi _ _ Hs. cbn beta in Hi. rewrite (Hs x e Ex) in Hi. cbn in Hi. subst. assert (pterm_eqb t t = true) by (by apply pterm_eqb_ok). congruence.
      * destruct (mentions_any t B) eqn:Em.
        -- intros θ Hi Ht Hb _. destruct (Ht x) as [v Hv]; [by apply elem_of_list_singleton|]. rewrite Hv in Hi. cbn in Hi. subst.
           rewrite (Hb x t) in Em; [done|by apply elem_of_list_singleton|done].
        -- cbn. split; [by apply insert_subseteq|]. split; [intros θ H; rewrite H by set_solver; by rewrite lookup_insert|]. split.
           ++ intros y. rewrite elem_of_list_singleton. destruct (decide (y = x)) as [-> |Hn]; [rewrite lookup_insert; split; auto|].
              rewrite lookup_insert_ne by done. split; [auto|]. intros [?|?]; done.
           ++ intros θ Hi Ht Hs y v H. apply lookup_insert_Some in H as [[<- <-]|[_ H]]; [|auto].
              destruct (Ht x) as [v Hv]; [by apply elem_of_list_singleton|]. rewrite Hv in Hi |- *. cbn in Hi. by subst.
  - destruct t; try (by apply mgood_false). destruct (String.eqb_spec x x0) as [-> |Hn]; [by apply mgood_true|]. apply mgood_false. congruence.
  - destruct t as [d|y|g m|m|y]; try (by apply mgood_false). destruct (String.eqb_spec f g) as [-> |Hn]; cbn [andb]; [|apply mgood_false; congruence].
    destruct (Nat.eqb_spec (length l) (length m)) as [Hlen|Hlen]; [|apply mgood_false; intros θ [= H]; apply Hlen; by rewrite <- H, map_length].
    eapply mgood_iff; [|by apply HL]. intros θ. cbn beta. split; [by intros ->|congruence].
  - destruct t as [d|y|g m|m|y]; try (by apply mgood_false).
    destruct (Nat.eqb_spec (length l) (length m)) as [Hlen|Hlen]; [|apply mgood_false; intros θ [= H]; apply Hlen; by rewrite <- H, map_length].
    eapply mgood_iff; [|by apply HL]. intros θ. cbn beta. split; [by intros ->|congruence].
Qed.

(** Matching a term: the result's domain is exactly the pattern's variables, and the instance of the
    pattern is the target; when it fails there is no such substitution. *)
Theorem C61_term p t s : match_term_pattern p t = Some s ->
  psub [] s p = t /\ (forall x, is_Some (s !! x) <-> x ∈ pvars [] p).
Proof.
  intros H. pose proof (match_into_ok [] p t ∅) as HG. unfold match_term_pattern in H. rewrite H in HG. destruct HG as (_ & H1 & H2 & _).
  split; [by apply H1|]. intros x. rewrite H2, lookup_empty. split; [intros [[? [=]]|?]; done|auto].
Qed.
Theorem C61_term_complete p t θ : psub [] θ p = t -> exists s, match_term_pattern p t = Some s /\ forall x, x ∈ pvars [] p -> s !! x = Some (psub [] θ (PVar x)).
Proof.
  intros H. pose proof (match_into_ok [] p t ∅) as HG. unfold match_term_pattern.
  set (θ' := list_to_map (map (fun x => (x, psub [] θ (PVar x))) (pvars [] p)) : subst).
  assert (Hθ : forall x, x ∈ pvars [] p -> θ' !! x = Some (psub [] θ (PVar x))).
  { intros x. subst θ'. generalize (pvars [] p). induction l as [|y l IH]; intros Hx; [by apply elem_of_nil in Hx|]. cbn [map list_to_map foldr fst snd].
    destruct (decide (x = y)) as [-> |Hn]; [by rewrite lookup_insert|]. rewrite lookup_insert_ne by done. apply IH. set_solver. }
  assert (Hi : psub [] θ' p = t).
  { subst t. clearbody θ'. clear HG. induction p as [c|x|x|f l IH|l IH] using pterm_ind'; cbn [psub existsb pvars] in *; try done.
    - rewrite Hθ by set_solver. cbn. done.
    - f_equal. induction IH as [|a l Ha _ IHl]; [done|]. cbn in *. f_equal; [apply Ha|apply IHl]; set_solver.
    - f_equal. induction IH as [|a l Ha _ IHl]; [done|]. cbn in *. f_equal; [apply Ha|apply IHl]; set_solver. }
  assert (HM : forall v : pterm, mentions_any v [] = false).
  { intros v. induction v as [c|x|x|f l IH|l IH] using pterm_ind'; cbn; try done; induction IH as [|a l Ha _ IHl]; cbn; try done; by rewrite Ha. }
  destruct (match_into [] p t ∅) as [s|]; cbn in HG.
  - exists s. split; [done|]. intros x Hx. destruct HG as (_ & _ & H3 & H5). destruct (proj2 (H3 x) (or_intror Hx)) as [v Hv].
    rewrite Hv. rewrite <- (Hθ x Hx). symmetry. apply (H5 θ'); try done; intros y Hy; by rewrite Hθ.
  - exfalso. apply (HG θ'); try done; intros y Hy; by rewrite Hθ.
Qed.
Example C61_term_ex : match_term_pattern (PFun "f" [PVar "x"; PFun "g" [PVar "y"; PVar "x"]]) (PFun "f" [PVar "y"; PFun "g" [PConst "a"; PVar "y"]]) =
  Some {["x" := PVar "y"; "y" := PConst "a"]} /\ match_term_pattern (PFun "f" [PVar "x"; PVar "x"]) (PFun "f" [PConst "a"; PConst "b"]) = None.
Proof. split; decided. Qed.
Example C61_term_complete_ex : psub [] {["x" := PVar "y"; "y" := PConst "a"]} (PFun "f" [PVar "x"; PFun "g" [PVar "y"; PVar "x"]]) = PFun "f" [PVar "y"; PFun "g" [PConst "a"; PVar "y"]].
Proof. vm_compute. reflexivity. Qed.

(** ** Expressions *)
(** Patterns whose temporal parts have no variables of their own: those parts are compared as they are. *)
Fixpoint walked (p : pexpr) : bool :=
  match p with
  | ETemp _ _ | ETemp2 _ _ _ => false
  | EBin _ a b => walked a && walked b
  | ENot a | EQuant _ _ a => walked a
  | _ => true
  end.
Lemma world_eqb_ok w v : world_eqb w v = true <-> w = v.
Proof. destruct w, v; cbn; try done. rewrite String.eqb_eq. split; congruence. Qed.
Lemma pexpr_eqb_ok a b : pexpr_eqb a b = true <-> a = b.
Proof.
  revert b. induction a as [p ts w|a b|a|c a IHa b IHb|a IHa|q z a IHa|o a IHa|o a IHa b IHb|j]; intros [] ; cbn [pexpr_eqb]; try done;
    rewrite ?andb_true_iff, ?IHa, ?IHb, ?String.eqb_eq, ?Nat.eqb_eq, ?world_eqb_ok, ?pterm_eqb_ok.
  - split; [intros [[-> [= ->]] ->]; done|intros [= -> -> ->]; done].
  - split; [by intros [-> ->]|by intros [= -> ->]].
  - split; congruence.
  - split; [intros [[H ->] ->]; f_equal; by destruct c, c0|intros [= -> -> ->]; by destruct c0].
  - split; congruence.
  - split; [intros [[H ->] ->]; f_equal; by destruct q, q0|intros [= -> -> ->]; by destruct q0].
  - split; [by intros [-> ->]|by intros [= -> ->]].
  - split; [by intros [[-> ->] ->]|by intros [= -> -> ->]].
  - split; congruence.
Qed.

Lemma mentions_mono v B M : (forall x, x ∈ B -> x ∈ M) -> mentions_any v M = false -> mentions_any v B = false.
Proof.
  intros HB. assert (HE : forall x, existsb (String.eqb x) M = false -> existsb (String.eqb x) B = false).
  { intros x H. destruct (existsb (String.eqb x) B) eqn:E; [|done]. apply existsb_exists in E as (y & Hy & Hxy). apply elem_of_list_In, HB, elem_of_list_In in Hy.
    assert (existsb (String.eqb x) M = true) by (apply existsb_exists; eauto). congruence. }
  induction v as [c|x|x|f l IH|l IH] using pterm_ind'; cbn [mentions_any]; auto;
    induction IH as [|a l Ha _ IHl]; cbn; auto; rewrite !orb_false_iff; intros [H1 H2]; auto.
Qed.
Lemma mgood_more inst vs B M s r : (forall x, x ∈ B -> x ∈ M) -> mgood inst vs B s r -> mgood inst vs M s r.
Proof.
  intros HB. destruct r as [s'|]; cbn; [done|]. intros H θ Hi Ht Hb Hs. apply (H θ); try done. intros x v Hx Hv. apply (mentions_mono v B M HB). by apply (Hb x).
Qed.
Lemma match_expr_ok p : forall M B t s, (forall x, x ∈ B -> x ∈ M) -> (forall x, x ∈ binders p -> x ∈ M) -> walked p = true ->
  mgood (fun θ => epsub B θ p = t) (epvars B p) M s (match_expr_into B p t s).
Proof.
  induction p as [f l w|a b|a|c a IHa b IHb|a IHa|q z a IHa|o a IHa|o a IHa b IHb|j]; intros M B t s HB HM Hw; cbn [epsub epvars binders walked] in *; try done.
  - destruct t as [g m v|a' b'|a'|c' a' b'|a'|q' z' a'|o' a'|o' a' b'|j']; try (by apply mgood_false). cbn [match_expr_into].
    destruct (String.eqb_spec f g) as [-> |Hn]; cbn [andb]; [|apply mgood_false; congruence].
    destruct (Nat.eqb_spec (length l) (length m)) as [Hlen|Hlen]; cbn [andb]; [|apply mgood_false; intros θ [= H]; apply Hlen; by rewrite <- H, map_length].
    destruct (world_eqb w v) eqn:E; [|apply mgood_false; intros θ [= _ H]; apply world_eqb_ok in H; congruence]. apply world_eqb_ok in E as ->.
    eapply mgood_iff; [|apply (mgood_more _ _ B); [done|apply (match_into_ok B (PGroup l) (PGroup m) s)]].
    intros θ. cbn. split; [by intros [= ->]|by intros [= ->]].
  - destruct t as [g m v|a' b'|a'|c' a' b'|a'|q' z' a'|o' a'|o' a' b'|j']; try (by apply mgood_false). cbn [match_expr_into].
    eapply mgood_iff; [|apply (mgood_seq (fun θ => psub B θ a = a') _ (fun θ => psub B θ b = b')); [|intros s' _]; (apply (mgood_more _ _ B); [done|apply match_into_ok])].
    intros θ. cbn. split; [by intros [-> ->]|by intros [= -> ->]].
  - destruct t as [g m v|a' b'|a'|c' a' b'|a'|q' z' a'|o' a'|o' a' b'|j']; try (by apply mgood_false). cbn [match_expr_into].
    destruct (String.eqb_spec a a') as [-> |Hn]; [by apply mgood_true|apply mgood_false; congruence].
  - apply andb_true_iff in Hw as [Hw1 Hw2]. destruct t as [g m v|a' b'|a'|c' a' b'|a'|q' z' a'|o' a'|o' a' b'|j']; try (by apply mgood_false). cbn [match_expr_into].
    destruct (conn_eqb c c') eqn:E.
    + assert (c = c') as -> by (by destruct c, c').
      eapply mgood_iff; [|apply (mgood_seq (fun θ => epsub B θ a = a') _ (fun θ => epsub B θ b = b')); [apply IHa|intros s' _; apply IHb]; try done; set_solver].
      intros θ. cbn. split; [by intros [-> ->]|by intros [= -> ->]].
    + assert (c <> c') by (by destruct c, c'). destruct (pexpr_eqb (EBin c a b) (EBin c' a' b')) eqn:Ee; [apply pexpr_eqb_ok in Ee; congruence|]. apply mgood_false. congruence.
  - destruct t as [g m v|a' b'|a'|c' a' b'|a'|q' z' a'|o' a'|o' a' b'|j']; try (by apply mgood_false). cbn [match_expr_into].
    eapply mgood_iff; [|by apply (IHa M B a')]. intros θ. cbn. split; [by intros ->|by intros [= ->]].
  - destruct t as [g m v|a' b'|a'|c' a' b'|a'|q' z' a'|o' a'|o' a' b'|j']; try (by apply mgood_false). cbn [match_expr_into].
    destruct (quant_eqb q q') eqn:E.
    + assert (q = q') as -> by (by destruct q, q'). destruct (String.eqb_spec z z') as [<- |Hn]; [|apply mgood_false; congruence].
      eapply mgood_iff; [|apply (IHa M (z :: B) a'); try done; set_solver]. intros θ. cbn. split; [by intros ->|by intros [= ->]].
    + assert (q <> q') by (by destruct q, q'). destruct (pexpr_eqb (EQuant q z a) (EQuant q' z' a')) eqn:Ee; [apply pexpr_eqb_ok in Ee; congruence|]. apply mgood_false. congruence.
  - cbn [match_expr_into]. destruct t; try (by apply mgood_false). destruct (pexpr_eqb (EOther j) (EOther k)) eqn:Ee.
    + apply pexpr_eqb_ok in Ee as [= ->]. by apply mgood_true.
    + apply mgood_false. intros θ He. apply pexpr_eqb_ok in He. congruence.
Qed.
(** Matching an expression: the target is literally the instance of the pattern. *)
Theorem C61_expr p t s : walked p = true -> match_expr_pattern p t = Some s ->
  epsub [] s p = t /\ (forall x, is_Some (s !! x) <-> x ∈ epvars [] p).
Proof.
  intros Hw H. pose proof (match_expr_ok p (binders p) [] t ∅) as HG. unfold match_expr_pattern in H. rewrite H in HG.
  destruct HG as (_ & H1 & H2 & _); try done; [intros x Hx; by apply elem_of_nil in Hx|].
  split; [by apply H1|]. intros x. rewrite H2, lookup_empty. split; [intros [[? [=]]|?]; done|auto].
Qed.
(** It finds every instance whose values mention no bound variable of the pattern. *)
Theorem C61_expr_complete p t θ : walked p = true -> epsub [] θ p = t -> (forall x, x ∈ epvars [] p -> is_Some (θ !! x)) ->
  (forall x v, x ∈ epvars [] p -> θ !! x = Some v -> forall y, y ∈ names v -> y ∉ binders p) ->
  exists s, match_expr_pattern p t = Some s /\ forall x, x ∈ epvars [] p -> s !! x = θ !! x.
Proof.
  intros Hw Hi Ht Hb. pose proof (match_expr_ok p (binders p) [] t ∅) as HG. unfold match_expr_pattern.
  assert (HM : forall v, (forall y, y ∈ names v -> y ∉ binders p) -> mentions_any v (binders p) = false).
  { intros v. induction v as [c|x|x|f l IH|l IH] using pterm_ind'; cbn [mentions_any names]; intros Hv; try done.
    - destruct (existsb (String.eqb x) (binders p)) eqn:E; [|done]. apply existsb_exists in E as (y & Hy & He). apply String.eqb_eq in He as ->. destruct (Hv y); [set_solver|]. by apply elem_of_list_In.
    - destruct (existsb (String.eqb x) (binders p)) eqn:E; [|done]. apply existsb_exists in E as (y & Hy & He). apply String.eqb_eq in He as ->. destruct (Hv y); [set_solver|]. by apply elem_of_list_In.
    - induction IH as [|a l Ha _ IHl]; cbn; [done|]. rewrite Ha, IHl; [done| |]; intros y Hy; apply Hv; cbn; set_solver.
    - induction IH as [|a l Ha _ IHl]; cbn; [done|]. rewrite Ha, IHl; [done| |]; intros y Hy; apply Hv; cbn; set_solver. }
  assert (HE : forall x v, (∅ : subst) !! x = Some v -> θ !! x = Some v) by (intros x v Hx; by rewrite lookup_empty in Hx).
  specialize (HG ltac:(intros x Hx; by apply elem_of_nil in Hx) ltac:(done) Hw).
  destruct (match_expr_into [] p t ∅) as [s|]; cbn in HG.
  - exists s. split; [done|]. intros x Hx. destruct HG as (_ & _ & H3 & H5). destruct (proj2 (H3 x) (or_intror Hx)) as [v Hv]. rewrite Hv. symmetry. by apply (H5 θ).
  - exfalso. apply (HG θ); try done. intros x v Hx Hv. apply HM. by apply (Hb x).
Qed.
Example C61_expr_ex :
  let p := EBin CImplies (EPred "man" [PVar "x"] None) (EQuant QEx "y" (EPred "likes" [PVar "x"; PVar "y"; PVar "z"] None)) in
  let t := EBin CImplies (EPred "man" [PConst "a"] None) (EQuant QEx "y" (EPred "likes" [PConst "a"; PVar "y"; PFun "f" [PVar "x"]] None)) in
  let s : subst := {["x" := PConst "a"; "z" := PFun "f" [PVar "x"]]} in
  walked p = true /\ match_expr_pattern p t = Some s /\ epsub [] s p = t /\ epvars [] p = ["x"; "x"; "z"].
Proof. split; [done|]. split; [decided|]. split; [vm_compute; reflexivity|reflexivity]. Qed.

(** ** Meaning *)
Fixpoint tbounds (t : pterm) : list string :=
  match t with PBound x => [x] | PVar _ | PConst _ => [] | PFun _ l | PGroup l => flat_map tbounds l end.
Section Meaning.
  Context {D : Type} (M : structure D).
  Context (prop_ext : forall o p q, (p <-> q) -> (s_temp M o p <-> s_temp M o q))
    (prop_ext2 : forall o p q p' q', (p <-> q) -> (p' <-> q') -> (s_temp2 M o p p' <-> s_temp2 M o q q')).
  (** The assignment that gives each bound pattern variable the value of what it was matched with. *)
  Definition through (B : list string) (s : subst) (ρ : string -> D) : string -> D :=
    fun x => if existsb (String.eqb x) B then ρ x else match s !! x with Some v => value M ρ v | None => ρ x end.
  Lemma value_ext ρ1 ρ2 t : (forall y, y ∈ names t -> ρ1 y = ρ2 y) -> value M ρ1 t = value M ρ2 t.
  Proof.
    induction t as [c|x|x|f l IH|l IH] using pterm_ind'; cbn [names value]; intros H; try done; try (by apply H; set_solver).
    - f_equal. induction IH as [|a l Ha _ IHl]; [done|]. cbn in *. f_equal; [apply Ha|apply IHl]; set_solver.
    - f_equal. induction IH as [|a l Ha _ IHl]; [done|]. cbn in *. f_equal; [apply Ha|apply IHl]; set_solver.
  Qed.
  Lemma psub_value B s ρ ρ' t : (forall x, ρ' x = through B s ρ x) -> (forall x, x ∈ tbounds t -> s !! x = None) -> value M ρ (psub B s t) = value M ρ' t.
  Proof.
    intros Hρ. induction t as [c|x|x|f l IH|l IH] using pterm_ind'; cbn [psub tbounds]; intros H; try done.
    - cbn [value]. rewrite Hρ. unfold through. destruct (existsb (String.eqb x) B); [done|]. by destruct (s !! x).
    - cbn [value]. rewrite Hρ. unfold through. rewrite (H x) by set_solver. by destruct (existsb (String.eqb x) B).
    - cbn [value]. f_equal. induction IH as [|a l Ha _ IHl]; [done|]. cbn in *. f_equal; [apply Ha|apply IHl]; set_solver.
    - cbn [value]. f_equal. induction IH as [|a l Ha _ IHl]; [done|]. cbn in *. f_equal; [apply Ha|apply IHl]; set_solver.
  Qed.
  Lemma psub_values B s ρ ρ' l : (forall x, ρ' x = through B s ρ x) -> (forall x, x ∈ flat_map tbounds l -> s !! x = None) -> map (value M ρ) (map (psub B s) l) = map (value M ρ') l.
  Proof. intros Hρ H. induction l as [|a l IH]; [done|]. cbn in *. f_equal; [apply (psub_value B); [done|]; set_solver|apply IH; set_solver]. Qed.
  Lemma epsub_truth s p : forall B ρ ρ', (forall x, ρ' x = through B s ρ x) -> (forall x, x ∈ flat_map tbounds (eterms p) -> s !! x = None) ->
    (forall x v, s !! x = Some v -> forall y, y ∈ names v -> y ∉ binders p) -> truth M ρ (epsub B s p) <-> truth M ρ' p.
  Proof.
    induction p as [f l w|a b|a|c a IHa b IHb|a IHa|q z a IHa|o a IHa|o a IHa b IHb|j]; intros B ρ ρ' Hρ Hb Hn; cbn [epsub truth eterms binders] in *; try done.
    - by rewrite (psub_values B s ρ ρ').
    - rewrite (psub_value B s ρ ρ' a), (psub_value B s ρ ρ' b); try done; intros x Hx; apply Hb; cbn; set_solver.
    - rewrite flat_map_app in Hb. assert (Ha' : truth M ρ (epsub B s a) <-> truth M ρ' a) by (apply IHa; set_solver).
      assert (Hb' : truth M ρ (epsub B s b) <-> truth M ρ' b) by (apply IHb; set_solver). destruct c; tauto.
    - pose proof (IHa B ρ ρ' Hρ Hb Hn). tauto.
    - assert (HE : forall d, truth M (upd ρ z d) (epsub (z :: B) s a) <-> truth M (upd ρ' z d) a).
      { intros d. apply IHa; [|done|set_solver]. intros x. unfold upd, through. cbn [existsb]. destruct (String.eqb x z) eqn:E; [done|]. cbn [orb].
        rewrite Hρ. unfold through. destruct (existsb (String.eqb x) B); [done|]. destruct (s !! x) as [v|] eqn:Ex; [|done].
        apply value_ext. intros y Hy. destruct (String.eqb_spec y z) as [-> |Hyz]; [|done]. destruct (Hn x v Ex z Hy). left. }
      destruct q; [split; intros Hd d; apply HE; apply Hd|split; intros [d Hd]; exists d; by apply HE].
    - apply prop_ext. by apply IHa.
    - rewrite flat_map_app in Hb. apply prop_ext2; [apply IHa|apply IHb]; set_solver.
  Qed.
End Meaning.
(** The target means what the pattern means when its variables take the values of what they were matched
    with, as long as those mention no bound variable of the pattern. *)
Theorem C61_meaning {D} (M : structure D) p t s ρ : (forall o p q, (p <-> q) -> (s_temp M o p <-> s_temp M o q)) ->
  (forall o p q p' q', (p <-> q) -> (p' <-> q') -> (s_temp2 M o p p' <-> s_temp2 M o q q')) ->
  walked p = true -> match_expr_pattern p t = Some s ->
  (forall x, x ∈ epvars [] p -> x ∉ flat_map tbounds (eterms p)) ->
  (forall x v, s !! x = Some v -> forall y, y ∈ names v -> y ∉ binders p) ->
  truth M ρ t <-> truth M (fun x => match s !! x with Some v => value M ρ v | None => ρ x end) p.
Proof.
  intros E1 E2 Hw H HB Hn. destruct (C61_expr p t s Hw H) as [<- Hd]. apply (epsub_truth M E1 E2 s p [] ρ); try done.
  intros x Hx. destruct (s !! x) eqn:Ex; [|done]. exfalso. apply (HB x); [|done]. apply Hd. by rewrite Ex.
Qed.
Example C61_meaning_ex :
  let p := EQuant QEx "y" (EPred "likes" [PVar "x"; PVar "y"] None) in
  let t := EQuant QEx "y" (EPred "likes" [PFun "f" [PVar "z"]; PVar "y"] None) in
  let s : subst := {["x" := PFun "f" [PVar "z"]]} in
  walked p = true /\ match_expr_pattern p t = Some s /\ (forall x, x ∈ epvars [] p -> x ∉ flat_map tbounds (eterms p)) /\
  (forall x v, s !! x = Some v -> forall y, y ∈ names v -> y ∉ binders p).
Proof.
  split; [done|]. split; [decided|]. split; [cbn; set_solver|]. intros x v H y Hy. apply lookup_singleton_Some in H as [<- <-]. cbn in *. set_solver.
Qed.
Definition bools : structure bool :=
  Structure bool (fun c => String.eqb c "a") (fun _ _ => true) (fun _ => true) (fun _ _ l => l = [true]) (fun _ => True) (fun _ p => p) (fun _ p _ => p) (fun _ => True).
(** The value is checked against the binders only when a variable is bound first: a variable met outside
    a quantifier can be matched with the quantifier's own variable inside it. *)
Theorem C61_capture_refuted : exists p t s, walked p = true /\ match_expr_pattern p t = Some s /\
  exists ρ, ~ (truth bools ρ t <-> truth bools (fun x => match s !! x with Some v => value bools ρ v | None => ρ x end) p).
Proof.
  exists (EBin CAnd (EPred "p" [PVar "x"] None) (EQuant QAll "y" (EPred "q" [PVar "x"] None))),
    (EBin CAnd (EPred "p" [PVar "y"] None) (EQuant QAll "y" (EPred "q" [PVar "y"] None))), {["x" := PVar "y"]}.
  split; [done|]. split; [decided|]. exists (fun _ => true). cbn. unfold upd. cbn. rewrite lookup_singleton. cbn.
  intros [_ H]. destruct H as [_ H]; [split; [done|by intros _]|]. by specialize (H false).
Qed.
(** Temporal parts are compared as they are: the pattern's variables inside them are not replaced. *)
Theorem C61_temporal_refuted : exists p t s, match_expr_pattern p t = Some s /\ epsub [] s p <> t /\
  exists ρ, truth bools ρ t /\ ~ truth bools (fun x => match s !! x with Some v => value bools ρ v | None => ρ x end) p.
Proof.
  exists (EBin CAnd (EPred "p" [PVar "u"] None) (EBin CAnd (EIdent (PVar "x") (PVar "x")) (ETemp "Past" (EPred "q" [PVar "x"] None)))),
    (EBin CAnd (EPred "p" [PConst "a"] None) (EBin CAnd (EIdent (PConst "b") (PConst "b")) (ETemp "Past" (EPred "q" [PVar "x"] None)))),
    {["u" := PConst "a"; "x" := PConst "b"]}.
  split; [decided|]. split; [vm_compute; congruence|]. exists (fun _ => true). split; [cbn; auto|]. vm_compute. intros (_ & _ & H). discriminate H.
Qed.
