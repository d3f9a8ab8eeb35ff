(** Property C60, expressions with quantifiers. *)
From Coq Require Import String List Arith Lia Bool.
From stdpp Require Import gmap strings list pretty.
From Verif Require Import UnifyModel UnifyProofs UnifyProps UnifyExprProofs UnifyExprProps.
Local Open Scope string_scope.
Local Open Scope list_scope.

Fixpoint binders (e : pexpr) : list string :=
  match e with
  | EQuant _ x a => x :: binders a
  | EBin _ a b | ETemp2 _ a b => binders a ++ binders b
  | ENot a | ETemp _ a => binders a
  | _ => []
  end.
(** No quantifier binds a name that is already bound around it. *)
Fixpoint noshadow (e : pexpr) : Prop :=
  match e with
  | EQuant _ x a => x ∉ binders a /\ noshadow a
  | EBin _ a b | ETemp2 _ a b => noshadow a /\ noshadow b
  | ENot a | ETemp _ a => noshadow a
  | _ => True
  end.
Fixpoint tconsts (t : pterm) : list string :=
  match t with PConst c => [c] | PVar _ | PBound _ => [] | PFun _ l | PGroup l => flat_map tconsts l end.
Definition econsts (e : pexpr) : list string := flat_map tconsts (eterms e).
(** The names of the constants that stand for bound variables from the counter's value [c] on. *)
Definition alpha_name (j : nat) : string := "#α" +:+ pretty j.

Lemma in_consts_list l y : y ∈ flat_map tconsts l <-> exists a, a ∈ l /\ y ∈ tconsts a.
Proof.
  rewrite elem_of_list_In, in_flat_map. split; intros (a & H1 & H2); exists a; split;
    try (by apply elem_of_list_In); by apply elem_of_list_In.
Qed.
Lemma alpha_name_inj i j : alpha_name i = alpha_name j -> i = j.
Proof. unfold alpha_name. intros H. apply (inj (String.append "#α")) in H. by apply (inj pretty) in H. Qed.
Lemma ecsub_binders x k e : binders (ecsub x k e) = binders e.
Proof. induction e; cbn; try done; try (by rewrite IHe1, IHe2); by rewrite IHe. Qed.
Lemma ecsub_noshadow x k e : noshadow (ecsub x k e) <-> noshadow e.
Proof. induction e; cbn; try done; try (by rewrite IHe1, IHe2); by rewrite ?ecsub_binders, IHe. Qed.
Lemma ecsub_plain x k e : plain (ecsub x k e) = plain e.
Proof. induction e; cbn; try done; try (by rewrite IHe1, IHe2). Qed.

Lemma veq_open pre x y same a b : x ∉ pre.*1 -> y ∉ pre.*2 -> veq (pre ++ [(x, y)]) same a b <-> (a = x /\ b = y) \/ (a <> x /\ b <> y /\ veq pre same a b).
Proof.
  induction pre as [|[u v] pre IH]; intros Hx Hy; cbn [app veq].
  - tauto.
  - cbn in Hx, Hy. apply not_elem_of_cons in Hx as [Hx1 Hx2], Hy as [Hy1 Hy2]. rewrite IH by done. split.
    + intros [[-> ->]|(H1 & H2 & [[-> ->]|H])]; [right; auto|by left|right; tauto].
    + intros [[-> ->]|(H1 & H2 & [[-> ->]|H])]; [right; auto|by left|right; tauto].
Qed.
Lemma csub_var x k z : tsub {[x := PConst k]} (PVar z) = if String.eqb z x then PConst k else PVar z.
Proof. cbn. destruct (String.eqb_spec z x) as [-> |Hn]; [by rewrite lookup_singleton|by rewrite lookup_singleton_ne]. Qed.
Lemma csub_bound x k z : tsub {[x := PConst k]} (PBound z) = if String.eqb z x then PConst k else PBound z.
Proof. cbn. destruct (String.eqb_spec z x) as [-> |Hn]; [by rewrite lookup_singleton|by rewrite lookup_singleton_ne]. Qed.
Lemma csub_fun x k f l : tsub {[x := PConst k]} (PFun f l) = PFun f (map (tsub {[x := PConst k]}) l).
Proof. done. Qed.
Lemma csub_group x k l : tsub {[x := PConst k]} (PGroup l) = PGroup (map (tsub {[x := PConst k]}) l).
Proof. done. Qed.
Lemma csub_const x k c : tsub {[x := PConst k]} (PConst c) = PConst c.
Proof. done. Qed.
Lemma teq_open pre x y k t1 t2 : x ∉ pre.*1 -> y ∉ pre.*2 -> teq (pre ++ [(x, y)]) t1 t2 ->
  teq pre (tsub {[x := PConst k]} t1) (tsub {[y := PConst k]} t2).
Proof.
  intros Hx Hy. revert t2. induction t1 as [c|z|z|f l IH|l IH] using pterm_ind'; intros [d|w|g m|m|w] H; try done;
    rewrite ?csub_var, ?csub_bound;
    try (cbn [teq] in H; apply veq_open in H as [[-> ->]|(H1 & H2 & H)]; [by rewrite !String.eqb_refl| |done|done];
         apply String.eqb_neq in H1 as ->, H2 as ->; exact H).
  - apply teq_fun in H as [-> H]. rewrite !csub_fun. apply teq_fun. split; [done|].
    revert m H. induction IH as [|a l Ha _ IHl]; intros m H; inversion H; subst; constructor; eauto.
  - apply teq_group in H. rewrite !csub_group. apply teq_group.
    revert m H. induction IH as [|a l Ha _ IHl]; intros m H; inversion H; subst; constructor; eauto.
Qed.
Lemma teq_open_list pre x y k l m : x ∉ pre.*1 -> y ∉ pre.*2 -> Forall2 (teq (pre ++ [(x, y)])) l m ->
  Forall2 (teq pre) (map (tsub {[x := PConst k]}) l) (map (tsub {[y := PConst k]}) m).
Proof. intros Hx Hy. induction 1; cbn; constructor; [by apply teq_open|done]. Qed.
Lemma aeq_open st x y k e1 : forall pre e2, x ∉ pre.*1 -> y ∉ pre.*2 -> x ∉ binders e1 -> y ∉ binders e2 ->
  aeq st (pre ++ [(x, y)]) e1 e2 -> aeq st pre (ecsub x k e1) (ecsub y k e2).
Proof.
  induction e1 as [p ts w|a b|a|c a IHa b IHb|a IHa|q z a IHa|o a IHa|o a IHa b IHb|j]; intros pre [] Hx Hy Bx By H;
    cbn [aeq ecsub binders] in *; try done; rewrite ?not_elem_of_app, ?not_elem_of_cons in Bx, By.
  - destruct H as (-> & H & Hw). split; [done|]. split; [|done]. by apply teq_open_list.
  - destruct H as [H1 H2]. split; by apply teq_open.
  - destruct H as (-> & H1 & H2). split; [done|]. split; [apply IHa; tauto|apply IHb; tauto].
  - by apply IHa.
  - destruct H as [-> H]. split; [done|]. apply (IHa ((z, x0) :: pre)); try done.
    + cbn. apply not_elem_of_cons. tauto.
    + cbn. apply not_elem_of_cons. tauto.
    + tauto.
    + tauto.
  - destruct H as [-> H]. split; [done|]. by apply IHa.
  - destruct H as (-> & H1 & H2). split; [done|]. split; [apply IHa; tauto|apply IHb; tauto].
Qed.
Lemma teq_nil t1 t2 : teq [] t1 t2 <-> t1 = t2.
Proof.
  revert t2. induction t1 as [c|z|z|f l IH|l IH] using pterm_ind'; intros [d|w|g m|m|w]; try (cbn; split; [tauto|done]); try (cbn; split; [intros [-> _]; done|by intros [= ->]]); try (cbn; split; [by intros [_ ?]|done]).
  - cbn. split; [by intros ->|by intros [= ->]].
  - rewrite teq_fun. assert (HL : Forall2 (teq []) l m <-> l = m); [|split; [intros [-> H]; by apply HL in H as ->|intros [= -> ->]; split; [done|by apply HL]]].
    clear g f. revert m; induction IH as [|a l Ha _ IHl]; intros [|b m]; rewrite ?Forall2_cons, ?Forall2_nil; try done; try (split; [intros H; by inversion H|done]).
    rewrite Ha, IHl. split; [by intros [-> ->]|by intros [= -> ->]].
  - rewrite teq_group. assert (HL : Forall2 (teq []) l m <-> l = m); [|split; [intros H; by apply HL in H as ->|intros [= ->]; by apply HL]].
    revert m; induction IH as [|a l Ha _ IHl]; intros [|b m]; rewrite ?Forall2_cons, ?Forall2_nil; try done; try (split; [intros H; by inversion H|done]).
    rewrite Ha, IHl. split; [by intros [-> ->]|by intros [= -> ->]].
Qed.
Lemma teq_nil_list l m : Forall2 (teq []) l m <-> l = m.
Proof. split; [|intros ->; apply Forall_Forall2_diag; intros a _; by apply teq_nil]. induction 1 as [|a b l m H _ ->]; [done|]. by apply teq_nil in H as ->. Qed.
Lemma App_empty t : App ∅ t t.
Proof. apply App_id. intros y _. apply lookup_empty. Qed.
Lemma U_refl t : U ∅ t t (UOk ∅).
Proof.
  induction t as [c|z|z|f l IH|l IH] using pterm_ind'; (eapply U_step; [apply App_empty|apply App_empty|]); cbn.
  - exists 0. by rewrite String.eqb_refl.
  - exists 0. by rewrite String.eqb_refl.
  - exists 0. by rewrite String.eqb_refl.
  - rewrite String.eqb_refl, Nat.eqb_refl. cbn. change (UL ∅ l l (UOk ∅)). induction IH as [|a l Ha _ IHl]; [apply UL_nil|by apply (UL_cons ∅ a a l l ∅)].
  - rewrite Nat.eqb_refl. cbn. change (UL ∅ l l (UOk ∅)). induction IH as [|a l Ha _ IHl]; [apply UL_nil|by apply (UL_cons ∅ a a l l ∅)].
Qed.
Lemma UL_refl l : UL ∅ l l (UOk ∅).
Proof. induction l as [|a l IH]; [apply UL_nil|apply (UL_cons ∅ a a l l ∅); [apply U_refl|done]]. Qed.
Lemma conn_eqb_refl c : conn_eqb c c = true.
Proof. by destruct c. Qed.
Lemma quant_eqb_refl c : quant_eqb c c = true.
Proof. by destruct c. Qed.
(** Expressions that differ only in the names of bound variables unify, and nothing is bound. *)
Lemma UE_alpha n : forall e1 e2 c, esize e1 <= n -> plain e1 = true -> noshadow e1 -> noshadow e2 -> aeq false [] e1 e2 ->
  exists c', UE ∅ c e1 e2 (UOk (∅, c')).
Proof.
  induction n as [|n IH]; intros e1 e2 c Hn Hp H1 H2 H; [destruct e1; cbn in Hn; lia|].
  assert (HB : forall a1 a2 b1 b2, esize a1 <= n -> esize b1 <= n -> plain a1 = true -> plain b1 = true -> noshadow a1 -> noshadow a2 -> noshadow b1 -> noshadow b2 ->
    aeq false [] a1 a2 -> aeq false [] b1 b2 -> exists c' m, match unify_expr m a1 a2 ∅ c with Some (UOk (s, c)) => unify_expr m b1 b2 s c | r => r end = Some (UOk (∅, c'))).
  { intros a1 a2 b1 b2 A1 B1 A2 B2 A3 A4 B3 B4 A5 B5. destruct (IH a1 a2 c) as [c1 [m1 Hm1]]; try done. destruct (IH b1 b2 c1) as [c2 [m2 Hm2]]; try done.
    exists c2, (max m1 m2). rewrite (unify_expr_mono m1 _ _ _ _ _ _ Hm1) by lia. apply (unify_expr_mono m2); [done|lia]. }
  destruct e1, e2; cbn [aeq plain noshadow esize] in *; try done.
  - destruct H as (-> & Hl & Hw). apply teq_nil_list in Hl as ->. exists c. destruct (UL_refl l0) as [m Hm]. exists (S m). cbn [unify_expr].
    rewrite String.eqb_refl, Nat.eqb_refl. cbn [negb].
    rewrite (proj2 (world_ok world world0)) by tauto. by rewrite Hm.
  - destruct H as [Ha Hb]. apply teq_nil in Ha as ->, Hb as ->. exists c. destruct (UL_refl [a0; b0]) as [m Hm]. exists (S m). cbn [unify_expr]. by rewrite Hm.
  - subst. exists c, 1. cbn. by rewrite String.eqb_refl.
  - destruct H as (-> & Ha & Hb). apply andb_true_iff in Hp as [Hp1 Hp2]. destruct (HB e1_1 e2_1 e1_2 e2_2) as (c' & m & Hm); try tauto; try lia.
    exists c', (S m). cbn [unify_expr]. by rewrite conn_eqb_refl.
  - destruct (IH e1 e2 c) as [c' [m Hm]]; try done; [lia|]. by exists c', (S m).
  - destruct H as [-> H]. destruct H1 as [H1 H1'], H2 as [H2 H2'].
    destruct (apply_expr_csub x (alpha_name c) e1) as [m1 Hm1]. destruct (apply_expr_csub x0 (alpha_name c) e2) as [m2 Hm2].
    destruct (IH (ecsub x (alpha_name c) e1) (ecsub x0 (alpha_name c) e2) (S c)) as [c' [m Hm]].
    + rewrite ecsub_size. lia.
    + by rewrite ecsub_plain.
    + by apply ecsub_noshadow.
    + by apply ecsub_noshadow.
    + apply (aeq_open false x x0 _ e1 [] e2); try done; apply not_elem_of_nil.
    + exists c', (S (m1 + m2 + m)). cbn [unify_expr]. rewrite quant_eqb_refl. unfold fresh_alpha. fold (alpha_name c).
      rewrite (apply_expr_mono m1 _ _ _ _ Hm1), (apply_expr_mono m2 _ _ _ _ Hm2) by lia. apply (unify_expr_mono m); [done|lia].
  - destruct H as [-> H]. destruct (IH e1 e2 c) as [c' [m Hm]]; try done; [lia|]. exists c', (S m). cbn [unify_expr]. by rewrite String.eqb_refl.
  - destruct H as (-> & Ha & Hb). apply andb_true_iff in Hp as [Hp1 Hp2]. destruct (HB e1_1 e2_1 e1_2 e2_2) as (c' & m & Hm); try tauto; try lia.
    exists c', (S m). cbn [unify_expr]. by rewrite String.eqb_refl.
Qed.
Theorem C60_alpha e1 e2 c : plain e1 = true -> noshadow e1 -> noshadow e2 -> aeq true [] e1 e2 ->
  exists c', unify_exprs_returns e1 e2 c (UOk (∅, c')).
Proof.
  intros Hp H1 H2 H. destruct (UE_alpha (esize e1) e1 e2 c) as [c' Hc]; try done; [|exists c'; by apply returns_UE].
  revert H. generalize (@nil (string * string)). clear H1 H2 c. revert e2.
  induction e1 as [p ts w|a b|a|c a IHa b IHb|a IHa|q z a IHa|o a IHa|o a IHa b IHb|j]; intros [] env H; cbn [aeq plain] in *; try done.
  - destruct H as (-> & H & [-> |[? _]]); [|done]. auto.
  - apply andb_true_iff in Hp as [Hp1 Hp2]. destruct H as (-> & Ha & Hb). auto.
  - auto.
  - destruct H as [-> H]. auto.
  - destruct H as [-> H]. auto.
  - apply andb_true_iff in Hp as [Hp1 Hp2]. destruct H as (-> & Ha & Hb). auto.
Qed.
Ltac aeq_solve := cbn; repeat match goal with
  | |- ?x = ?x => reflexivity
  | |- _ <> _ => discriminate
  | |- ?A /\ ?B => split
  | |- Forall2 _ _ _ => constructor; cbn
  | |- _ \/ _ => first [left; solve [aeq_solve_leaf]|right]
  end
with aeq_solve_leaf := repeat split; reflexivity.
Example C60_alpha_ex :
  let e1 := EQuant QAll "x" (EBin CImplies (EPred "p" [PVar "x"; PVar "u"] None) (EQuant QEx "y" (EPred "r" [PVar "x"; PVar "y"] None))) in
  let e2 := EQuant QAll "y" (EBin CImplies (EPred "p" [PVar "y"; PVar "u"] None) (EQuant QEx "x" (EPred "r" [PVar "y"; PVar "x"] None))) in
  plain e1 = true /\ noshadow e1 /\ noshadow e2 /\ aeq true [] e1 e2 /\ unify_exprs_returns e1 e2 7 (UOk (∅, 9)).
Proof.
  split; [done|]. split; [cbn; set_solver|]. split; [cbn; set_solver|]. split; [|apply returns_UE; exists 9; decided].
  aeq_solve.
Qed.
(** A binder that reuses the name of an enclosing one breaks both directions. *)
Theorem C60_alpha_refuted : exists e1 e2 c r, plain e1 = true /\ aeq true [] e1 e2 /\ unify_exprs_returns e1 e2 c (UErr r).
Proof.
  exists (EQuant QAll "x" (EQuant QAll "x" (EPred "p" [PVar "x"] None))), (EQuant QAll "a" (EQuant QAll "b" (EPred "p" [PVar "b"] None))), 0, SymbolMismatch.
  split; [done|]. split; [|apply returns_UE; exists 9; decided].
  aeq_solve.
Qed.
Theorem C60_shadow_refuted : exists e1 e2 c c', unify_exprs_returns e1 e2 c (UOk (∅, c')) /\
  exists (M : structure bool) ρ, truth M ρ e1 /\ ~ truth M ρ e2.
Proof.
  exists (EQuant QAll "x" (EQuant QEx "x" (EPred "p" [PVar "x"] None))), (EQuant QAll "x" (EQuant QEx "y" (EPred "p" [PVar "x"] None))), 0, 2.
  split; [apply returns_UE; exists 9; decided|].
  exists (Structure bool (fun _ => true) (fun _ _ => true) (fun _ => true) (fun _ _ l => l = [true]) (fun _ => True) (fun _ p => p) (fun _ p _ => p) (fun _ => True)), (fun _ => true).
  cbn. split; [intros _; by exists true|]. intros H. destruct (H false) as [d Hd]. done.
Qed.

(** ** Soundness with quantifiers *)
Lemma teq_close pre x y k t1 t2 : x ∉ pre.*1 -> y ∉ pre.*2 -> k ∉ tconsts t1 -> k ∉ tconsts t2 ->
  teq pre (tsub {[x := PConst k]} t1) (tsub {[y := PConst k]} t2) -> teq (pre ++ [(x, y)]) t1 t2.
Proof.
  intros Hx Hy. revert t2. induction t1 as [c|z|z|f l IH|l IH] using pterm_ind'; intros t2 K1 K2 H.
  - destruct t2 as [d|w|g m|m|w]; rewrite ?csub_var, ?csub_bound, ?csub_const in H; try (destruct (String.eqb w y)); cbn in *; try done; subst; set_solver.
  - rewrite csub_var in H. destruct t2 as [d|w|g m|m|w]; rewrite ?csub_var, ?csub_bound, ?csub_const in H; destruct (String.eqb_spec z x) as [-> |Hz]; try (destruct (String.eqb_spec w y) as [-> |Hw]);
      cbn in *; try done; try (subst; set_solver); apply veq_open; auto.
  - rewrite csub_bound in H. destruct t2 as [d|w|g m|m|w]; rewrite ?csub_var, ?csub_bound, ?csub_const in H; destruct (String.eqb_spec z x) as [-> |Hz]; try (destruct (String.eqb_spec w y) as [-> |Hw]);
      cbn in *; try done; try (subst; set_solver); apply veq_open; auto.
  - rewrite csub_fun in H. destruct t2 as [d|w|g m|m|w]; rewrite ?csub_var, ?csub_bound, ?csub_const in H; try (destruct (String.eqb w y)); try done.
    rewrite csub_fun in H. apply teq_fun in H as [-> H]. apply teq_fun. split; [done|]. cbn [tconsts] in K1, K2.
    revert m K1 K2 H. induction IH as [|a l Ha _ IHl]; intros [|b m] K1 K2 H; cbn in H, K1, K2; try (by inversion H).
    apply Forall2_cons in H as [H1 H2]. rewrite not_elem_of_app in K1, K2. constructor; [apply Ha; tauto|apply IHl; tauto].
  - rewrite csub_group in H. destruct t2 as [d|w|g m|m|w]; rewrite ?csub_var, ?csub_bound, ?csub_const in H; try (destruct (String.eqb w y)); try done.
    rewrite csub_group in H. apply teq_group in H. apply teq_group. cbn [tconsts] in K1, K2.
    revert m K1 K2 H. induction IH as [|a l Ha _ IHl]; intros [|b m] K1 K2 H; cbn in H, K1, K2; try (by inversion H).
    apply Forall2_cons in H as [H1 H2]. rewrite not_elem_of_app in K1, K2. constructor; [apply Ha; tauto|apply IHl; tauto].
Qed.
Lemma teq_close_list pre x y k l m : x ∉ pre.*1 -> y ∉ pre.*2 -> k ∉ flat_map tconsts l -> k ∉ flat_map tconsts m ->
  Forall2 (teq pre) (map (tsub {[x := PConst k]}) l) (map (tsub {[y := PConst k]}) m) -> Forall2 (teq (pre ++ [(x, y)])) l m.
Proof.
  intros Hx Hy. revert m. induction l as [|a l IH]; intros [|b m] K1 K2 H; cbn in H, K1, K2; try (by inversion H).
  apply Forall2_cons in H as [H1 H2]. rewrite not_elem_of_app in K1, K2. constructor; [apply (teq_close pre x y k); tauto|apply IH; tauto].
Qed.
Lemma aeq_close st x y k e1 : forall pre e2, x ∉ pre.*1 -> y ∉ pre.*2 -> x ∉ binders e1 -> y ∉ binders e2 ->
  k ∉ econsts e1 -> k ∉ econsts e2 ->
  aeq st pre (ecsub x k e1) (ecsub y k e2) -> aeq st (pre ++ [(x, y)]) e1 e2.
Proof.
  unfold econsts.
  induction e1 as [p ts w|a b|a|c a IHa b IHb|a IHa|q z a IHa|o a IHa|o a IHa b IHb|j]; intros pre [] Hx Hy Bx By K1 K2 H;
    cbn [aeq ecsub binders eterms] in *; try done.
  - destruct H as (-> & H & Hw). split; [done|]. split; [|done]. by apply (teq_close_list pre x y k).
  - cbn [flat_map] in K1, K2. rewrite ?not_elem_of_app in K1, K2. destruct H as [H1 H2]. split; apply (teq_close pre x y k); tauto.
  - destruct H as (-> & H1 & H2). rewrite flat_map_app in K1, K2. apply not_elem_of_app in K1 as [K1 K1'], K2 as [K2 K2'], Bx as [Bx Bx'], By as [By By']. split; [done|]. split; [apply IHa|apply IHb]; tauto.
  - by apply IHa.
  - destruct H as [-> H]. apply not_elem_of_cons in Bx as [Bx Bx'], By as [By By']. split; [done|]. apply (IHa ((z, x0) :: pre)); try done.
    + cbn. apply not_elem_of_cons. tauto.
    + cbn. apply not_elem_of_cons. tauto.
  - destruct H as [-> H]. split; [done|]. by apply IHa.
  - destruct H as (-> & H1 & H2). rewrite flat_map_app in K1, K2. apply not_elem_of_app in K1 as [K1 K1'], K2 as [K2 K2'], Bx as [Bx Bx'], By as [By By']. split; [done|]. split; [apply IHa|apply IHb]; tauto.
Qed.
Lemma tsub_notin x k t : x ∉ names t -> tsub {[x := PConst k]} t = t.
Proof.
  induction t as [c|z|z|f l IH|l IH] using pterm_ind'; intros H; rewrite ?csub_var, ?csub_bound; cbn [names] in H.
  - done.
  - apply not_elem_of_cons in H as [H _]. destruct (String.eqb_spec z x); congruence.
  - apply not_elem_of_cons in H as [H _]. destruct (String.eqb_spec z x); congruence.
  - rewrite csub_fun. f_equal. induction IH as [|a l Ha _ IHl]; [done|]. cbn in *. apply not_elem_of_app in H as [H1 H2]. f_equal; auto.
  - rewrite csub_group. f_equal. induction IH as [|a l Ha _ IHl]; [done|]. cbn in *. apply not_elem_of_app in H as [H1 H2]. f_equal; auto.
Qed.
Lemma App_commute S x k t u : S !! x = None -> (forall y v, S !! y = Some v -> x ∉ names v) -> App S t u ->
  App S (tsub {[x := PConst k]} t) (tsub {[x := PConst k]} u).
Proof.
  intros Hx Hv H. revert t u H. apply (App_ind S (fun t u => App S (tsub {[x := PConst k]} t) (tsub {[x := PConst k]} u))).
  - intros c. by apply App_const.
  - intros y Hy. rewrite csub_var. destruct (String.eqb y x); [by apply App_const|]. apply App_var. by rewrite Hy.
  - intros y Hy. rewrite csub_bound. destruct (String.eqb y x); [by apply App_const|]. apply App_bound. by rewrite Hy.
  - intros y r u E _ IH. rewrite csub_var. destruct (String.eqb_spec y x) as [-> |Hn]; [congruence|]. apply App_var. rewrite E.
    by rewrite tsub_notin in IH by (by apply (Hv y)).
  - intros y r u E _ IH. rewrite csub_bound. destruct (String.eqb_spec y x) as [-> |Hn]; [congruence|]. apply App_bound. rewrite E.
    by rewrite tsub_notin in IH by (by apply (Hv y)).
  - intros f l r _ Hl. rewrite !csub_fun. apply App_fun. eexists. split; [done|]. induction Hl as [|a b l r Hab _ IHl]; constructor; [apply Hab|done].
  - intros l r _ Hl. rewrite !csub_group. apply App_group. eexists. split; [done|]. induction Hl as [|a b l r Hab _ IHl]; constructor; [apply Hab|done].
Qed.
Lemma App_consts S t u k : App S t u -> k ∈ tconsts u -> k ∈ tconsts t \/ exists x v, S !! x = Some v /\ k ∈ tconsts v.
Proof.
  intros H. revert t u H. apply (App_ind S (fun t u => k ∈ tconsts u -> k ∈ tconsts t \/ exists x v, S !! x = Some v /\ k ∈ tconsts v)); cbn [tconsts]; auto.
  - intros x r u E _ IH H. destruct (IH H) as [H'|H']; eauto.
  - intros x r u E _ IH H. destruct (IH H) as [H'|H']; eauto.
  - intros _ l r _ Hl. induction Hl as [|a b l r Hab _ IHl]; cbn; [auto|]. rewrite !elem_of_app. intros [H|H]; [destruct (Hab H)|destruct (IHl H)]; auto.
  - intros l r _ Hl. induction Hl as [|a b l r Hab _ IHl]; cbn; [auto|]. rewrite !elem_of_app. intros [H|H]; [destruct (Hab H)|destruct (IHl H)]; auto.
Qed.
Definition AppE (S : subst) (e u : pexpr) : Prop := exists n, apply_expr n S e = Some u.
Lemma AppE_det S e u v : AppE S e u -> AppE S e v -> u = v.
Proof. intros [n Hn] [m Hm]. apply (apply_expr_mono _ (max n m)) in Hn; [|lia]. apply (apply_expr_mono _ (max n m)) in Hm; [|lia]. congruence. Qed.
Lemma AppE_total S e : acyclic S -> exists u, AppE S e u.
Proof.
  intros Ha. induction e as [p l w|a b|a|c a [u [n Hn]] b [v [m Hm]]|a [u [n Hn]]|q x a [u [n Hn]]|o a [u [n Hn]]|o a [u [n Hn]] b [v [m Hm]]|j].
  - assert (HL : exists r, Forall2 (App S) l r).
    { induction l as [|a l [r IH]]; [by exists []|]. destruct (App_total S a Ha) as [u Hu]. exists (u :: r). by constructor. }
    destruct HL as [r HL]. destruct (App_list _ _ _ HL) as [n Hn]. eexists. exists n. cbn [apply_expr]. by rewrite Hn.
  - destruct (App_total S a Ha) as [u [n Hn]], (App_total S b Ha) as [v [m Hm]]. eexists. exists (max n m). cbn [apply_expr].
    by rewrite (apply_mono n _ _ _ _ Hn), (apply_mono m _ _ _ _ Hm) by lia.
  - eexists. by exists 0.
  - eexists. exists (max n m). cbn [apply_expr]. by rewrite (apply_expr_mono n _ _ _ _ Hn), (apply_expr_mono m _ _ _ _ Hm) by lia.
  - eexists. exists n. cbn [apply_expr]. by rewrite Hn.
  - eexists. exists n. cbn [apply_expr]. by rewrite Hn.
  - eexists. exists n. cbn [apply_expr]. by rewrite Hn.
  - eexists. exists (max n m). cbn [apply_expr]. by rewrite (apply_expr_mono n _ _ _ _ Hn), (apply_expr_mono m _ _ _ _ Hm) by lia.
  - eexists. by exists 0.
Qed.
(** Reading off what [apply_expr] does, form by form. *)
Lemma AppE_pred S p l w u : AppE S (EPred p l w) u <-> exists r, u = EPred p r w /\ Forall2 (App S) l r.
Proof.
  split.
  - intros [n H]. cbn in H. destruct (map_opt (apply n S) l) as [r|] eqn:E; [|done]. injection H as <-. exists r. split; [done|].
    apply map_opt_Some in E. eapply Forall2_impl; [exact E|]. intros a b Hab. by exists n.
  - intros (r & -> & H). destruct (App_list _ _ _ H) as [n Hn]. exists n. cbn. by rewrite Hn.
Qed.
Lemma AppE_ident S a b u : AppE S (EIdent a b) u <-> exists a' b', u = EIdent a' b' /\ App S a a' /\ App S b b'.
Proof.
  split.
  - intros [n H]. cbn in H. destruct (apply n S a) as [a'|] eqn:E1; [|done]. destruct (apply n S b) as [b'|] eqn:E2; [|done]. injection H as <-.
    exists a', b'. split; [done|]. split; by exists n.
  - intros (a' & b' & -> & [n Hn] & [m Hm]). exists (max n m). cbn. by rewrite (apply_mono n _ _ _ _ Hn), (apply_mono m _ _ _ _ Hm) by lia.
Qed.
Lemma AppE_bin S c a b u : AppE S (EBin c a b) u <-> exists a' b', u = EBin c a' b' /\ AppE S a a' /\ AppE S b b'.
Proof.
  split.
  - intros [n H]. cbn in H. destruct (apply_expr n S a) as [a'|] eqn:E1; [|done]. destruct (apply_expr n S b) as [b'|] eqn:E2; [|done]. injection H as <-.
    exists a', b'. split; [done|]. split; by exists n.
  - intros (a' & b' & -> & [n Hn] & [m Hm]). exists (max n m). cbn. by rewrite (apply_expr_mono n _ _ _ _ Hn), (apply_expr_mono m _ _ _ _ Hm) by lia.
Qed.
Lemma AppE_temp2 S c a b u : AppE S (ETemp2 c a b) u <-> exists a' b', u = ETemp2 c a' b' /\ AppE S a a' /\ AppE S b b'.
Proof.
  split.
  - intros [n H]. cbn in H. destruct (apply_expr n S a) as [a'|] eqn:E1; [|done]. destruct (apply_expr n S b) as [b'|] eqn:E2; [|done]. injection H as <-.
    exists a', b'. split; [done|]. split; by exists n.
  - intros (a' & b' & -> & [n Hn] & [m Hm]). exists (max n m). cbn. by rewrite (apply_expr_mono n _ _ _ _ Hn), (apply_expr_mono m _ _ _ _ Hm) by lia.
Qed.
Lemma AppE_not S a u : AppE S (ENot a) u <-> exists a', u = ENot a' /\ AppE S a a'.
Proof.
  split.
  - intros [n H]. cbn in H. destruct (apply_expr n S a) as [a'|] eqn:E1; [|done]. injection H as <-. exists a'. split; [done|]. by exists n.
  - intros (a' & -> & [n Hn]). exists n. cbn. by rewrite Hn.
Qed.
Lemma AppE_temp S o a u : AppE S (ETemp o a) u <-> exists a', u = ETemp o a' /\ AppE S a a'.
Proof.
  split.
  - intros [n H]. cbn in H. destruct (apply_expr n S a) as [a'|] eqn:E1; [|done]. injection H as <-. exists a'. split; [done|]. by exists n.
  - intros (a' & -> & [n Hn]). exists n. cbn. by rewrite Hn.
Qed.
Lemma AppE_quant S q x a u : S !! x = None -> AppE S (EQuant q x a) u <-> exists a', u = EQuant q x a' /\ AppE S a a'.
Proof.
  intros Hx. split.
  - intros [n H]. cbn in H. destruct (apply_expr n S a) as [a'|] eqn:E1; [|done]. rewrite Hx in H. injection H as <-. exists a'. split; [done|]. by exists n.
  - intros (a' & -> & [n Hn]). exists n. cbn. by rewrite Hn, Hx.
Qed.
Lemma AppE_atom S a u : AppE S (EAtom a) u <-> u = EAtom a.
Proof. split; [intros [n H]; cbn in H; congruence|]. intros ->. by exists 0. Qed.
Lemma AppE_other S a u : AppE S (EOther a) u <-> u = EOther a.
Proof. split; [intros [n H]; cbn in H; congruence|]. intros ->. by exists 0. Qed.

(** [S] neither binds nor mentions the names in [B], and mentions no constant [alpha_name j] for [j >= c]. *)
Definition clean (B : list string) (c : nat) (S : subst) : Prop :=
  forall x v, S !! x = Some v -> x ∉ B /\ (forall y, y ∈ names v -> y ∉ B) /\ forall j, c <= j -> alpha_name j ∉ tconsts v.
Lemma clean_mono B B' c c' S : clean B c S -> (forall y, y ∈ B' -> y ∈ B) -> c <= c' -> clean B' c' S.
Proof.
  intros H HB Hc x v Hx. destruct (H x v Hx) as (H1 & H2 & H3). split; [|split].
  - intros Hb. by apply H1, HB.
  - intros y Hy Hb. apply (H2 y Hy). by apply HB.
  - intros j Hj. apply H3. lia.
Qed.
Lemma clean_none B c S x : clean B c S -> x ∈ B -> S !! x = None.
Proof. intros H Hb. destruct (S !! x) as [v|] eqn:E; [|done]. destruct (H x v E) as [H1 _]. done. Qed.
Lemma AppE_binders S e u c : clean (binders e) c S -> AppE S e u -> binders u = binders e.
Proof.
  revert u. induction e as [p l w|a b|a|o a IHa b IHb|a IHa|q x a IHa|o a IHa|o a IHa b IHb|j]; intros u Hc H; cbn [binders] in *.
  - apply AppE_pred in H as (r & -> & _). done.
  - apply AppE_ident in H as (a' & b' & -> & _). done.
  - by apply AppE_atom in H as ->.
  - apply AppE_bin in H as (a' & b' & -> & Ha & Hb). cbn. rewrite (IHa a'), (IHb b'); try done; eapply clean_mono; try exact Hc; try done; set_solver.
  - apply AppE_not in H as (a' & -> & Ha). cbn. by apply IHa.
  - apply AppE_quant in H as (a' & -> & Ha); [|apply (clean_none _ _ _ _ Hc); left]. cbn. rewrite (IHa a'); try done. eapply clean_mono; try exact Hc; try done; set_solver.
  - apply AppE_temp in H as (a' & -> & Ha). cbn. by apply IHa.
  - apply AppE_temp2 in H as (a' & b' & -> & Ha & Hb). cbn. rewrite (IHa a'), (IHb b'); try done; eapply clean_mono; try exact Hc; try done; set_solver.
  - by apply AppE_other in H as ->.
Qed.
Lemma AppE_terms S e u c : clean (binders e) c S -> AppE S e u -> Forall2 (App S) (eterms e) (eterms u).
Proof.
  revert u. induction e as [p l w|a b|a|o a IHa b IHb|a IHa|q x a IHa|o a IHa|o a IHa b IHb|j]; intros u Hc H; cbn [binders eterms] in *.
  - apply AppE_pred in H as (r & -> & H). done.
  - apply AppE_ident in H as (a' & b' & -> & Ha & Hb). cbn. by repeat constructor.
  - apply AppE_atom in H as ->. constructor.
  - apply AppE_bin in H as (a' & b' & -> & Ha & Hb). cbn. apply Forall2_app; [apply (IHa a')|apply (IHb b')]; try done; eapply clean_mono; try exact Hc; try done; set_solver.
  - apply AppE_not in H as (a' & -> & Ha). cbn. by apply IHa.
  - apply AppE_quant in H as (a' & -> & Ha); [|apply (clean_none _ _ _ _ Hc); left]. cbn. apply (IHa a'); try done. eapply clean_mono; try exact Hc; try done; set_solver.
  - apply AppE_temp in H as (a' & -> & Ha). cbn. by apply IHa.
  - apply AppE_temp2 in H as (a' & b' & -> & Ha & Hb). cbn. apply Forall2_app; [apply (IHa a')|apply (IHb b')]; try done; eapply clean_mono; try exact Hc; try done; set_solver.
  - apply AppE_other in H as ->. constructor.
Qed.
Lemma AppE_commute S x k e u c : clean (x :: binders e) c S -> AppE S e u -> AppE S (ecsub x k e) (ecsub x k u).
Proof.
  intros Hc. assert (HT : forall t u, App S t u -> App S (tsub {[x := PConst k]} t) (tsub {[x := PConst k]} u)).
  { intros t v. apply App_commute; [apply (clean_none _ _ _ _ Hc); left|]. intros y v' Hy Hx. destruct (Hc y v' Hy) as (_ & H & _). apply (H x Hx). left. }
  revert u. induction e as [p l w|a b|a|o a IHa b IHb|a IHa|q z a IHa|o a IHa|o a IHa b IHb|j]; intros u H; cbn [binders ecsub] in *.
  - apply AppE_pred in H as (r & -> & H). apply AppE_pred. eexists. split; [done|]. induction H; constructor; auto.
  - apply AppE_ident in H as (a' & b' & -> & Ha & Hb). apply AppE_ident. eauto 10.
  - apply AppE_atom in H as ->. by apply AppE_atom.
  - apply AppE_bin in H as (a' & b' & -> & Ha & Hb). apply AppE_bin. eexists _, _. split; [done|].
    split; [apply IHa|apply IHb]; try done; eapply clean_mono; try exact Hc; try done; set_solver.
  - apply AppE_not in H as (a' & -> & Ha). apply AppE_not. eexists. split; [done|]. by apply IHa.
  - assert (Hz : S !! z = None) by (apply (clean_none _ _ _ _ Hc); right; left).
    apply AppE_quant in H as (a' & -> & Ha); [|done]. apply AppE_quant; [done|]. eexists. split; [done|]. apply IHa; [|done].
    eapply clean_mono; try exact Hc; try done; set_solver.
  - apply AppE_temp in H as (a' & -> & Ha). apply AppE_temp. eexists. split; [done|]. by apply IHa.
  - apply AppE_temp2 in H as (a' & b' & -> & Ha & Hb). apply AppE_temp2. eexists _, _. split; [done|].
    split; [apply IHa|apply IHb]; try done; eapply clean_mono; try exact Hc; try done; set_solver.
  - apply AppE_other in H as ->. by apply AppE_other.
Qed.
Lemma econsts_csub x k e y : y ∈ econsts (ecsub x k e) -> y = k \/ y ∈ econsts e.
Proof.
  unfold econsts. rewrite eterms_csub. rewrite !in_consts_list. intros (a & Ha & Hy). apply elem_of_list_fmap in Ha as (b & -> & Hb).
  assert (HT : y ∈ tconsts (tsub {[x := PConst k]} b) -> y = k \/ y ∈ tconsts b); [|destruct (HT Hy); [by left|right; eauto]].
  clear Hb Hy. induction b as [c|z|z|f l IH|l IH] using pterm_ind'; rewrite ?csub_var, ?csub_bound, ?csub_fun, ?csub_group, ?csub_const; cbn [tconsts]; auto.
  - destruct (String.eqb z x); cbn; set_solver.
  - destruct (String.eqb z x); cbn; set_solver.
  - induction IH as [|a l Ha _ IHl]; cbn; [auto|]. rewrite !elem_of_app. tauto.
  - induction IH as [|a l Ha _ IHl]; cbn; [auto|]. rewrite !elem_of_app. tauto.
Qed.
Definition fresh_in (c : nat) (e : pexpr) : Prop := forall j, c <= j -> alpha_name j ∉ econsts e.

Section QSound.
  Context (N : gset string) (S : subst) (HS : acyclic S) (c0 : nat).
  Lemma same_final s1 l m : length l = length m -> Forall (tin N) l -> Forall (tin N) m -> forall s, inv N s -> UL s l m (UOk s1) -> s1 ⊆ S ->
    exists w, Forall2 (App S) l w /\ Forall2 (App S) m w.
  Proof.
    intros Hlen Hl Hm s Hi HU Hs. destruct (UL_ok N s l m Hi Hlen Hl Hm) as (r & [k Hk] & HG). destruct HU as [n Hn].
    apply (unify_args_mono' _ (max n k)) in Hn; [|lia]. apply (unify_args_mono' _ (max n k)) in Hk; [|lia].
    assert (r = UOk s1) as -> by congruence. destruct HG as (_ & _ & (u & Hu1 & Hu2) & _).
    assert (HL : exists w, Forall2 (App S) u w).
    { clear -HS. induction u as [|a u [w IH]]; [by exists []|]. destruct (App_total S a HS) as [b Hb]. exists (b :: w). by constructor. }
    destruct HL as [w Hw]. exists w. split; eapply Forall2_App_sub; eauto.
  Qed.
  Lemma UE_sound n : forall e1 e2 s c s1 c1, unify_expr n e1 e2 s c = Some (UOk (s1, c1)) -> inv N s -> s1 ⊆ S -> c0 <= c ->
    Forall (tin N) (eterms e1) -> Forall (tin N) (eterms e2) -> noshadow e1 -> noshadow e2 -> fresh_in c e1 -> fresh_in c e2 ->
    clean (binders e1 ++ binders e2) c0 S ->
    exists u1 u2, AppE S e1 u1 /\ AppE S e2 u2 /\ aeq false [] u1 u2.
  Proof.
    induction n as [|n IH]; intros e1 e2 s c s1 c1 H Hi Hs Hc N1 N2 S1 S2 F1 F2 HC; [done|].
    assert (HB : forall a1 a2 b1 b2, match unify_expr n a1 a2 s c with Some (UOk (s, c)) => unify_expr n b1 b2 s c | r => r end = Some (UOk (s1, c1)) ->
      Forall (tin N) (eterms a1 ++ eterms b1) -> Forall (tin N) (eterms a2 ++ eterms b2) -> noshadow a1 /\ noshadow b1 -> noshadow a2 /\ noshadow b2 ->
      (forall j, c <= j -> alpha_name j ∉ flat_map tconsts (eterms a1 ++ eterms b1)) -> (forall j, c <= j -> alpha_name j ∉ flat_map tconsts (eterms a2 ++ eterms b2)) ->
      clean ((binders a1 ++ binders b1) ++ (binders a2 ++ binders b2)) c0 S ->
      exists u1 u2 v1 v2, AppE S a1 u1 /\ AppE S a2 u2 /\ aeq false [] u1 u2 /\ AppE S b1 v1 /\ AppE S b2 v2 /\ aeq false [] v1 v2).
    { intros a1 a2 b1 b2 Hab M1 M2 [A1 B1] [A2 B2] G1 G2 HC'. destruct (unify_expr n a1 a2 s c) as [[[s' c']|e]|] eqn:E; [|done|done].
      apply Forall_app in M1 as [M1 M1'], M2 as [M2 M2']. setoid_rewrite flat_map_app in G1. setoid_rewrite flat_map_app in G2. setoid_rewrite not_elem_of_app in G1. setoid_rewrite not_elem_of_app in G2.
      destruct (UE_total N (esize a1) a1 a2 s c) as (r & Hr & Hr'); try done.
      rewrite (UE_det _ _ _ _ r (UOk (s', c')) Hr ltac:(by exists n)) in Hr'. destruct Hr' as (Hs' & Hi' & Hc').
      destruct (UE_total N (esize b1) b1 b2 s' c') as (r2 & Hr2 & Hr2'); try done.
      rewrite (UE_det _ _ _ _ r2 (UOk (s1, c1)) Hr2 ltac:(by exists n)) in Hr2'. destruct Hr2' as (Hs1 & Hi1 & Hc1).
      destruct (IH a1 a2 s c s' c' E) as (u1 & u2 & U1 & U2 & U3); try done.
      { by transitivity s1. } { intros j Hj. by apply G1. } { intros j Hj. by apply G2. }
      { eapply clean_mono; try exact HC'; try done; set_solver. }
      destruct (IH b1 b2 s' c' s1 c1 Hab) as (v1 & v2 & V1 & V2 & V3); try done.
      { lia. } { intros j Hj. apply G1. lia. } { intros j Hj. apply G2. lia. }
      { eapply clean_mono; try exact HC'; try done; set_solver. }
      exists u1, u2, v1, v2. done. }
    unfold fresh_in, econsts in F1, F2.
    destruct e1, e2; cbn [unify_expr eterms noshadow binders] in *; try done.
    - destruct (String.eqb p p0) eqn:E1; [|done]. destruct (Nat.eqb (length l) (length l0)) eqn:E2; [|done]. cbn [negb] in H.
      match type of H with context[if ?b then _ else _] => destruct b eqn:E3 end; [done|]. apply String.eqb_eq in E1 as ->. apply Nat.eqb_eq in E2. apply world_ok in E3.
      destruct (unify_args (unify n) l l0 s) as [[s'|e]|] eqn:E; [|done|done]. injection H as -> ->.
      destruct (same_final s1 l l0 E2 N1 N2 s Hi ltac:(by exists n) Hs) as (w & W1 & W2).
      exists (EPred p0 w world), (EPred p0 w world0). split; [apply AppE_pred; eauto|]. split; [apply AppE_pred; eauto|].
      cbn. split; [done|]. split; [by apply teq_nil_list|]. tauto.
    - match type of H with match ?b with _ => _ end = _ => destruct b as [[s'|e]|] eqn:E end; [|done|done]. injection H as -> ->.
      destruct (same_final s1 [a; b] [a0; b0] eq_refl N1 N2 s Hi ltac:(by exists n) Hs) as (w & W1 & W2).
      apply Forall2_cons_inv_l in W1 as (w1 & w' & W1 & W1' & ->). apply Forall2_cons_inv_l in W1' as (w2 & w'' & W1' & W1'' & ->).
      apply Forall2_cons in W2 as [W2 W2']. apply Forall2_cons in W2' as [W2' _].
      exists (EIdent w1 w2), (EIdent w1 w2). split; [apply AppE_ident; eauto 10|]. split; [apply AppE_ident; eauto 10|]. cbn. split; by apply teq_nil.
    - destruct (String.eqb s0 s2) eqn:E; [|done]. apply String.eqb_eq in E as ->. exists (EAtom s2), (EAtom s2). split; [by apply AppE_atom|]. split; [by apply AppE_atom|done].
    - destruct (conn_eqb c2 c3) eqn:E; [|done]. assert (c2 = c3) as -> by (by destruct c2, c3).
      destruct (HB _ _ _ _ H) as (u1 & u2 & v1 & v2 & U1 & U2 & U3 & V1 & V2 & V3); try done.
      exists (EBin c3 u1 v1), (EBin c3 u2 v2). split; [apply AppE_bin; eauto|]. split; [apply AppE_bin; eauto|done].
    - destruct (IH e1 e2 s c s1 c1 H) as (u1 & u2 & U1 & U2 & U3); try done.
      exists (ENot u1), (ENot u2). split; [apply AppE_not; eauto|]. split; [apply AppE_not; eauto|done].
    - destruct (quant_eqb q q0) eqn:E; [|done]. assert (q = q0) as -> by (by destruct q, q0). unfold fresh_alpha in H. fold (alpha_name c) in H.
      destruct (apply_expr n {[x := PConst (alpha_name c)]} e1) as [a1|] eqn:A1; [|done].
      destruct (apply_expr n {[x0 := PConst (alpha_name c)]} e2) as [a2|] eqn:A2; [|done].
      assert (a1 = ecsub x (alpha_name c) e1) as -> by (apply (AppE_det {[x := PConst (alpha_name c)]} e1); [by exists n|apply apply_expr_csub]).
      assert (a2 = ecsub x0 (alpha_name c) e2) as -> by (apply (AppE_det {[x0 := PConst (alpha_name c)]} e2); [by exists n|apply apply_expr_csub]).
      destruct S1 as [S1 S1'], S2 as [S2 S2'].
      assert (HTN : forall x e, Forall (tin N) (eterms e) -> Forall (tin N) (eterms (ecsub x (alpha_name c) e))).
      { intros y e He. rewrite eterms_csub. rewrite Forall_forall in He |- *. intros a Ha z Hz. apply elem_of_list_fmap in Ha as (b & -> & Hb).
        apply (He b Hb). by apply tsub_const_names in Hz. }
      assert (HF : forall x e, (forall j, c <= j -> alpha_name j ∉ flat_map tconsts (eterms e)) -> fresh_in (Datatypes.S c) (ecsub x (alpha_name c) e)).
      { intros y e He j Hj Hy. apply econsts_csub in Hy as [Hy|Hy]; [apply alpha_name_inj in Hy; lia|]. apply (He j); [lia|done]. }
      destruct (IH _ _ s (Datatypes.S c) s1 c1 H) as (u1 & u2 & U1 & U2 & U3); try done; try (by apply HTN); try (by apply HF); try (by apply ecsub_noshadow); [lia| |].
      { rewrite !ecsub_binders. eapply clean_mono; try exact HC; try done; set_solver. }
      destruct (AppE_total S e1 HS) as [v1 V1]. destruct (AppE_total S e2 HS) as [v2 V2].
      assert (C1 : clean (x :: binders e1) c0 S) by (eapply clean_mono; try exact HC; try done; set_solver).
      assert (C2 : clean (x0 :: binders e2) c0 S) by (eapply clean_mono; try exact HC; try done; set_solver).
      rewrite <- (AppE_det _ _ _ _ (AppE_commute S x (alpha_name c) e1 v1 c0 C1 V1) U1) in U3.
      rewrite <- (AppE_det _ _ _ _ (AppE_commute S x0 (alpha_name c) e2 v2 c0 C2 V2) U2) in U3.
      assert (HK : forall e v z, clean (z :: binders e) c0 S -> (forall j, c <= j -> alpha_name j ∉ flat_map tconsts (eterms e)) -> AppE S e v -> alpha_name c ∉ econsts v).
      { intros e v z Hce He Hv Hin. apply (AppE_terms S e v c0) in Hv; [|eapply clean_mono; try exact Hce; try done; set_solver].
        apply in_consts_list in Hin as (a & Ha & Hk). apply elem_of_list_lookup in Ha as [i Ha].
        destruct (Forall2_lookup_r _ _ _ _ _ Hv Ha) as (b & Hb & Hab). destruct (App_consts S b a _ Hab Hk) as [Hk'|(y & v' & Hy & Hk')].
        - apply (He c); [lia|]. apply in_consts_list. exists b. split; [by eapply elem_of_list_lookup_2|done].
        - destruct (Hce y v' Hy) as (_ & _ & H3). by apply (H3 c). }
      exists (EQuant q0 x v1), (EQuant q0 x0 v2).
      split; [apply AppE_quant; [apply (clean_none _ _ _ _ C1); left|eauto]|]. split; [apply AppE_quant; [apply (clean_none _ _ _ _ C2); left|eauto]|].
      cbn [aeq]. split; [done|]. apply (aeq_close false x x0 (alpha_name c) v1 [] v2); try (by apply not_elem_of_nil); try done.
      + rewrite (AppE_binders S e1 v1 c0); [done| |done]. eapply clean_mono; try exact C1; try done; set_solver.
      + rewrite (AppE_binders S e2 v2 c0); [done| |done]. eapply clean_mono; try exact C2; try done; set_solver.
      + by apply (HK e1 v1 x).
      + by apply (HK e2 v2 x0).
    - destruct (String.eqb op op0) eqn:E; [|done]. apply String.eqb_eq in E as ->. destruct (IH e1 e2 s c s1 c1 H) as (u1 & u2 & U1 & U2 & U3); try done.
      exists (ETemp op0 u1), (ETemp op0 u2). split; [apply AppE_temp; eauto|]. split; [apply AppE_temp; eauto|done].
    - destruct (String.eqb op op0) eqn:E; [|done]. apply String.eqb_eq in E as ->.
      destruct (HB _ _ _ _ H) as (u1 & u2 & v1 & v2 & U1 & U2 & U3 & V1 & V2 & V3); try done.
      exists (ETemp2 op0 u1 v1), (ETemp2 op0 u2 v2). split; [apply AppE_temp2; eauto|]. split; [apply AppE_temp2; eauto|done].
  Qed.
End QSound.
Theorem C60_quantified e1 e2 c s c' : noshadow e1 -> noshadow e2 ->
  (forall j, c <= j -> alpha_name j ∉ econsts e1 /\ alpha_name j ∉ econsts e2) ->
  unify_exprs_returns e1 e2 c (UOk (s, c')) ->
  (forall x v, s !! x = Some v ->
     x ∉ binders e1 ++ binders e2 /\ (forall y, y ∈ names v -> y ∉ binders e1 ++ binders e2) /\
     forall j, c <= j -> alpha_name j ∉ tconsts v) ->
  exists u1 u2, apply_expr_returns s e1 u1 /\ apply_expr_returns s e2 u2 /\ aeq false [] u1 u2.
Proof.
  intros S1 S2 HF H HC. apply returns_UE in H as [n H].
  destruct (UE_total (enames e1 e2) (esize e1) e1 e2 ∅ c) as (r & Hr & Hr'); [done|apply inv_empty|apply enames_l|apply enames_r|].
  rewrite (UE_det _ _ _ _ r (UOk (s, c')) Hr ltac:(by exists n)) in Hr'. destruct Hr' as (_ & [Ha _] & _).
  destruct (UE_sound (enames e1 e2) s Ha c n e1 e2 ∅ c s c' H) as (u1 & u2 & [n1 U1] & [n2 U2] & U3); try done.
  - apply inv_empty.
  - apply enames_l.
  - apply enames_r.
  - intros j Hj. by apply HF.
  - intros j Hj. by apply HF.
  - exists u1, u2. split; [exists n1; intros m Hm; by apply (apply_expr_mono n1)|]. split; [exists n2; intros m Hm; by apply (apply_expr_mono n2)|done].
Qed.
Example C60_quantified_ex :
  let e1 := EQuant QAll "x" (EBin CImplies (EPred "p" [PVar "x"; PVar "u"] None) (EQuant QEx "y" (EPred "r" [PVar "x"; PVar "y"] None))) in
  let e2 := EQuant QAll "y" (EBin CImplies (EPred "p" [PVar "y"; PFun "f" [PVar "v"]] None) (EQuant QEx "z" (EPred "r" [PVar "y"; PVar "z"] None))) in
  let s : subst := {["u" := PFun "f" [PVar "v"]]} in
  noshadow e1 /\ noshadow e2 /\ unify_exprs_returns e1 e2 0 (UOk (s, 2)) /\
  (forall x v, s !! x = Some v ->
     x ∉ binders e1 ++ binders e2 /\ (forall y, y ∈ names v -> y ∉ binders e1 ++ binders e2) /\ tconsts v = []).
Proof.
  cbv zeta. split; [cbn; set_solver|]. split; [cbn; set_solver|]. split; [apply returns_UE; exists 9; decided|].
  intros x v H. apply lookup_singleton_Some in H as [<- <-]. cbn. split; [set_solver|]. split; [set_solver|done].
Qed.
(** Each condition on the result is needed. A constant that stands for a bound variable escapes: *)
Theorem C60_escape_refuted : exists e1 e2 s c', noshadow e1 /\ noshadow e2 /\ econsts e1 = [] /\ econsts e2 = [] /\
  unify_exprs_returns e1 e2 0 (UOk (s, c')) /\ exists u1 u2, apply_expr_returns s e1 u1 /\ apply_expr_returns s e2 u2 /\
  exists (M : structure bool) ρ, truth M ρ u2 /\ ~ truth M ρ u1.
Proof.
  exists (EQuant QAll "x" (EPred "p" [PVar "x"] None)), (EQuant QAll "x" (EPred "p" [PVar "y"] None)), {["y" := PConst "#α0"]}, 1.
  split; [cbn; set_solver|]. split; [cbn; set_solver|]. split; [done|]. split; [done|]. split; [apply returns_UE; exists 9; decided|].
  exists (EQuant QAll "x" (EPred "p" [PVar "x"] None)), (EQuant QAll "x" (EPred "p" [PConst "#α0"] None)).
  split; [exists 5; intros m Hm; apply (apply_expr_mono 5); [vm_compute; reflexivity|done]|].
  split; [exists 5; intros m Hm; apply (apply_expr_mono 5); [vm_compute; reflexivity|done]|].
  exists (Structure bool (fun _ => true) (fun _ _ => true) (fun _ => true) (fun _ _ l => l = [true]) (fun _ => True) (fun _ p => p) (fun _ p _ => p) (fun _ => True)), (fun _ => true).
  cbn. split; [by intros _|]. intros H. by specialize (H false).
Qed.
(** ... and a name of the result is captured by a binder of an expression it is applied to. *)
Theorem C60_capture_refuted : exists e1 e2 s c', noshadow e1 /\ noshadow e2 /\
  unify_exprs_returns e1 e2 0 (UOk (s, c')) /\ (forall x v, s !! x = Some v -> tconsts v = []) /\ exists u1 u2, apply_expr_returns s e1 u1 /\ apply_expr_returns s e2 u2 /\
  exists (M : structure bool) ρ, truth M ρ u1 /\ ~ truth M ρ u2.
Proof.
  exists (EQuant QAll "x" (EPred "p" [PVar "x"; PVar "y"] None)), (EQuant QAll "z" (EPred "p" [PVar "z"; PVar "x"] None)), {["y" := PVar "x"]}, 1.
  split; [cbn; set_solver|]. split; [cbn; set_solver|]. split; [apply returns_UE; exists 9; decided|].
  split; [intros x v H; by apply lookup_singleton_Some in H as [<- <-]|].
  exists (EQuant QAll "x" (EPred "p" [PVar "x"; PVar "x"] None)), (EQuant QAll "z" (EPred "p" [PVar "z"; PVar "x"] None)).
  split; [exists 5; intros m Hm; apply (apply_expr_mono 5); [vm_compute; reflexivity|done]|].
  split; [exists 5; intros m Hm; apply (apply_expr_mono 5); [vm_compute; reflexivity|done]|].
  exists (Structure bool (fun _ => true) (fun _ _ => true) (fun _ => true) (fun _ _ l => match l with [a; b] => a = b | _ => False end) (fun _ => True) (fun _ p => p) (fun _ p _ => p) (fun _ => True)), (fun _ => true).
  cbn. split; [done|]. intros H. by specialize (H false).
Qed.
