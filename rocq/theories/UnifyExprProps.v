(** Property C60: unification of expressions. *)
From Coq Require Import String List Arith Lia Bool.
From stdpp Require Import gmap strings list pretty.
From Verif Require Import UnifyModel UnifyProofs UnifyProps UnifyExprProofs.
Local Open Scope string_scope.
Local Open Scope list_scope.

Example C60_total_ex : unify_exprs_returns
  (EQuant QAll "x" (EBin CImplies (EPred "man" [PVar "x"] None) (EPred "likes" [PVar "x"; PVar "w"] None)))
  (EQuant QAll "y" (EBin CImplies (EPred "man" [PVar "y"] None) (EPred "likes" [PVar "y"; PConst "b"] None)))
  0 (UOk ({["w" := PConst "b"]}, 1)).
Proof. apply returns_UE. exists 9. decided. Qed.

(** ** Without quantifiers *)
Lemma same_after s e1 e2 l : skel e1 e2 -> Forall2 (App s) (eterms e1) l -> Forall2 (App s) (eterms e2) l ->
  exists n u1 u2, apply_expr n s e1 = Some u1 /\ apply_expr n s e2 = Some u2 /\ same_but_worlds u1 u2.
Proof.
  assert (HB : forall a1 a2 b1 b2 l, skel a1 a2 ->
    (forall l, Forall2 (App s) (eterms a1) l -> Forall2 (App s) (eterms a2) l ->
      exists n u1 u2, apply_expr n s a1 = Some u1 /\ apply_expr n s a2 = Some u2 /\ same_but_worlds u1 u2) ->
    (forall l, Forall2 (App s) (eterms b1) l -> Forall2 (App s) (eterms b2) l ->
      exists n u1 u2, apply_expr n s b1 = Some u1 /\ apply_expr n s b2 = Some u2 /\ same_but_worlds u1 u2) ->
    Forall2 (App s) (eterms a1 ++ eterms b1) l -> Forall2 (App s) (eterms a2 ++ eterms b2) l ->
    exists n u1 u2 v1 v2, apply_expr n s a1 = Some u1 /\ apply_expr n s a2 = Some u2 /\ same_but_worlds u1 u2 /\
      apply_expr n s b1 = Some v1 /\ apply_expr n s b2 = Some v2 /\ same_but_worlds v1 v2).
  { intros a1 a2 b1 b2 l0 Hs IHa IHb H1 H2. apply skel_length in Hs.
    apply Forall2_app_inv_l in H1 as (l1 & l2 & H1 & H1' & ->). apply Forall2_app_inv_l in H2 as (l3 & l4 & H2 & H2' & He).
    assert (length l1 = length l3) as Hlen by (apply Forall2_length in H1, H2; lia).
    apply app_inj_1 in He as [<- <-]; [|done].
    destruct (IHa _ H1 H2) as (n & u1 & u2 & A1 & A2 & A3). destruct (IHb _ H1' H2') as (m & v1 & v2 & B1 & B2 & B3).
    exists (max n m), u1, u2, v1, v2. repeat split; try done; try (apply (apply_expr_mono n); [done|lia]); apply (apply_expr_mono m); [done|lia|done|lia]. }
  revert e2 l. induction e1 as [p ts w|a b|a|c a IHa b IHb|a IHa|q x a IHa|o a IHa|o a IHa b IHb|k]; intros [] l' Hs H1 H2; cbn [skel eterms] in *; try done.
  - destruct Hs as (-> & Hlen & Hw). destruct (App_list _ _ _ H1) as [n Hn]. destruct (App_list _ _ _ H2) as [m Hm].
    exists (max n m), (EPred p0 l' w), (EPred p0 l' world). cbn [apply_expr].
    by rewrite (map_opt_mono n _ _ _ _ Hn), (map_opt_mono m _ _ _ _ Hm) by lia.
  - inversion H1 as [|? a' ? l1 A1 Hl1]; subst. inversion Hl1 as [|? b' ? l2 B1 Hl2]; subst. inversion Hl2; subst.
    inversion H2 as [|? a2 ? l1' A2 Hl1']; subst. inversion Hl1' as [|? b2 ? l2' B2 Hl2']; subst.
    destruct A1 as [n1 A1], A2 as [n2 A2], B1 as [n3 B1], B2 as [n4 B2].
    exists (n1 + n2 + n3 + n4), (EIdent a' b'), (EIdent a' b'). cbn [apply_expr].
    rewrite (apply_mono n1 _ _ _ _ A1), (apply_mono n2 _ _ _ _ A2), (apply_mono n3 _ _ _ _ B1), (apply_mono n4 _ _ _ _ B2) by lia. done.
  - subst. by exists 0, (EAtom s0), (EAtom s0).
  - destruct Hs as (-> & Hs1 & Hs2). destruct (HB a a0 b b0 l' Hs1) as (n & u1 & u2 & v1 & v2 & A1 & A2 & A3 & B1 & B2 & B3); try done.
    { intros l H. by apply IHa. } { intros l H. by apply IHb. }
    exists n, (EBin c0 u1 v1), (EBin c0 u2 v2). cbn [apply_expr]. by rewrite A1, A2, B1, B2.
  - destruct (IHa _ _ Hs H1 H2) as (n & u1 & u2 & A1 & A2 & A3). exists n, (ENot u1), (ENot u2). cbn [apply_expr]. by rewrite A1, A2.
  - destruct Hs as [-> Hs]. destruct (IHa _ _ Hs H1 H2) as (n & u1 & u2 & A1 & A2 & A3). exists n, (ETemp op u1), (ETemp op u2). cbn [apply_expr]. by rewrite A1, A2.
  - destruct Hs as (-> & Hs1 & Hs2). destruct (HB a a0 b b0 l' Hs1) as (n & u1 & u2 & v1 & v2 & A1 & A2 & A3 & B1 & B2 & B3); try done.
    { intros l H. by apply IHa. } { intros l H. by apply IHb. }
    exists n, (ETemp2 op u1 v1), (ETemp2 op u2 v2). cbn [apply_expr]. by rewrite A1, A2, B1, B2.
Qed.
Definition enames (e1 e2 : pexpr) : gset string := list_to_set (flat_map names (eterms e1 ++ eterms e2)).
Lemma enames_l e1 e2 : Forall (tin (enames e1 e2)) (eterms e1).
Proof. apply Forall_forall. intros a Ha y Hy. apply elem_of_list_to_set, in_names_list. exists a. split; [|done]. apply elem_of_app. by left. Qed.
Lemma enames_r e1 e2 : Forall (tin (enames e1 e2)) (eterms e2).
Proof. apply Forall_forall. intros a Ha y Hy. apply elem_of_list_to_set, in_names_list. exists a. split; [|done]. apply elem_of_app. by right. Qed.

(** Without quantifiers: the substitution makes the two expressions equal, except for world
    annotations that only one of them carries. *)
Theorem C60_sound e1 e2 c s c' : qfree e1 = true -> unify_exprs_returns e1 e2 c (UOk (s, c')) ->
  exists u1 u2, apply_expr_returns s e1 u1 /\ apply_expr_returns s e2 u2 /\ same_but_worlds u1 u2.
Proof.
  intros Hq H. apply returns_UE in H as [n H]. apply UE_qfree in H as [Hs HU]; [|done].
  apply (UL_good (enames e1 e2)) in HU as (_ & _ & (l & H1 & H2) & _); [|by apply skel_length|apply enames_l|apply enames_r].
  destruct (same_after s e1 e2 l Hs H1 H2) as (k & u1 & u2 & A1 & A2 & A3). exists u1, u2.
  split; [|split; [|done]]; exists k; intros m Hm; by apply (apply_expr_mono k).
Qed.
Example C60_sound_ex :
  let e1 := EBin CAnd (EPred "p" [PVar "x"; PFun "f" [PVar "y"]] (Some "w0")) (ENot (EIdent (PVar "y") (PConst "b"))) in
  let e2 := EBin CAnd (EPred "p" [PConst "a"; PVar "z"] None) (ENot (EIdent (PVar "y") (PVar "v"))) in
  qfree e1 = true /\ unify_exprs_returns e1 e2 0 (UOk ({["x" := PConst "a"; "z" := PFun "f" [PVar "y"]; "v" := PConst "b"]}, 0)).
Proof. split; [done|]. apply returns_UE. exists 9. decided. Qed.

(** No part outside the forms that unification handles. *)
Fixpoint plain (e : pexpr) : bool :=
  match e with
  | EOther _ => false
  | EBin _ a b | ETemp2 _ a b => plain a && plain b
  | ENot a | ETemp _ a | EQuant _ _ a => plain a
  | _ => true
  end.
Lemma same_skel θ e1 e2 : qfree e1 = true -> plain e1 = true -> same_but_worlds (esub θ e1) (esub θ e2) ->
  skel e1 e2 /\ map (tsub θ) (eterms e1) = map (tsub θ) (eterms e2).
Proof.
  revert e2. induction e1 as [p ts w|a b|a|c a IHa b IHb|a IHa|q x a IHa|o a IHa|o a IHa b IHb|k]; intros [] Hq Hp H;
    cbn [skel eterms esub same_but_worlds qfree plain map] in *; try done.
  - destruct H as (-> & H & Hw). split; [|done]. split; [done|]. split; [|done]. by apply tsub_list_length in H.
  - destruct H as [-> ->]. done.
  - apply andb_true_iff in Hq as [Hq1 Hq2], Hp as [Hp1 Hp2]. destruct H as (-> & Ha & Hb).
    destruct (IHa _ Hq1 Hp1 Ha) as [A1 A2], (IHb _ Hq2 Hp2 Hb) as [B1 B2]. rewrite !map_app, A2, B2. done.
  - by apply IHa.
  - destruct H as [-> H]. destruct (IHa _ Hq Hp H). done.
  - apply andb_true_iff in Hq as [Hq1 Hq2], Hp as [Hp1 Hp2]. destruct H as (-> & Ha & Hb).
    destruct (IHa _ Hq1 Hp1 Ha) as [A1 A2], (IHb _ Hq2 Hp2 Hb) as [B1 B2]. rewrite !map_app, A2, B2. done.
Qed.
(** When unification of quantifier-free expressions fails, no substitution makes them equal; when it
    succeeds, every substitution that makes them equal is an instance of its result. *)
Theorem C60_complete K e1 e2 c e θ : qfree e1 = true -> plain e1 = true ->
  Forall (kinds K) (eterms e1) -> Forall (kinds K) (eterms e2) ->
  unify_exprs_returns e1 e2 c (UErr e) -> ~ same_but_worlds (esub θ e1) (esub θ e2).
Proof.
  intros Hq Hp K1 K2 H He. apply same_skel in He as [Hs He]; [|done|done]. apply returns_UE in H as [n H].
  apply UE_qfree in H as [H|[e' HU]]; [done| |done].
  apply (UL_good (enames e1 e2)) in HU; [|by apply skel_length|apply enames_l|apply enames_r].
  refine (HU K θ (conj K1 K2) _ _ He); intros x v Hx; by rewrite lookup_empty in Hx.
Qed.
Theorem C60_most_general K e1 e2 c s c' θ : qfree e1 = true -> plain e1 = true ->
  Forall (kinds K) (eterms e1) -> Forall (kinds K) (eterms e2) ->
  unify_exprs_returns e1 e2 c (UOk (s, c')) -> same_but_worlds (esub θ e1) (esub θ e2) ->
  forall t u, kinds K t -> apply_returns s t u -> tsub θ u = tsub θ t.
Proof.
  intros Hq Hp K1 K2 H He t u Kt Hu. apply same_skel in He as [Hs He]; [|done|done]. apply returns_UE in H as [n H].
  apply UE_qfree in H as [_ HU]; [|done].
  apply (UL_good (enames e1 e2)) in HU as (_ & _ & _ & HK); [|by apply skel_length|apply enames_l|apply enames_r].
  destruct (HK K (conj K1 K2)) as [HKs HR]; [intros x v Hx; by rewrite lookup_empty in Hx|].
  apply (App_resp K θ s t u); try done; [|by apply returns_App]. apply HR; [intros x v Hx; by rewrite lookup_empty in Hx|done].
Qed.
Example C60_complete_ex :
  let e1 := EBin CAnd (EPred "p" [PVar "x"] None) (EPred "q" [PVar "x"] None) in
  let e2 := EBin CAnd (EPred "p" [PConst "a"] None) (EPred "q" [PConst "b"] None) in
  qfree e1 = true /\ plain e1 = true /\ Forall (kinds (fun _ => true)) (eterms e1) /\ Forall (kinds (fun _ => true)) (eterms e2) /\
  unify_exprs_returns e1 e2 0 (UErr SymbolMismatch).
Proof. cbn. repeat split; try (by repeat constructor). apply returns_UE. exists 9. decided. Qed.
Example C60_most_general_ex :
  let e1 := EPred "p" [PVar "x"; PVar "y"] None in let e2 := EPred "p" [PVar "y"; PVar "z"] None in
  unify_exprs_returns e1 e2 0 (UOk ({["x" := PVar "y"; "y" := PVar "z"]}, 0)) /\
  same_but_worlds (esub {["x" := PConst "a"; "y" := PConst "a"; "z" := PConst "a"]} e1) (esub {["x" := PConst "a"; "y" := PConst "a"; "z" := PConst "a"]} e2).
Proof. split; [apply returns_UE; exists 9; decided|]. vm_compute. auto. Qed.
(** The exception is needed: expressions outside the supported forms do not even unify with
    themselves. *)
Theorem C60_reflexive_refuted : exists e c r, unify_exprs_returns e e c (UErr r).
Proof. exists (EOther 0), 0, ExprUnificationFailed. apply returns_UE. by exists 1. Qed.
(** World annotations are ignored when one side has none, so the results need not be equal. *)
Theorem C60_world_refuted : exists e1 e2 c c', unify_exprs_returns e1 e2 c (UOk (∅, c')) /\ e1 <> e2 /\
  exists (M : structure nat) ρ, truth M ρ e1 /\ ~ truth M ρ e2.
Proof.
  exists (EPred "p" [PConst "a"] (Some "w")), (EPred "p" [PConst "a"] None), 0, 0. split; [apply returns_UE; exists 3; decided|]. split; [done|].
  exists (Structure nat (fun _ => 0) (fun _ _ => 0) (fun _ => 0) (fun _ w _ => w = Some "w") (fun _ => True) (fun _ p => p) (fun _ p _ => p) (fun _ => True)), (fun _ => 0).
  by cbn.
Qed.

(** ** Expressions that differ in the names of bound variables *)
(** [env] lists the binders around, innermost first, with the name each expression uses. *)
Fixpoint veq (env : list (string * string)) (same : bool) (x y : string) : Prop :=
  match env with
  | [] => x = y /\ same = true
  | (a, b) :: env => (x = a /\ y = b) \/ (x <> a /\ y <> b /\ veq env same x y)
  end.
Fixpoint teq (env : list (string * string)) (t1 t2 : pterm) : Prop :=
  match t1, t2 with
  | PConst c, PConst d => c = d
  | PVar x, PVar y | PBound x, PBound y => veq env true x y
  | PVar x, PBound y | PBound x, PVar y => veq env false x y
  | PFun f l, PFun g m =>
      f = g /\ (fix go l m := match l, m with [], [] => True | a :: l, b :: m => teq env a b /\ go l m | _, _ => False end) l m
  | PGroup l, PGroup m =>
      (fix go l m := match l, m with [], [] => True | a :: l, b :: m => teq env a b /\ go l m | _, _ => False end) l m
  | _, _ => False
  end.
(** Equal up to the names of bound variables; [strict] also asks for equal world annotations, otherwise
    one of them may be missing. *)
Fixpoint aeq (strict : bool) (env : list (string * string)) (e1 e2 : pexpr) : Prop :=
  match e1, e2 with
  | EPred p l w, EPred q m v => p = q /\ Forall2 (teq env) l m /\ (w = v \/ (strict = false /\ (w = None \/ v = None)))
  | EIdent a b, EIdent c d => teq env a c /\ teq env b d
  | EAtom a, EAtom b => a = b
  | EBin c a b, EBin d a' b' => c = d /\ aeq strict env a a' /\ aeq strict env b b'
  | ENot a, ENot b => aeq strict env a b
  | EQuant q x a, EQuant r y b => q = r /\ aeq strict ((x, y) :: env) a b
  | ETemp o a, ETemp p b => o = p /\ aeq strict env a b
  | ETemp2 o a b, ETemp2 p a' b' => o = p /\ aeq strict env a a' /\ aeq strict env b b'
  | EOther k, EOther m => k = m
  | _, _ => False
  end.
Lemma teq_list env l m : (fix go l m := match l, m with [], [] => True | a :: l, b :: m => teq env a b /\ go l m | _, _ => False end) l m <-> Forall2 (teq env) l m.
Proof.
  revert m; induction l as [|a l IH]; intros [|b m]; split; intros H; try done; try (by inversion H).
  - destruct H as [H1 H2]. constructor; [done|]. by apply IH.
  - apply Forall2_cons in H as [H1 H2]. split; [done|]. by apply IH.
Qed.
Lemma teq_fun env f l g m : teq env (PFun f l) (PFun g m) <-> f = g /\ Forall2 (teq env) l m.
Proof. cbn [teq]. by rewrite teq_list. Qed.
Lemma teq_group env l m : teq env (PGroup l) (PGroup m) <-> Forall2 (teq env) l m.
Proof. cbn [teq]. by rewrite teq_list. Qed.

(** The relation is sound: such expressions are true together. *)
Section Alpha.
  Context {D : Type} (M : structure D).
  Definition agree (env : list (string * string)) (ρ1 ρ2 : string -> D) : Prop := forall same x y, veq env same x y -> ρ1 x = ρ2 y.
  Lemma agree_value env ρ1 ρ2 t1 t2 : agree env ρ1 ρ2 -> teq env t1 t2 -> value M ρ1 t1 = value M ρ2 t2.
  Proof.
    intros Ha. revert t2. induction t1 as [c|x|x|f l IH|l IH] using pterm_ind'; intros [d|y|g m|m|y] H; try done;
      try (cbn in *; by eapply Ha).
    - cbn in *. by subst.
    - apply teq_fun in H as [-> H]. cbn. f_equal. revert m H. induction IH as [|a l Ha' _ IHl]; intros m H; inversion H; subst; cbn; [done|]. f_equal; eauto.
    - apply teq_group in H. cbn. f_equal. revert m H. induction IH as [|a l Ha' _ IHl]; intros m H; inversion H; subst; cbn; [done|]. f_equal; eauto.
  Qed.
  Lemma agree_values env ρ1 ρ2 l m : agree env ρ1 ρ2 -> Forall2 (teq env) l m -> map (value M ρ1) l = map (value M ρ2) m.
  Proof. intros Ha. induction 1; cbn; [done|]. f_equal; [by eapply agree_value|done]. Qed.
  Lemma agree_upd env ρ1 ρ2 x y d : agree env ρ1 ρ2 -> agree ((x, y) :: env) (upd ρ1 x d) (upd ρ2 y d).
  Proof.
    intros Ha same a b [[-> ->]|(H1 & H2 & H)]; unfold upd; [by rewrite !String.eqb_refl|].
    apply String.eqb_neq in H1 as ->, H2 as ->. by eapply Ha.
  Qed.
End Alpha.
Theorem C60_alpha_truth {D} (M : structure D) (prop_ext : forall o p q, (p <-> q) -> (s_temp M o p <-> s_temp M o q))
  (prop_ext2 : forall o p q p' q', (p <-> q) -> (p' <-> q') -> (s_temp2 M o p p' <-> s_temp2 M o q q')) ρ e1 e2 :
  aeq true [] e1 e2 -> truth M ρ e1 <-> truth M ρ e2.
Proof.
  assert (HG : forall env ρ1 ρ2, agree env ρ1 ρ2 -> aeq true env e1 e2 -> truth M ρ1 e1 <-> truth M ρ2 e2).
  { revert e2. induction e1 as [p ts w|a b|a|c a IHa b IHb|a IHa|q x a IHa|o a IHa|o a IHa b IHb|k]; intros [] env ρ1 ρ2 Ha H; cbn [aeq truth] in *; try done.
    - destruct H as (-> & H & [-> |[H' _]]); [|done]. by rewrite (agree_values M _ _ _ _ _ Ha H).
    - destruct H as [H1 H2]. by rewrite (agree_value M _ _ _ _ _ Ha H1), (agree_value M _ _ _ _ _ Ha H2).
    - by subst.
    - destruct H as (-> & H1 & H2). pose proof (IHa _ _ _ _ Ha H1). pose proof (IHb _ _ _ _ Ha H2). destruct c0; tauto.
    - pose proof (IHa _ _ _ _ Ha H). tauto.
    - destruct H as [-> H]. assert (HE : forall d, truth M (upd ρ1 x d) a <-> truth M (upd ρ2 x0 d) b) by (intros d; apply (IHa _ _ _ _ (agree_upd _ _ _ _ _ d Ha) H)).
      destruct q0; [split; intros Hd d; apply HE; apply Hd|split; intros [d Hd]; exists d; by apply HE].
    - destruct H as [-> H]. apply prop_ext. by apply (IHa _ env).
    - destruct H as (-> & H1 & H2). apply prop_ext2; [by apply (IHa _ env)|by apply (IHb _ env)].
    - by subst. }
  apply HG. by intros same x y [-> _].
Qed.
