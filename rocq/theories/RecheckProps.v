(** C92: the nameless terms of the second kernel. *)
From Coq Require Import List Bool Lia ZArith.
From stdpp Require Import base decidable list strings pretty.
From Verif Require Import SubstModel SubstProofs SubstProps InferProps RecheckModel RecheckProofs.

Section Props.
Variable leaf : Type.
Notation name := string.
Notation term := (term leaf).
Notation db := (RecheckModel.db leaf).
Notation Var := (RecheckModel.Var leaf). Notation Mutual := (RecheckModel.Mutual leaf).
Notation to_db := (to_db leaf). Notation from_db := (from_db leaf). Notation beta_open := (beta_open leaf). Notation open_mutual := (open_mutual leaf).
Notation inst := (inst leaf). Notation scons := (scons leaf). Notation closed := (closed leaf).

(** Opening a binder puts the argument in the place of its variable, in any term, and no index ever falls below zero. *)
Theorem C92_beta body arg : beta_open body arg = Some (inst (scons arg Var) body).
Proof. apply beta_inst. Qed.
(** Unfolding a block without free variables puts each name's own projection in its place. Missing: blocks under a binder whose variable they use ([C92_mutual_refuted]). *)
Theorem C92_mutual_partial defs i d : closed 0 (Mutual defs 0) = true -> defs !! i = Some d ->
  open_mutual defs i = Some (inst (fun m => if decide (m < length defs) then Mutual defs (length defs - 1 - m) else Var (m - length defs)) d).
Proof. apply open_mutual_ok. Qed.
(** Two terms that convert give the same nameless term exactly when they differ only in the names of bound variables. *)
Theorem C92_alpha s t u d : to_db s t = Ok d -> (to_db s u = Ok d <-> nameless leaf s t = nameless leaf s u).
Proof.
  intros E. assert (K : forall t, to_db s t = convd leaf [] (length s) (nameless leaf s t)). { intros v. rewrite <- (to_db_convd leaf v [] s). now rewrite app_nil_r. } rewrite K in E. rewrite K. split; [|intros H; now rewrite <- H]. intros E'. eapply convd_inj; [apply lclosed_nameless|apply lclosed_nameless|exact E|exact E'].
Qed.
(** What converts: terms without holes whose free variables are in scope. *)
Lemma position_none x s : position x s = None <-> x ∉ s.
Proof. rewrite position_index. apply index_none. Qed.
Theorem C92_accepts : forall t s, (exists d, to_db s t = Ok d) <-> hole_free leaf t = true /\ forall x, occurs_free leaf t x = true -> x ∈ s.
Proof.
  assert (L : forall ts s, List.Forall (fun t => forall s, (exists d, to_db s t = Ok d) <-> hole_free leaf t = true /\ forall x, occurs_free leaf t x = true -> x ∈ s) ts ->
     ((exists ds, rmap (to_db s) ts = Ok ds) <-> forallb (hole_free leaf) ts = true /\ forall x, existsb (fun t => occurs_free leaf t x) ts = true -> x ∈ s)).
  { intros ts s F. induction F as [|t ts Ht _ IH]; cbn; [split; [done|intros _; now exists []]|]. rewrite andb_true_iff. split.
    - intros [ds E]. destruct (to_db s t) as [d| |] eqn:Et; try done. cbn in E. destruct (rmap (to_db s) ts) as [es| |] eqn:Es; try done. destruct (proj1 (Ht s) (ex_intro _ d Et)) as [H1 H2]. destruct (proj1 IH (ex_intro _ es eq_refl)) as [H3 H4]. split; [done|]. intros x Hx. apply orb_true_iff in Hx as [Hx|Hx]; auto.
    - intros [[H1 H2] H3]. destruct (proj2 (Ht s)) as [d Ed]; [split; [done|intros x Hx; apply H3; now rewrite Hx]|]. destruct (proj2 IH) as [es Es]; [split; [done|intros x Hx; apply H3; rewrite Hx; apply orb_true_r]|]. rewrite Ed, Es. cbn. eauto. }
  intros t. induction t as [x|l| |k ts IH|k ts x b IH IHb] using (term_ind2 leaf); intros s; cbn [RecheckModel.to_db SubstProps.hole_free].
  - destruct (position x s) as [i|] eqn:P; (split; [intros [d H]|]); try done; intros.
    + split; [done|]. intros y Hy. cbn in Hy. apply bool_decide_eq_true in Hy as <-. destruct (decide (x ∈ s)) as [?|N]; [done|]. apply position_none in N. congruence.
    + eauto.
    + exfalso. apply position_none in P. apply P. apply H. cbn. now apply bool_decide_eq_true.
  - split; [done|intros _; eauto].
  - split; [intros [? ?]; done|intros [? _]; done].
  - setoid_rewrite (occurs_node leaf k ts). rewrite <- L by done. split; [intros [d H]; destruct (rmap (to_db s) ts); try done; eauto|]. intros [ds E]. rewrite E. cbn. eauto.
  - split.
    + intros [d H]. destruct (rmap (to_db s) ts) as [es| |] eqn:Es; try done. cbn in H. destruct (to_db (x :: s) b) as [b'| |] eqn:Eb; try done. destruct (proj1 (L ts s IH) (ex_intro _ es Es)) as [H1 H2]. destruct (proj1 (IHb (x :: s)) (ex_intro _ b' Eb)) as [H3 H4]. rewrite H1, H3. split; [done|]. intros y Hy. rewrite occurs_bind in Hy. apply orb_true_iff in Hy as [Hy|Hy]; [auto|]. apply andb_true_iff in Hy as [N Hy]. apply negb_true_iff, bool_decide_eq_false in N. apply H4 in Hy. apply elem_of_cons in Hy as [->|Hy]; done.
    + intros [H1 H2]. apply andb_true_iff in H1 as [H1 H3]. destruct (proj2 (L ts s IH)) as [es Es]; [split; [done|]; intros y Hy; apply H2; rewrite occurs_bind, Hy; done|]. destruct (proj2 (IHb (x :: s))) as [b' Eb].
      * split; [done|]. intros y Hy. destruct (decide (x = y)) as [->|N]; [left|right]. apply H2. rewrite occurs_bind, orb_true_iff, andb_true_iff, negb_true_iff, bool_decide_eq_false. now right.
      * rewrite Es. cbn. rewrite Eb. cbn. eauto.
Qed.
Lemma sub_more n : forall m t v r fvs u, n <= m -> sub leaf n t v r fvs = Some u -> sub leaf m t v r fvs = Some u.
Proof.
  induction n as [|n IH]; intros m t v r fvs u L; [done|]. destruct m as [|m]; [lia|]. cbn [sub]. destruct t as [x|l| |k ts|k ts x b]; try done.
  - destruct (mapM (fun t => sub leaf n t v r fvs) ts) as [us|] eqn:E; cbn; [|done]. erewrite mapM_mono; [|intros a c; apply IH; lia|exact E]. done.
  - destruct (mapM (fun t => sub leaf n t v r fvs) ts) as [us|] eqn:E; cbn [mbind option_bind]; [|done]. erewrite mapM_mono; [|intros a c; apply IH; lia|exact E]. cbn [mbind option_bind]. destruct (decide (x = v)); [done|]. destruct (decide (x ∈ fvs)).
    + cbn zeta. destruct (sub leaf n b x _ _) as [b1|] eqn:E1; cbn [mbind option_bind]; [|done]. apply (IH m) in E1; [|lia]. rewrite E1. cbn [mbind option_bind]. destruct (sub leaf n b1 v r fvs) as [b2|] eqn:E2; cbn [mbind option_bind]; [|done]. apply (IH m) in E2; [|lia]. now rewrite E2.
    + destruct (sub leaf n b v r fvs) as [b2|] eqn:E2; cbn [mbind option_bind]; [|done]. apply (IH m) in E2; [|lia]. now rewrite E2.
Qed.
Lemma substitute_gives n t v r u : substitute leaf n t v r = Some u -> nameless leaf [] u = plug leaf v (nameless leaf [] r) (nameless leaf [] t).
Proof.
  intros E. destruct (substitute_ok leaf (max n (depth leaf t)) t v r ltac:(lia)) as (u' & E' & _ & H). assert (u' = u) as ->; [|done]. unfold substitute in *. destruct (SubstModel.occurs_free leaf t v); [|congruence]. apply (sub_more n (max n (depth leaf t))) in E; [|lia]. congruence.
Qed.
(** The two kernels agree on substitution: converting the named result gives the opened nameless body. *)
Theorem C92_agree n s b x a u a' b' : substitute leaf n b x a = Some u -> to_db s a = Ok a' -> to_db (x :: s) b = Ok b' -> exists u', to_db s u = Ok u' /\ beta_open b' a' = Some u'.
Proof.
  intros E Ea Eb. apply substitute_gives in E. exists (inst (scons a' Var) b'). split; [|apply beta_inst]. pose proof (to_db_convd leaf) as K. rewrite (K u s [] : to_db s u = _), E. cbn [length]. rewrite (K a s [] : to_db s a = _) in Ea. rewrite (K b (x :: s) [] : to_db (x :: s) b = _) in Eb. cbn [length] in *.
  rewrite (convd_plug leaf s x _ a' (lclosed_nameless leaf a []) Ea _ 0 b' (lclosed_nameless leaf b []) Eb). f_equal. apply inst_ext. intros k. unfold ups. destruct (decide (k < 0)); [lia|]. rewrite Nat.sub_0_r. etransitivity; [|apply (inst_var leaf)]. rewrite <- (inst_var leaf (ren leaf _ _)), inst_ren. apply inst_ext. intros i. f_equal. lia.
Qed.
(** Printing a closed nameless term without fixpoints gives a named term that converts back to it. Missing: fixpoints ([C92_fix_name_refuted]). *)
Fixpoint fix_free (d : db) : bool :=
  match d with RecheckModel.Var _ _ | RecheckModel.Leaf _ _ => true | RecheckModel.Node _ _ ds => forallb fix_free ds | RecheckModel.Bind _ k ds d => negb (bool_decide (k = BFix)) && (forallb fix_free ds && fix_free d) | RecheckModel.Mutual _ _ _ => false end.
Fixpoint vnames (n : nat) : list name := match n with O => [] | S n => ("v" +:+ pretty n) :: vnames n end.
Lemma vnames_position n : forall k, k < n -> position ("v" +:+ pretty (n - 1 - k)) (vnames n) = Some k.
Proof.
  induction n as [|n IH]; intros k L; [lia|]. cbn [vnames position]. destruct k as [|k].
  - replace (S n - 1 - 0) with n by lia. destruct (decide _); done.
  - destruct (decide _) as [E|_]; [apply append_inj_l in E; apply (inj pretty) in E; lia|]. replace (S n - 1 - S k) with (n - 1 - k) by lia. rewrite IH by lia. done.
Qed.
Lemma round_trip d : forall n, closed n d = true -> fix_free d = true -> exists t, from_db d n = Some t /\ to_db (vnames n) t = Ok d.
Proof.
  assert (L : forall ds n, List.Forall (fun d => forall n, closed n d = true -> fix_free d = true -> exists t, from_db d n = Some t /\ to_db (vnames n) t = Ok d) ds -> forallb (closed n) ds = true -> forallb fix_free ds = true ->
     exists ts, mapM (fun d => from_db d n) ds = Some ts /\ rmap (to_db (vnames n)) ts = Ok ds).
  { intros ds n F. induction F as [|e ds He _ IH]; cbn; intros C X; [now exists []|]. apply andb_true_iff in C as [C1 C2]. apply andb_true_iff in X as [X1 X2]. destruct (He n C1 X1) as (t & E1 & E2). destruct (IH C2 X2) as (ts & E3 & E4). rewrite E1. cbn. rewrite E3. cbn. eexists. split; [done|]. cbn. rewrite E2. cbn. rewrite E4. done. }
  induction d as [k|l|k ds IH|k ds d IH IHd|ds i IH] using (ddb_ind2 leaf); intros n C X; cbn [RecheckModel.from_db RecheckProofs.closed fix_free] in *.
  - apply bool_decide_eq_true in C. eexists. split; [done|]. cbn [RecheckModel.to_db]. rewrite vnames_position by done. done.
  - eexists. split; done.
  - destruct (L ds n IH C X) as (ts & E1 & E2). rewrite E1. cbn. eexists. split; [done|]. cbn [RecheckModel.to_db]. rewrite E2. done.
  - apply andb_true_iff in C as [C1 C2]. apply andb_true_iff in X as [X0 X]. apply andb_true_iff in X as [X1 X2]. apply negb_true_iff, bool_decide_eq_false in X0. destruct (L ds n IH C1 X1) as (ts & E1 & E2). destruct (IHd (S n) C2 X2) as (b & E3 & E4). rewrite E1. cbn [mbind option_bind]. rewrite E3. cbn [mbind option_bind]. eexists. split; [done|]. cbn [RecheckModel.to_db]. rewrite E2. cbn [rbind].
    replace (binder_name k n) with ("v" +:+ pretty n) by (destruct k; done). cbn [vnames] in E4. rewrite E4. done.
  - done.
Qed.
Theorem C92_round_trip_partial d : closed 0 d = true -> fix_free d = true -> exists t, from_db d 0 = Some t /\ to_db [] t = Ok d.
Proof. apply (round_trip d 0). Qed.
End Props.
Local Notation V k := (RecheckModel.Var nat k). Local Notation L l := (RecheckModel.Leaf nat l).
Local Notation lam A b := (RecheckModel.Bind nat BLambda [A] b). Local Notation app f a := (RecheckModel.Node nat NApp [f; a]).
(** Opening λ. λ. 1 (0 2) — the body of a binder, using it and a variable outside — with the argument 0 5. *)
Example C92_beta_ex : beta_open nat (lam (L 0) (app (V 1) (app (V 0) (V 2)))) (app (V 0) (V 5)) = Some (lam (L 0) (app (app (V 1) (V 6)) (app (V 0) (V 1)))).
Proof. reflexivity. Qed.
(** A closed block of two bodies that call each other. *)
Example C92_mutual_ex : let defs := [lam (L 0) (app (V 1) (V 0)); lam (L 0) (app (V 2) (V 0))] in closed nat 0 (RecheckModel.Mutual nat defs 0) = true /\
  open_mutual nat defs 0 = Some (lam (L 0) (app (RecheckModel.Mutual nat defs 1) (V 0))) /\ open_mutual nat defs 1 = Some (lam (L 0) (app (RecheckModel.Mutual nat defs 0) (V 0))).
Proof. repeat split; vm_compute; reflexivity. Qed.
(** A block of two bodies using a variable z bound outside: unfolding the first, which calls the second, turns the z in the second into the first function. *)
Theorem C92_mutual_refuted : exists (defs : list (RecheckModel.db nat)) i d u, defs !! i = Some d /\ open_mutual nat defs i = Some u /\
  u <> inst nat (fun m => if decide (m < length defs) then RecheckModel.Mutual nat defs (length defs - 1 - m) else V (m - length defs)) d.
Proof. exists [lam (L 0) (V 1); lam (L 0) (V 3)], 0. eexists _, _. split; [reflexivity|]. split; [vm_compute; reflexivity|]. vm_compute. discriminate. Qed.
(** fix. λ. 1 0 : the recursive name is printed rec0 where it is bound and v0 where it is used, and the printed term is rejected. *)
Theorem C92_fix_name_refuted : exists (d : RecheckModel.db nat) t, closed nat 0 d = true /\ from_db nat d 0 = Some t /\ to_db nat [] t = Ill.
Proof. exists (RecheckModel.Bind nat BFix [] (lam (L 0) (app (V 1) (V 0)))). eexists. split; [reflexivity|]. split; [vm_compute; reflexivity|]. vm_compute. reflexivity. Qed.
Example C92_round_trip_ex : let d := lam (L 0) (lam (V 0) (app (V 1) (V 0))) in closed nat 0 d = true /\ fix_free nat d = true /\
  from_db nat d 0 = Some (TBind nat BLambda [TLeaf nat 0] "v0" (TBind nat BLambda [TVar nat "v0"] "v1" (TNode nat NApp [TVar nat "v0"; TVar nat "v1"]))).
Proof. repeat split; vm_compute; reflexivity. Qed.
(** λ y. x y with y in the place of x: the binder is renamed, and both kernels give λ. 1 0. *)
Example C92_agree_ex : let b := TBind nat BLambda [TLeaf nat 0] "y" (TNode nat NApp [TVar nat "x"; TVar nat "y"]) in
  exists u, substitute nat 10 b "x" (TVar nat "y") = Some u /\ u = TBind nat BLambda [TLeaf nat 0] "y'" (TNode nat NApp [TVar nat "y"; TVar nat "y'"]) /\
  to_db nat ["y"] u = Ok (lam (L 0) (app (V 1) (V 0))) /\ to_db nat ["x"; "y"] b = Ok (lam (L 0) (app (V 1) (V 0))).
Proof. eexists. repeat split; vm_compute; reflexivity. Qed.
