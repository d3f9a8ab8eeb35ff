(** C38: 2-SAT is decided correctly. *)
From Coq Require Import List Arith Bool Lia Relations.
From stdpp Require Import list.
From Verif Require Import TwoSatModel KosarajuProofs.

(** ** Specification *)
Definition tlit_true (f : nat -> bool) (l : tlit) : Prop := f (t_var l) = t_pos l.
Definition twosat_model (f : nat -> bool) (cls : list (tlit * tlit)) : Prop := forall a b, (a, b) ∈ cls -> tlit_true f a \/ tlit_true f b.
Definition cls_in_range (n : nat) (cls : list (tlit * tlit)) : Prop := forall a b, (a, b) ∈ cls -> (t_var a < n /\ t_var b < n)%nat.

(** ** Lemmas *)
Definition tneg (l : tlit) : tlit := TLit (t_var l) (negb (t_pos l)).
Lemma neg_node_node l : neg_node (t_node l) = t_node (tneg l).
Proof.
  unfold neg_node, t_node. destruct l as [v p]. cbn [t_var t_pos tneg negb].
  assert (A : forall v, Nat.lxor (2 * v) 1 = (2 * v + 1)%nat).
  { intros w. apply Nat.bits_inj. intros i. rewrite Nat.lxor_spec. destruct i as [|i].
    - rewrite Nat.testbit_even_0, Nat.testbit_odd_0. done.
    - rewrite Nat.testbit_even_succ, Nat.testbit_odd_succ by lia. change 1%nat with (2 * 0 + 1)%nat at 1. rewrite Nat.testbit_odd_succ by lia.
      rewrite Nat.bits_0. now destruct (Nat.testbit w i). }
  assert (B : forall v, Nat.lxor (2 * v + 1) 1 = (2 * v)%nat).
  { intros w. rewrite <- (A w). rewrite Nat.lxor_assoc, Nat.lxor_nilpotent, Nat.lxor_0_r. done. }
  destruct p; cbn [negb]; [rewrite B; lia|]. rewrite Nat.add_0_r, A. done.
Qed.
Lemma tneg_true f l : tlit_true f (tneg l) <-> ~ tlit_true f l.
Proof. unfold tlit_true. destruct l as [v p]. cbn. destruct (f v), p; cbn; intuition congruence. Qed.
Lemma node_inj l k : t_node l = t_node k -> l = k.
Proof. unfold t_node. destruct l as [v []], k as [w []]; cbn; intros H; f_equal; lia. Qed.
Lemma node_lt l n : (t_var l < n)%nat <-> (t_node l < 2 * n)%nat.
Proof. unfold t_node. destruct l as [v []]; cbn; lia. Qed.
Lemma tneg_invol l : tneg (tneg l) = l.
Proof. destruct l as [v []]; done. Qed.

Lemma edges_iff cls n u w : (u, w) ∈ t_edges cls n <->
  exists a b, ((a, b) ∈ cls \/ (b, a) ∈ cls) /\ (t_var a < n)%nat /\ (t_var b < n)%nat /\ u = t_node (tneg a) /\ w = t_node b.
Proof.
  unfold t_edges. rewrite elem_of_list_In, in_concat. split.
  - intros (es & He & Hu). apply in_map_iff in He as ([a b] & <- & Hc). unfold clause_edges in Hu. cbn [fst snd] in Hu.
    destruct (Nat.leb_spec n (t_var a)); [now destruct Hu|]. destruct (Nat.leb_spec n (t_var b)); [now destruct Hu|].
    cbn [In orb] in Hu. rewrite !neg_node_node in Hu. apply elem_of_list_In in Hc. destruct Hu as [[= <- <-]|[[= <- <-]|[]]].
    + exists a, b. auto 10.
    + exists b, a. auto 10.
  - intros (a & b & Hc & La & Lb & -> & ->). destruct Hc as [Hc|Hc]; eexists; (split; [apply in_map, elem_of_list_In, Hc|]);
      unfold clause_edges; cbn [fst snd]; rewrite !(proj2 (Nat.leb_gt _ _)) by done; cbn [In orb]; rewrite !neg_node_node; auto.
Qed.
Lemma edges_in cls n u w : (u, w) ∈ t_edges cls n -> (u < 2 * n /\ w < 2 * n)%nat.
Proof. intros H. apply edges_iff in H as (a & b & _ & La & Lb & -> & ->). rewrite <- !node_lt. done. Qed.

(** Implications are respected by every model. *)
Lemma implied f cls n u w : twosat_model f cls -> R (t_edges cls n) u w ->
  forall a, u = t_node a -> tlit_true f a -> exists b, w = t_node b /\ tlit_true f b.
Proof.
  intros M H. apply clos_rt_rt1n in H. induction H as [x|x y z Hxy Hyz IH]; intros a -> Ta; [eauto|].
  apply edges_iff in Hxy as (c & b & Hc & _ & _ & Ex & Ey). apply node_inj in Ex as ->. apply (IH b Ey).
  apply tneg_true in Ta. destruct Hc as [Hc|Hc]; destruct (M _ _ Hc); done.
Qed.

Lemma conflict_unsat f cls n v : scc (t_edges cls n) (t_node (TLit v true)) (t_node (TLit v false)) -> ~ twosat_model f cls.
Proof.
  intros [H1 H2] M. destruct (f v) eqn:E.
  - destruct (implied f cls n _ _ M H1 (TLit v true) eq_refl E) as (b & Hb & Tb). apply node_inj in Hb as <-. unfold tlit_true in Tb. cbn in Tb. congruence.
  - destruct (implied f cls n _ _ M H2 (TLit v false) eq_refl E) as (b & Hb & Tb). apply node_inj in Hb as <-. unfold tlit_true in Tb. cbn in Tb. congruence.
Qed.

Lemma seq_lookup' n s i : (i < n)%nat -> seq s n !! i = Some (s + i)%nat.
Proof.
  revert s i. induction n as [|n IH]; intros s i H; [lia|]. destruct i as [|i]; cbn; [f_equal; lia|].
  change (seq (S s) n !! i = Some (s + S i)%nat). rewrite IH by lia. f_equal. lia.
Qed.
Lemma find_conflict_some comp vs v : find_conflict comp vs = Some v -> v ∈ vs /\ mjoin (comp !! (2 * v)) = mjoin (comp !! (2 * v + 1)).
Proof.
  induction vs as [|x vs IH]; cbn [find_conflict]; [discriminate|]. unfold comp_eqb. case_bool_decide as B.
  - intros [= ->]. split; [left|done].
  - intros H. apply IH in H as [? ?]. split; [now right|done].
Qed.
Lemma find_conflict_none comp vs : find_conflict comp vs = None -> forall v, v ∈ vs -> mjoin (comp !! (2 * v)) <> mjoin (comp !! (2 * v + 1)).
Proof.
  induction vs as [|x vs IH]; cbn [find_conflict]; [intros _ v H; now apply elem_of_nil in H|]. unfold comp_eqb. case_bool_decide as B; [discriminate|].
  intros H v [->|Hv]%elem_of_cons; [done|auto].
Qed.

Lemma solve_ok cls n : exists o, t_solve cls n = Some o /\
  match o with
  | TUnsat v => (v < n)%nat /\ scc (t_edges cls n) (t_node (TLit v true)) (t_node (TLit v false))
  | TSat a => length a = n /\ forall x y, (x, y) ∈ cls -> (t_var x < n)%nat -> (t_var y < n)%nat -> t_holds a x || t_holds a y = true
  end.
Proof.
  unfold t_solve. destruct (components_ok (2 * n) (t_edges cls n) (edges_in cls n)) as (comp & E & L & As & Mo & Sc). rewrite E.
  destruct (find_conflict comp (seq 0 n)) as [v|] eqn:F.
  - eexists. split; [reflexivity|]. apply find_conflict_some in F as [Hv Heq]. apply elem_of_list_In, in_seq in Hv. split; [lia|].
    destruct (As (2 * v)) as [c Hc]; [lia|]. destruct (As (2 * v + 1)) as [c' Hc']; [lia|].
    rewrite Hc, Hc' in Heq. cbn in Heq. injection Heq as <-.
    apply (Sc _ _ c); unfold t_node; cbn [t_var t_pos]; [done|]. now rewrite Nat.add_0_r.
  - eexists. split; [reflexivity|]. split; [unfold read_model; now rewrite map_length, seq_length|].
    assert (V : forall l, (t_var l < n)%nat -> exists cl cn, comp !! t_node l = Some (Some cl) /\ comp !! t_node (tneg l) = Some (Some cn) /\ cl <> cn /\
       t_holds (read_model comp n) l = Nat.ltb cn cl).
    { intros l Hl. destruct (As (t_node l)) as [cl Hcl]; [now apply node_lt|]. destruct (As (t_node (tneg l))) as [cn Hcn]; [now apply node_lt|].
      exists cl, cn. split; [done|]. split; [done|].
      assert (N : cl <> cn).
      { intros <-. apply (find_conflict_none comp (seq 0 n) F (t_var l)); [apply elem_of_list_In, in_seq; lia|].
        unfold t_node in Hcl, Hcn. destruct l as [v []]; cbn [t_var t_pos tneg negb] in *; rewrite Nat.add_0_r in *; congruence. }
      split; [done|]. unfold t_holds, read_model. change (map ?f ?l) with (f <$> l). rewrite list_lookup_fmap.
      assert (S : seq 0 n !! t_var l = Some (t_var l)) by (apply (seq_lookup' n 0); lia). rewrite S. cbn [fmap option_fmap option_map].
      destruct l as [v []]; unfold tneg in Hcn; cbn [t_var t_pos negb] in *; rewrite Hcl, Hcn; cbn [mjoin option_join comp_gtb].
      - now destruct (Nat.ltb cn cl).
      - destruct (Nat.ltb_spec cl cn), (Nat.ltb_spec cn cl); try done; lia. }
    intros x y Hxy Lx Ly. destruct (V x Lx) as (cx & nx & Hx & Hnx & Nx & ->). destruct (V y Ly) as (cy & ny & Hy & Hny & Ny & ->).
    assert (E1 : KosarajuProofs.E (t_edges cls n) (t_node (tneg x)) (t_node y)) by (apply edges_iff; exists x, y; auto 10).
    assert (E2 : KosarajuProofs.E (t_edges cls n) (t_node (tneg y)) (t_node x)) by (apply edges_iff; exists y, x; auto 10).
    pose proof (Mo _ _ _ _ E1 Hnx Hy). pose proof (Mo _ _ _ _ E2 Hny Hx).
    apply orb_true_iff. rewrite !Nat.ltb_lt. lia.
Qed.

Lemma holds_true a l : t_holds a l = true -> tlit_true (fun v => default false (a !! v)) l.
Proof. unfold t_holds, tlit_true. destruct (a !! t_var l) as [b|]; [|discriminate]. cbn. apply eqb_prop. Qed.

(** ** C38 *)

(** The solver always answers: no panic and no endless recursion, for any clauses. *)
Theorem C38_answers cls n : exists o, t_solve cls n = Some o.
Proof. destruct (solve_ok cls n) as (o & E & _). eauto. Qed.

(** "Satisfiable" comes with an assignment of all variables that satisfies every clause, and the
    solution check accepts it. *)
Theorem C38_sat cls n a : cls_in_range n cls -> t_solve cls n = Some (TSat a) ->
  length a = n /\ t_satisfies cls a = true /\ twosat_model (fun v => default false (a !! v)) cls.
Proof.
  intros In E. destruct (solve_ok cls n) as (o & E' & S). rewrite E in E'. injection E' as <-. destruct S as [L S].
  assert (H : forall x y, (x, y) ∈ cls -> t_holds a x || t_holds a y = true) by (intros x y Hxy; destruct (In x y Hxy); auto).
  split; [done|]. split.
  - apply forallb_forall. intros [x y] Hxy. apply elem_of_list_In in Hxy. exact (H x y Hxy).
  - intros x y Hxy. specialize (H x y Hxy). apply orb_true_iff in H as [?|?]; [left|right]; now apply holds_true.
Qed.

(** "Unsatisfiable" is answered only if no assignment satisfies the clauses (even when some
    clauses have variables out of range), and the certificate check accepts the variable named. *)
Theorem C38_unsat cls n v : t_solve cls n = Some (TUnsat v) ->
  (v < n)%nat /\ (~ exists f, twosat_model f cls) /\ t_is_refutation cls n v = Some true.
Proof.
  intros E. destruct (solve_ok cls n) as (o & E' & S). rewrite E in E'. injection E' as <-. destruct S as [L S]. split; [done|].
  split; [intros [f M]; exact (conflict_unsat f cls n v S M)|].
  unfold t_is_refutation. destruct (Nat.leb_spec n v); [lia|]. cbv zeta.
  destruct (reaches_ok (2 * n) (t_edges cls n) (edges_in cls n) (t_node (TLit v true)) (t_node (TLit v false))) as (b1 & E1 & H1); [apply node_lt; done|].
  destruct (reaches_ok (2 * n) (t_edges cls n) (edges_in cls n) (t_node (TLit v false)) (t_node (TLit v true))) as (b2 & E2 & H2); [apply node_lt; done|].
  rewrite E1, E2. destruct S as [S1 S2]. rewrite (proj2 H1 S1), (proj2 H2 S2). done.
Qed.

(** So on instances in range the answer is exactly satisfiability. *)
Theorem C38_decides cls n : cls_in_range n cls ->
  ((exists f, twosat_model f cls) <-> exists a, t_solve cls n = Some (TSat a)) /\
  ((~ exists f, twosat_model f cls) <-> exists v, t_solve cls n = Some (TUnsat v)).
Proof.
  intros In. destruct (C38_answers cls n) as [[a|v] E].
  - destruct (C38_sat cls n a In E) as (_ & _ & M). split; split; eauto.
    + intros H. exfalso. eauto.
    + intros [v E']. congruence.
  - destruct (C38_unsat cls n v E) as (_ & M & _). split; split; eauto; [tauto|]. intros [a E']. congruence.
Qed.

(** Implication by the clauses, stated without graphs: the unit consequences of a literal. *)
Inductive implies (cls : list (tlit * tlit)) (a : tlit) : tlit -> Prop :=
| imp_self : implies cls a a
| imp_left x y : implies cls a (tneg x) -> (x, y) ∈ cls -> implies cls a y
| imp_right x y : implies cls a (tneg y) -> (x, y) ∈ cls -> implies cls a x.

Lemma R_implies cls n a b : cls_in_range n cls -> R (t_edges cls n) (t_node a) (t_node b) <-> implies cls a b.
Proof.
  intros In. split.
  - intros H. apply clos_rt_rtn1 in H. remember (t_node a) as u eqn:Eu. remember (t_node b) as w eqn:Ew. revert b Ew.
    induction H as [|y z Hyz Hy IH]; intros b Ew.
    + subst u. apply node_inj in Ew as <-. constructor.
    + apply edges_iff in Hyz as (c & d & Hc & _ & _ & Ey & Ez). rewrite Ew in Ez. apply node_inj in Ez as ->. specialize (IH (tneg c) Ey).
      destruct Hc as [Hc|Hc]; [exact (imp_left _ _ _ _ IH Hc)|exact (imp_right _ _ _ _ IH Hc)].
  - induction 1 as [|x y H IH Hc|x y H IH Hc]; [apply rt_refl| |]; destruct (In _ _ Hc) as [Lx Ly].
    + eapply rt_trans; [exact IH|]. apply rt_step, edges_iff. exists x, y. auto 10.
    + eapply rt_trans; [exact IH|]. apply rt_step, edges_iff. exists y, x. auto 10.
Qed.

(** The certificate check accepts a variable exactly when each of its two literals implies the
    other, and then no assignment satisfies the clauses. *)
Theorem C38_certificates cls n v : cls_in_range n cls ->
  exists r, t_is_refutation cls n v = Some r /\
    (r = true <-> (v < n)%nat /\ implies cls (TLit v true) (TLit v false) /\ implies cls (TLit v false) (TLit v true)) /\
    (r = true -> ~ exists f, twosat_model f cls).
Proof.
  intros In. unfold t_is_refutation. destruct (Nat.leb_spec n v) as [Hv|Hv].
  { exists false. split; [done|]. split; [split; [discriminate|lia]|discriminate]. }
  cbv zeta.
  destruct (reaches_ok (2 * n) (t_edges cls n) (edges_in cls n) (t_node (TLit v true)) (t_node (TLit v false))) as (b1 & E1 & H1); [apply node_lt; done|].
  destruct (reaches_ok (2 * n) (t_edges cls n) (edges_in cls n) (t_node (TLit v false)) (t_node (TLit v true))) as (b2 & E2 & H2); [apply node_lt; done|].
  rewrite E1, E2. pose proof (R_implies cls n (TLit v true) (TLit v false) In) as I1. pose proof (R_implies cls n (TLit v false) (TLit v true) In) as I2. exists (b1 && b2).
  assert (X : b1 && b2 = true <-> (v < n)%nat /\ implies cls (TLit v true) (TLit v false) /\ implies cls (TLit v false) (TLit v true)).
  { rewrite andb_true_iff. tauto. }
  split; [now destruct b1|]. split; [exact X|]. intros H [f M]. apply X in H as (_ & J1 & J2).
  apply (conflict_unsat f cls n v); [|done]. split; tauto.
Qed.

(** The solution check agrees with the meaning of the clauses, for assignments of all variables. *)
Theorem C38_solution_check cls n a : cls_in_range n cls -> length a = n ->
  t_satisfies cls a = true <-> twosat_model (fun v => default false (a !! v)) cls.
Proof.
  intros In L. assert (H : forall l, (t_var l < n)%nat -> t_holds a l = true <-> tlit_true (fun v => default false (a !! v)) l).
  { intros l Hl. unfold t_holds, tlit_true. destruct (lookup_lt_is_Some_2 a (t_var l)) as [b ->]; [lia|]. cbn. destruct b, (t_pos l); cbn; intuition congruence. }
  unfold t_satisfies. rewrite forallb_forall. split.
  - intros S x y Hxy. destruct (In x y Hxy). rewrite <- !H by done. apply elem_of_list_In in Hxy. specialize (S _ Hxy). cbn in S. now apply orb_true_iff in S.
  - intros M [x y] Hxy. apply elem_of_list_In in Hxy. destruct (In x y Hxy). cbn. apply orb_true_iff. rewrite !H by done. auto.
Qed.

(** A clause with a variable out of range is skipped by the solver but false for the solution
    check: the reported solution is rejected. *)
Theorem C38_out_of_range_refuted : exists cls n a, t_solve cls n = Some (TSat a) /\ t_satisfies cls a = false.
Proof. exists [(TLit 5 true, TLit 5 true)], 1, [false]. split; vm_compute; reflexivity. Qed.

(** (x or y), (not x or y), (not y or z): satisfiable; with (not y or not z) as well it is not. *)
Definition ex_cls : list (tlit * tlit) := [(TLit 0 true, TLit 1 true); (TLit 0 false, TLit 1 true); (TLit 1 false, TLit 2 true)].
Example C38_example :
  cls_in_range 3 ex_cls /\ (exists a, t_solve ex_cls 3 = Some (TSat a) /\ t_satisfies ex_cls a = true) /\
  t_solve (ex_cls ++ [(TLit 1 false, TLit 2 false)]) 3 = Some (TUnsat 0) /\
  t_is_refutation (ex_cls ++ [(TLit 1 false, TLit 2 false)]) 3 1 = Some true /\ t_is_refutation ex_cls 3 1 = Some false.
Proof.
  split.
  - intros a b H. unfold ex_cls in H. repeat (apply elem_of_cons in H as [[= -> ->]|H]; [cbn; lia|]). now apply elem_of_nil in H.
  - split; [eexists; split; vm_compute; reflexivity|]. repeat split; vm_compute; reflexivity.
Qed.

Print Assumptions C38_answers.
Print Assumptions C38_sat.
Print Assumptions C38_unsat.
Print Assumptions C38_decides.
Print Assumptions C38_certificates.
Print Assumptions C38_solution_check.
Print Assumptions C38_out_of_range_refuted.
