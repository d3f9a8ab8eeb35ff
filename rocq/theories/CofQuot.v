(** Properties of the quotient diagrams and of the reductions. *)
From Coq Require Import List Arith Bool Lia.
From Verif Require Import CofModel CofProps.
Import ListNotations.

(** ** Twists *)
Definition live (F : list (list lit)) (v : nat) : Prop := exists c p, In c F /\ In (v, p) c.
Definition faithful (t : list (nat * (nat * bool))) (F : list (list lit)) : Prop :=
  forall v w a f g, live F v -> live F w -> assoc v t = Some (a, f) -> assoc w t = Some (a, g) -> v = w.
Lemma twist_clause_spec t c : forall c', twist_clause t c = Some c' -> (forall v p, In (v, p) c -> exists a f, assoc v t = Some (a, f) /\ In (a, xorb p f) c') /\
  (forall l, In l c' -> exists v p a f, In (v, p) c /\ assoc v t = Some (a, f) /\ l = (a, xorb p f)).
Proof.
  induction c as [|[v p] c IH]; cbn [twist_clause]; intros c'; [intros [= <-]; split; [intros v p []|intros l []]|]. destruct (assoc v t) as [[a f]|] eqn:A; [|discriminate]. destruct (twist_clause t c) as [d|]; [|discriminate]. intros [= <-]. destruct (IH d eq_refl) as [I J]. split.
  - intros w q [[= <- <-] | H]; [exists a, f; split; [exact A|left; reflexivity]|]. destruct (I w q H) as (b & g & B & K). exists b, g. split; [exact B|right; exact K].
  - intros l [<- | H]; [exists v, p, a, f; split; [left; reflexivity|auto]|]. destruct (J l H) as (w & q & b & g & K & B & E). exists w, q, b, g. split; [right; exact K|auto].
Qed.
Lemma twist_clauses_spec t F : forall G, twist_clauses t F = Some G -> (forall c, In c F -> exists c', In c' G /\ twist_clause t c = Some c') /\ (forall c', In c' G -> exists c, In c F /\ twist_clause t c = Some c').
Proof.
  induction F as [|c F IH]; cbn [twist_clauses]; intros G; [intros [= <-]; split; intros c []|]. destruct (twist_clause t c) as [c'|] eqn:C; [|discriminate]. destruct (twist_clauses t F) as [G'|]; [|discriminate]. intros [= <-]. destruct (IH G' eq_refl) as [I J]. split.
  - intros d [<- | H]; [exists c'; split; [left; reflexivity|exact C]|]. destruct (I d H) as (d' & K & E). exists d'. split; [right; exact K|exact E].
  - intros d' [<- | H]; [exists c; split; [left; reflexivity|exact C]|]. destruct (J d' H) as (d & K & E). exists d. split; [right; exact K|exact E].
Qed.
Definition vars (F : list (list lit)) : list nat := map fst (concat F).
Lemma vars_live F v : In v (vars F) <-> live F v.
Proof.
  unfold vars, live. rewrite in_map_iff. split.
  - intros ([w p] & <- & H). apply in_concat in H as (c & Hc & Hl). exists c, p. auto.
  - intros (c & p & Hc & Hl). exists (v, p). split; [reflexivity|]. apply in_concat. exists c. auto.
Qed.
(** A renaming of the literals that keeps the live variables apart does not change satisfiability; any renaming sends
    models of the image to models. *)
Theorem C132_twist F t G : apply_twist F t = Some G -> (sat G -> sat F) /\ (faithful t F -> sat F -> sat G).
Proof.
  unfold apply_twist. destruct (twist_clauses t F) as [H|] eqn:T; [|discriminate]. intros [= <-]. destruct (twist_clauses_spec t F H T) as [A B]. split.
  - intros [f S]. rewrite C131_canon in S. exists (fun v => match assoc v t with Some (a, g) => xorb (f a) g | None => false end). intros c Hc. destruct (A c Hc) as (c' & Hc' & E). destruct (S c' Hc') as (l & Hl & Tr).
    destruct (proj2 (twist_clause_spec t c c' E) l Hl) as (v & p & a & g & Hv & As & ->). exists (v, p). split; [exact Hv|]. unfold true_at in *. cbn in *. rewrite As, Tr. destruct p, g; reflexivity.
  - intros Inj [f S]. set (at_a := fun a v => match assoc v t with Some (b, _) => a =? b | None => false end).
    exists (fun a => match find (at_a a) (vars F) with Some v => match assoc v t with Some (_, g) => xorb (f v) g | None => false end | None => false end). rewrite C131_canon. intros c' Hc'. destruct (B c' Hc') as (c & Hc & E). destruct (S c Hc) as ([v p] & Hl & Tr).
    destruct (proj1 (twist_clause_spec t c c' E) v p Hl) as (a & g & As & K). exists (a, xorb p g). split; [exact K|]. unfold true_at in *. cbn in *. assert (Lv : live F v) by (exists c, p; auto).
    destruct (find (at_a a) (vars F)) as [w|] eqn:Fd.
    + apply find_some in Fd as [Hw Ew]. apply vars_live in Hw. unfold at_a in Ew. destruct (assoc w t) as [[b g']|] eqn:Aw; [|discriminate]. apply Nat.eqb_eq in Ew. subst b. rewrite <- (Inj v w a g g' Lv Hw As Aw) in Aw |- *. rewrite As in Aw. injection Aw as <-. rewrite Tr. reflexivity.
    + exfalso. apply vars_live in Lv. pose proof (find_none _ _ Fd v Lv) as N. unfold at_a in N. rewrite As, Nat.eqb_refl in N. discriminate.
Qed.
(** ** The quotient checker *)
Definition qacyclic (ns : list qnode) : Prop := exists rank : nat -> nat, forall i F v lo hi t u, nth_error ns i = Some (QInternal F v lo hi t u) -> rank lo < rank i /\ rank hi < rank i.
Definition qfaithful (ns : list qnode) : Prop := forall F v lo hi t u, In (QInternal F v lo hi t u) ns -> faithful t (cofactor F v false) /\ faithful u (cofactor F v true).
(** Every node of an accepted diagram without cycles and with faithful renamings has no model. *)
Theorem C132_quotient_sound ns : qacyclic ns -> qfaithful ns -> check_quotient_dag ns = true -> forall x, In x ns -> ~ sat (qclauses x).
Proof.
  intros [rank R] Q H. unfold check_quotient_dag in H. rewrite forallb_forall in H.
  assert (G : forall r i, rank i = r -> forall x, nth_error ns i = Some x -> ~ sat (qclauses x)).
  { induction r as [r IH] using lt_wf_ind. intros i Er x Hx. pose proof (H x (nth_error_In _ _ Hx)) as C. destruct x as [F|F v lo hi t u]; cbn [qclauses]; [apply leaf_unsat, C|].
    apply andb_true_iff in C as [C1 C2]. destruct (R _ _ _ _ _ _ _ Hx) as [Rl Rh]. rewrite Er in *. destruct (Q _ _ _ _ _ _ (nth_error_In _ _ Hx)) as [Qt Qu].
    assert (Step : forall id tw K, rank id < r -> faithful tw K -> qchild_ok ns id tw K = true -> ~ sat K).
    { intros id tw K L Fa Ok S. unfold qchild_ok in Ok. destruct (apply_twist K tw) as [K'|] eqn:A; [|discriminate]. destruct (nth_error ns id) as [y|] eqn:N; [|discriminate]. apply same_eq in Ok. subst K'. apply (IH _ L id eq_refl y N). exact (proj2 (C132_twist K tw _ A) Fa S). }
    intros S. apply (C131_shannon F v) in S as [S | S]; [exact (Step lo t _ Rl Qt C1 S)|exact (Step hi u _ Rh Qu C2 S)]. }
  intros x Hx. apply In_nth_error in Hx as (i & Hx). exact (G _ i eq_refl x Hx).
Qed.
(** The checker does not look at the renamings: two variables may be sent to opposite literals of one. *)
Theorem C132_twist_refuted : exists ns x, qacyclic ns /\ check_quotient_dag ns = true /\ In x ns /\ sat (qclauses x).
Proof.
  set (tw := [(1, (0, false)); (2, (0, true))]). exists [QLeaf [[]]; QInternal [[(0, false)]; [(0, true)]] 0 0 0 [] []; QInternal [[(1, true)]; [(2, true)]] 9 1 1 tw tw], (QInternal [[(1, true)]; [(2, true)]] 9 1 1 tw tw). split; [|split; [reflexivity|split; [right; right; left; reflexivity|]]].
  - exists (fun i => i). intros [|[|[|i]]] F v lo hi t u H; cbn in H; try discriminate; [injection H as <- <- <- <- <- <-; lia|injection H as <- <- <- <- <- <-; lia|destruct i; discriminate].
  - exists (fun _ => true). intros c [<- | [<- | []]]; eexists; (split; [left; reflexivity|reflexivity]).
Qed.
(** It does not look for cycles either. *)
Theorem C132_cycle_refuted : exists ns x, qfaithful ns /\ check_quotient_dag ns = true /\ In x ns /\ sat (qclauses x).
Proof.
  exists [QInternal [] 0 0 0 [] []], (QInternal [] 0 0 0 [] []). split; [|split; [reflexivity|split; [left; reflexivity|exists (fun _ => true); intros c []]]]. intros F v lo hi t u [[= <- <- <- <- <- <-] | []]. split; intros x y a f g _ _ K; discriminate.
Qed.

(** ** The reductions *)
Lemma filter_shorter {A} (P : A -> bool) l x : In x l -> P x = false -> length (filter P l) < length l.
Proof.
  assert (L : forall l, length (filter P l) <= length l) by (induction l0 as [|y l0 IH]; cbn; [lia|destruct (P y); cbn; lia]).
  induction l as [|y l IH]; intros H E; [destruct H|]. cbn. destruct H as [-> | H]; [rewrite E; specialize (L l); lia|]. specialize (IH H E). destruct (P y); cbn; lia.
Qed.
Lemma cofactor_shorter F v p : In [(v, p)] F -> length (cofactor F v p) < length F.
Proof.
  intros H. unfold cofactor, canon_raw. eapply Nat.le_lt_trans; [apply sort_length|]. rewrite !map_length. apply (filter_shorter _ F [(v, p)] H). cbn. rewrite Nat.eqb_refl, Bool.eqb_reflx. reflexivity.
Qed.
Lemma find_unit F c : find (fun c : list lit => length c =? 1) F = Some c -> exists v p, c = [(v, p)] /\ In [(v, p)] F.
Proof. intros H. apply find_some in H as [H E]. apply Nat.eqb_eq in E. destruct c as [|[v p] [|? ?]]; try discriminate. eauto. Qed.
(** Unit propagation keeps satisfiability, and ends with the empty clause or without unit clauses. *)
Theorem C132_unit_propagate F : (sat (unit_propagate F) <-> sat F) /\ (is_leaf (unit_propagate F) = true \/ forall c, In c (unit_propagate F) -> length c <> 1).
Proof.
  unfold unit_propagate. assert (G : forall k F, length F <= k -> (sat (propagate k F) <-> sat F) /\ (is_leaf (propagate k F) = true \/ forall c, In c (propagate k F) -> length c <> 1)); [|apply G; lia].
  clear F. induction k as [|k IH]; intros F L; cbn [propagate].
  - destruct F; [|cbn in L; lia]. split; [reflexivity|]. right. intros c [].
  - destruct (find _ F) as [c|] eqn:Fd.
    + apply find_unit in Fd as (v & p & -> & Hu). assert (E : sat (cofactor F v p) <-> sat F).
      { split; [intros S; apply cofactor_sat in S as (f & _ & S); exists f; exact S|]. intros [f S]. exists f. apply C131_cofactor; [|exact S]. destruct (S _ Hu) as (l & [<- | []] & T). exact T. }
      cbn zeta. destruct (is_leaf (cofactor F v p)) eqn:Lf; [split; [exact E|left; exact Lf]|]. destruct (IH (cofactor F v p)) as [I J]; [apply Nat.lt_succ_r; exact (Nat.lt_le_trans _ _ _ (cofactor_shorter F v p Hu) L)|]. split; [rewrite I; exact E|exact J].
    + split; [reflexivity|]. right. intros c Hc Lc. pose proof (find_none _ _ Fd c Hc) as N. cbn in N. rewrite Lc in N. discriminate.
Qed.
Lemma occurs_iff F v p : occurs F v p = true <-> exists c, In c F /\ In (v, p) c.
Proof. unfold occurs. rewrite existsb_exists. split; intros (c & Hc & E); exists c; (split; [exact Hc|apply hit_iff, E]). Qed.
(** Eliminating pure literals keeps satisfiability. *)
Theorem C132_pure F : sat (pure_eliminate F) <-> sat F.
Proof.
  unfold pure_eliminate. destruct (existsb _ F); [|reflexivity]. split.
  - intros [f S]. rewrite C131_canon in S. exists (fun v => if pure F v then occurs F v true else f v). intros c Hc. destruct (existsb (fun l : lit => pure F (fst l)) c) eqn:E.
    + apply existsb_exists in E as ([v p] & Hl & P). exists (v, p). split; [exact Hl|]. unfold true_at. cbn in *. rewrite P. assert (O : occurs F v p = true) by (apply occurs_iff; eauto). unfold pure in P. destruct p; [exact O|]. rewrite O in P. destruct (occurs F v true); [discriminate|reflexivity].
    + destruct (S c) as ([v p] & Hl & T); [apply filter_In; rewrite E; auto|]. exists (v, p). split; [exact Hl|]. unfold true_at in *. cbn in *. destruct (pure F v) eqn:P; [|exact T]. exfalso. apply not_true_iff_false in E. apply E. apply existsb_exists. exists (v, p). auto.
  - intros [f S]. exists f. apply C131_canon. intros c Hc. apply filter_In in Hc as [Hc _]. exact (S c Hc).
Qed.
Lemma mem_iff l c : mem l c = true <-> In l c.
Proof.
  unfold mem. rewrite existsb_exists. split.
  - intros (k & Hk & E). apply andb_true_iff in E as [E1 E2]. apply Nat.eqb_eq in E1. apply Bool.eqb_prop in E2. destruct l, k. cbn in *. subst. exact Hk.
  - intros H. exists l. rewrite Nat.eqb_refl, Bool.eqb_reflx. auto.
Qed.
(** Removing subsumed clauses keeps the models. *)
Theorem C132_subsume f F : holds f (subsume F) <-> holds f F.
Proof.
  unfold subsume. rewrite C131_canon. split.
  - intros S. assert (G : forall n c, length c = n -> In c F -> exists l, In l c /\ true_at f l); [|intros c Hc; exact (G _ c eq_refl Hc)].
    induction n as [n IH] using lt_wf_ind. intros c Lc Hc. destruct (existsb (fun d => (length d <? length c) && forallb (fun l => mem l c) d) F) eqn:E.
    + apply existsb_exists in E as (d & Hd & E). apply andb_true_iff in E as [E1 E2]. apply Nat.ltb_lt in E1. rewrite forallb_forall in E2. rewrite Lc in E1. destruct (IH _ E1 d eq_refl Hd) as (l & Hl & T). exists l. split; [apply mem_iff, E2, Hl|exact T].
    + apply S, filter_In. rewrite E. auto.
  - intros S c Hc. apply filter_In in Hc as [Hc _]. exact (S c Hc).
Qed.
(** The whole reduction keeps satisfiability. *)
Theorem C132_reduce fuel : forall F G, reduce fuel F = Some G -> (sat G <-> sat F).
Proof.
  induction fuel as [|fuel IH]; intros F G; cbn [reduce]; [discriminate|]. cbn zeta. set (H := subsume (pure_eliminate (unit_propagate F))).
  assert (E : sat H <-> sat F). { unfold H. rewrite <- (proj1 (C132_unit_propagate F)), <- (C132_pure (unit_propagate F)). split; intros [f S]; exists f; [apply -> C132_subsume in S; exact S|apply C132_subsume, S]. }
  destruct (is_leaf H || same H F); [intros [= <-]; exact E|]. intros K. apply IH in K. rewrite K. exact E.
Qed.
Example C132_example : reduce 9 [[(0, true)]; [(0, false); (1, true); (2, true)]; [(0, true); (3, false)]; [(1, false); (2, false)]; [(1, true); (2, false)]] =
  Some [[(1, false); (2, false)]; [(1, true); (2, false)]; [(1, true); (2, true)]].
Proof. vm_compute. reflexivity. Qed.
(** The hypotheses of the soundness theorem hold of a diagram with a proper renaming. *)
Example C132_example_quotient : let ns := [QLeaf [[]]; QInternal [[(0, false)]; [(0, true)]] 0 0 0 [] []; QInternal [[(1, true)]; [(1, false)]] 9 1 1 [(1, (0, true))] [(1, (0, false))]] in
  qacyclic ns /\ qfaithful ns /\ check_quotient_dag ns = true.
Proof.
  cbn zeta. split; [|split; [|reflexivity]].
  - exists (fun i => i). intros [|[|[|i]]] F v lo hi t u H; cbn in H; try discriminate; [injection H as <- <- <- <- <- <-; lia|injection H as <- <- <- <- <- <-; lia|destruct i; discriminate].
  - intros F v lo hi t u H. cbn in H. destruct H as [H | [[= <- <- <- <- <- <-] | [[= <- <- <- <- <- <-] | []]]]; [discriminate| |]; split; intros x y a f g Lx Ly K1 K2; cbn in K1, K2; try discriminate; destruct (x =? 1) eqn:X, (y =? 1) eqn:Y; try discriminate; apply Nat.eqb_eq in X, Y; congruence.
Qed.

(** ** Normal forms and the end of the reduction *)
Fixpoint sorted {A} (cmp : A -> A -> comparison) (l : list A) : Prop := match l with [] => True | x :: l' => match l' with [] => True | y :: _ => cmp x y = Lt end /\ sorted cmp l' end.
Lemma ins_sorted {A} (cmp : A -> A -> comparison) : (forall a b, cmp a b = Gt -> cmp b a = Lt) -> forall x l, sorted cmp l -> sorted cmp (ins cmp x l).
Proof.
  intros An x. induction l as [|y l IH]; cbn [ins sorted]; [auto|]. intros [H S]. destruct (cmp x y) eqn:E; cbn [sorted]; [auto|auto|]. split; [|exact (IH S)].
  destruct l as [|z l]; cbn [ins]; [apply An, E|]. destruct (cmp x z); [exact H|apply An, E|exact H].
Qed.
Lemma sort_sorted {A} (cmp : A -> A -> comparison) : (forall a b, cmp a b = Gt -> cmp b a = Lt) -> forall l, sorted cmp (sort_dedup cmp l).
Proof. intros An l. unfold sort_dedup. induction l as [|x l IH]; cbn [fold_right]; [exact I|apply ins_sorted; assumption]. Qed.
Lemma sort_id {A} (cmp : A -> A -> comparison) l : sorted cmp l -> sort_dedup cmp l = l.
Proof. unfold sort_dedup. induction l as [|x l IH]; cbn [fold_right sorted]; [reflexivity|]. intros [H S]. rewrite IH by exact S. destruct l as [|y l]; cbn [ins]; [reflexivity|]. rewrite H. reflexivity. Qed.
Lemma cmp_lit_anti a b : cmp_lit a b = Gt -> cmp_lit b a = Lt.
Proof. unfold cmp_lit. rewrite (Nat.compare_antisym (fst a) (fst b)). destruct (Nat.compare (fst a) (fst b)); cbn; try discriminate; [|reflexivity]. destruct (snd a), (snd b); try discriminate; reflexivity. Qed.
Lemma cmp_list_anti {A} (cmp : A -> A -> comparison) : (forall a b, cmp a b = Eq -> a = b) -> (forall a, cmp a a = Eq) -> (forall a b, cmp a b = Gt -> cmp b a = Lt) -> forall a b, cmp_list cmp a b = Gt -> cmp_list cmp b a = Lt.
Proof.
  intros He Hr An. induction a as [|x a IH]; intros [|y b]; cbn; try discriminate; [reflexivity|]. destruct (cmp x y) eqn:E; try discriminate.
  - apply He in E. subst. rewrite Hr. apply IH.
  - intros _. rewrite (An _ _ E). reflexivity.
Qed.
(** The normal form is a normal form. *)
Theorem C131_canon_idempotent F : canon_raw (canon_raw F) = canon_raw F.
Proof.
  unfold canon_raw at 1. rewrite map_ext_in with (g := fun c => c).
  - rewrite map_id. apply sort_id, sort_sorted, (cmp_list_anti _ cmp_lit_eq cmp_lit_refl cmp_lit_anti).
  - intros c Hc. apply canon_in in Hc as (d & _ & ->). apply sort_id, sort_sorted, cmp_lit_anti.
Qed.
Lemma canon_length F : length (canon_raw F) <= length F.
Proof. unfold canon_raw. eapply Nat.le_trans; [apply sort_length|]. rewrite map_length. exact (le_n _). Qed.
Lemma filter_same {A} (P : A -> bool) l : length (filter P l) < length l \/ filter P l = l.
Proof. induction l as [|x l [IH | IH]]; cbn; [auto| |]; destruct (P x); cbn; [left; lia|left; lia|right; rewrite IH; reflexivity|left; rewrite IH; lia]. Qed.
Lemma propagate_shorter k : forall F, length (propagate k F) < length F \/ propagate k F = F.
Proof.
  induction k as [|k IH]; intros F; cbn [propagate]; [auto|]. destruct (find _ F) as [c|] eqn:Fd; [|auto]. apply find_unit in Fd as (v & p & -> & Hu). cbn zeta. left. destruct (is_leaf _); [exact (cofactor_shorter F v p Hu)|].
  destruct (IH (cofactor F v p)) as [L | ->]; [exact (Nat.lt_trans _ _ _ L (cofactor_shorter F v p Hu))|exact (cofactor_shorter F v p Hu)].
Qed.
Lemma pure_shorter F : length (pure_eliminate F) < length F \/ pure_eliminate F = F.
Proof.
  unfold pure_eliminate. destruct (existsb _ F) eqn:E; [|auto]. left. eapply Nat.le_lt_trans; [apply canon_length|]. apply existsb_exists in E as (c & Hc & E). apply (filter_shorter _ F c Hc). rewrite E. reflexivity.
Qed.
Lemma subsume_shorter F : length (subsume F) < length F \/ subsume F = canon_raw F.
Proof.
  unfold subsume. destruct (filter_same (fun c => negb (existsb (fun d => (length d <? length c) && forallb (fun l => mem l c) d) F)) F) as [L | E]; [left|right; f_equal; exact E].
  exact (Nat.le_lt_trans _ _ _ (canon_length _) L).
Qed.
Lemma round_shorter F : canon_raw F = F -> let G := subsume (pure_eliminate (unit_propagate F)) in length G < length F \/ G = F.
Proof.
  intros C. cbn zeta. assert (S : forall F, length (subsume F) <= length F) by (intros K; destruct (subsume_shorter K) as [L | ->]; [apply Nat.lt_le_incl, L|apply canon_length]).
  assert (P : forall F, length (pure_eliminate F) <= length F) by (intros K; destruct (pure_shorter K) as [L | ->]; [apply Nat.lt_le_incl, L|exact (le_n _)]).
  destruct (propagate_shorter (length F) F) as [L | E]; [left; exact (Nat.le_lt_trans _ _ _ (S _) (Nat.le_lt_trans _ _ _ (P _) L))|]. unfold unit_propagate. rewrite E.
  destruct (pure_shorter F) as [L | E2]; [left; exact (Nat.le_lt_trans _ _ _ (S _) L)|]. rewrite E2. destruct (subsume_shorter F) as [L | E3]; [left; exact L|right; rewrite E3; exact C].
Qed.
(** The reduction ends for every formula. *)
Theorem C132_reduce_ends F : exists fuel G, reduce fuel F = Some G.
Proof.
  assert (Main : forall n F, length F < n -> canon_raw F = F -> exists G, reduce n F = Some G).
  { induction n as [|n IH]; intros K L C; [exfalso; exact (Nat.nlt_0_r _ L)|]. cbn [reduce]. cbn zeta. set (G := subsume (pure_eliminate (unit_propagate K))). destruct (is_leaf G || same G K) eqn:E; [eauto|]. apply IH.
    - destruct (round_shorter K C) as [R | R]; [apply -> Nat.lt_succ_r in L; exact (Nat.lt_le_trans _ _ _ R L)|]. exfalso. apply orb_false_iff in E as [_ E]. apply not_true_iff_false in E. apply E, same_eq, R.
    - unfold G, subsume. apply C131_canon_idempotent. }
  set (G := subsume (pure_eliminate (unit_propagate F))). destruct (Main (S (length G)) G) as [H HG]; [exact (le_n _)|unfold G, subsume; apply C131_canon_idempotent|].
  exists (S (S (length G))). cbn [reduce]. cbn zeta. fold G. destruct (is_leaf G || same G F); eauto.
Qed.
