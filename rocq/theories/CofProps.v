(** Properties of the cofactor decision diagrams. *)
From Coq Require Import List Arith Bool Lia.
From Verif Require Import CofModel.
Import ListNotations.

(** ** Orders and normal forms *)
Lemma cmp_lit_eq a b : cmp_lit a b = Eq -> a = b.
Proof. unfold cmp_lit. destruct a as [v p], b as [w q]. cbn. destruct (Nat.compare v w) eqn:E; try discriminate. apply Nat.compare_eq in E. subst. destruct p, q; congruence. Qed.
Lemma cmp_lit_refl a : cmp_lit a a = Eq. Proof. unfold cmp_lit. rewrite Nat.compare_refl. destruct (snd a); reflexivity. Qed.
Lemma cmp_list_eq {A} (cmp : A -> A -> comparison) : (forall a b, cmp a b = Eq -> a = b) -> forall a b, cmp_list cmp a b = Eq -> a = b.
Proof. intros H. induction a as [|x a IH]; intros [|y b]; cbn; try discriminate; [reflexivity|]. destruct (cmp x y) eqn:E; try discriminate. intros K. f_equal; [apply H, E|apply IH, K]. Qed.
Lemma cmp_list_refl {A} (cmp : A -> A -> comparison) : (forall a, cmp a a = Eq) -> forall a, cmp_list cmp a a = Eq.
Proof. intros H. induction a as [|x a IH]; cbn; [reflexivity|]. rewrite H. exact IH. Qed.
Lemma same_eq a b : same a b = true <-> a = b.
Proof.
  unfold same. split.
  - destruct (cmp_list _ a b) eqn:E; try discriminate. intros _. exact (cmp_list_eq _ (cmp_list_eq _ cmp_lit_eq) _ _ E).
  - intros ->. rewrite (cmp_list_refl _ (cmp_list_refl _ cmp_lit_refl)). reflexivity.
Qed.
Lemma ins_in {A} (cmp : A -> A -> comparison) : (forall a b, cmp a b = Eq -> a = b) -> forall x l y, In y (ins cmp x l) <-> y = x \/ In y l.
Proof.
  intros H x l y. induction l as [|z l IH]; cbn; [intuition congruence|]. destruct (cmp x z) eqn:E; cbn; [|intuition congruence|rewrite IH; intuition].
  apply H in E. subst. intuition congruence.
Qed.
Lemma sort_in {A} (cmp : A -> A -> comparison) : (forall a b, cmp a b = Eq -> a = b) -> forall l y, In y (sort_dedup cmp l) <-> In y l.
Proof. intros H l y. unfold sort_dedup. induction l as [|x l IH]; cbn; [reflexivity|]. rewrite (ins_in cmp H), IH. intuition congruence. Qed.
Lemma sort_length {A} (cmp : A -> A -> comparison) l : length (sort_dedup cmp l) <= length l.
Proof.
  assert (I : forall x l, length (ins cmp x l) <= S (length l)) by (intros x; induction l0 as [|y l0 IH]; cbn; [lia|destruct (cmp x y); cbn; lia]).
  unfold sort_dedup. induction l as [|x l IH]; cbn; [lia|]. specialize (I x (fold_right (ins cmp) [] l)). lia.
Qed.

(** ** Meaning *)
Definition true_at (f : nat -> bool) (l : lit) : Prop := f (fst l) = snd l.
Definition holds (f : nat -> bool) (F : list (list lit)) : Prop := forall c, In c F -> exists l, In l c /\ true_at f l.
Definition sat (F : list (list lit)) : Prop := exists f, holds f F.
Lemma canon_in F c : In c (canon_raw F) <-> exists d, In d F /\ c = sort_dedup cmp_lit d.
Proof. unfold canon_raw. rewrite (sort_in _ (cmp_list_eq _ cmp_lit_eq)), in_map_iff. split; intros (d & A & B); exists d; auto. Qed.
Theorem C131_canon f F : holds f (canon_raw F) <-> holds f F.
Proof.
  unfold holds. split.
  - intros H c Hc. destruct (H (sort_dedup cmp_lit c)) as (l & Hl & T); [apply canon_in; exists c; auto|]. apply -> (sort_in _ cmp_lit_eq) in Hl. exists l. split; [exact Hl|exact T].
  - intros H c Hc. apply canon_in in Hc as (d & Hd & ->). destruct (H d Hd) as (l & Hl & T). exists l. split; [apply (sort_in _ cmp_lit_eq), Hl|exact T].
Qed.
Definition lit_dec (a b : lit) : {a = b} + {a <> b}.
Proof. decide equality; [apply Bool.bool_dec|apply Nat.eq_dec]. Defined.
Lemma hit_iff x b (c : list lit) : existsb (fun l : lit => (fst l =? x) && Bool.eqb (snd l) b) c = true <-> In (x, b) c.
Proof.
  rewrite existsb_exists. split.
  - intros ([v p] & Hl & E). apply andb_true_iff in E as [E1 E2]. apply Nat.eqb_eq in E1. apply Bool.eqb_prop in E2. cbn in *. subst. exact Hl.
  - intros H. exists (x, b). cbn. rewrite Nat.eqb_refl, Bool.eqb_reflx. auto.
Qed.
Lemma cofactor_raw F x b c : In c (map (filter (fun l : lit => negb (fst l =? x))) (filter (fun c => negb (existsb (fun l : lit => (fst l =? x) && Bool.eqb (snd l) b) c)) F)) <->
  exists d, In d F /\ ~ In (x, b) d /\ c = filter (fun l : lit => negb (fst l =? x)) d.
Proof.
  rewrite in_map_iff. split.
  - intros (d & <- & Hd). apply filter_In in Hd as [Hd E]. apply negb_true_iff in E. exists d. repeat split; auto. rewrite <- hit_iff. congruence.
  - intros (d & Hd & N & ->). exists d. split; [reflexivity|]. apply filter_In. split; [exact Hd|]. apply negb_true_iff. destruct (existsb _ d) eqn:E; [apply hit_iff in E; contradiction|reflexivity].
Qed.
(** The cofactor is the formula with the variable fixed. *)
Theorem C131_cofactor f F x b : f x = b -> (holds f (cofactor F x b) <-> holds f F).
Proof.
  intros Fx. unfold cofactor. rewrite C131_canon. split.
  - intros H c Hc. destruct (in_dec lit_dec (x, b) c) as [I | I]; [exists (x, b); split; [exact I|exact Fx]|].
    destruct (H (filter (fun l : lit => negb (fst l =? x)) c)) as (l & Hl & T); [apply cofactor_raw; exists c; auto|]. apply filter_In in Hl as [Hl _]. exists l. split; [exact Hl|exact T].
  - intros H c Hc. apply cofactor_raw in Hc as (d & Hd & N & ->). destruct (H d Hd) as (l & Hl & T). exists l. split; [|exact T]. apply filter_In. split; [exact Hl|]. apply negb_true_iff, Nat.eqb_neq. intros E. apply N.
    unfold true_at in T. destruct l as [v p]. cbn in *. subst. exact Hl.
Qed.
Lemma cofactor_vars F x b c l : In c (cofactor F x b) -> In l c -> fst l <> x /\ exists d, In d F /\ In l d.
Proof.
  intros Hc Hl. unfold cofactor in Hc. apply canon_in in Hc as (d & Hd & ->). apply -> (sort_in _ cmp_lit_eq) in Hl. apply cofactor_raw in Hd as (e & He & _ & ->). apply filter_In in Hl as [Hl E]. apply negb_true_iff, Nat.eqb_neq in E. split; [exact E|]. exists e. split; [exact He|exact Hl].
Qed.
Lemma holds_ext f g F : (forall c l, In c F -> In l c -> f (fst l) = g (fst l)) -> holds f F -> holds g F.
Proof. intros E H c Hc. destruct (H c Hc) as (l & Hl & T). exists l. split; [exact Hl|]. unfold true_at in *. rewrite <- (E c l Hc Hl). exact T. Qed.
Definition set (f : nat -> bool) (x : nat) (b : bool) (v : nat) : bool := if v =? x then b else f v.
Lemma cofactor_sat F x b : sat (cofactor F x b) -> exists f, f x = b /\ holds f F.
Proof.
  intros [f H]. exists (set f x b). assert (X : set f x b x = b) by (unfold set; rewrite Nat.eqb_refl; reflexivity). split; [exact X|]. apply (C131_cofactor _ F x b X). refine (holds_ext f _ _ _ H).
  intros c l Hc Hl. destruct (cofactor_vars F x b c l Hc Hl) as [N _]. unfold set. apply Nat.eqb_neq in N. rewrite N. reflexivity.
Qed.
(** A formula is satisfiable exactly when one of its two cofactors is. *)
Theorem C131_shannon F x : sat F <-> sat (cofactor F x false) \/ sat (cofactor F x true).
Proof.
  split.
  - intros [f H]. destruct (f x) eqn:E; [right|left]; exists f; apply C131_cofactor; assumption.
  - intros [H | H]; apply cofactor_sat in H as (f & _ & H); exists f; exact H.
Qed.
Lemma leaf_unsat F : is_leaf F = true -> ~ sat F.
Proof. unfold is_leaf. rewrite existsb_exists. intros (c & Hc & E) [f H]. destruct (H c Hc) as (l & Hl & _). destruct c; [destruct Hl|discriminate]. Qed.

(** ** The construction *)
Definition at_ (ns : list node) (id : nat) (F : list (list lit)) : Prop := exists x, nth_error ns id = Some x /\ clauses_of x = F.
Definition node_ok (ns : list node) (i : nat) (x : node) : Prop :=
  match x with Leaf F => is_leaf F = true | Internal F v lo hi => lo < i /\ hi < i /\ at_ ns lo (cofactor F v false) /\ at_ ns hi (cofactor F v true) end.
Definition within (d n : nat) (F : list (list lit)) : Prop := forall c l, In c F -> In l c -> d <= fst l < n.
Definition inv (n : nat) (ns : list node) (m : list ((nat * list (list lit)) * option nat)) : Prop :=
  (forall i x, nth_error ns i = Some x -> node_ok ns i x) /\
  (forall d F id, In ((d, F), Some id) m -> at_ ns id F) /\ (forall d F, In ((d, F), None) m -> within d n F -> sat F).
Lemma at_app ns e id F : at_ ns id F -> at_ (ns ++ e) id F.
Proof. intros (x & H & E). exists x. split; [|exact E]. rewrite nth_error_app1; [exact H|]. apply nth_error_Some. congruence. Qed.
Lemma at_last ns x : at_ (ns ++ [x]) (length ns) (clauses_of x).
Proof. exists x. split; [|reflexivity]. rewrite nth_error_app2, Nat.sub_diag by lia. reflexivity. Qed.
Lemma at_lt ns id F : at_ ns id F -> id < length ns. Proof. intros (x & H & _). apply nth_error_Some. congruence. Qed.
Lemma inv_push n ns m x : inv n ns m -> node_ok ns (length ns) x -> inv n (ns ++ [x]) m.
Proof.
  intros (A & B & C) X. assert (O : forall i y, node_ok ns i y -> node_ok (ns ++ [x]) i y) by (intros i [F|F v lo hi]; cbn; [auto|]; intros (P & Q & R & S); repeat split; auto; apply at_app; assumption).
  split; [|split; [|exact C]].
  - intros i y H. destruct (Nat.lt_ge_cases i (length ns)) as [L | L].
    + rewrite nth_error_app1 in H by exact L. apply O, A, H.
    + rewrite nth_error_app2 in H by exact L. destruct (i - length ns) as [|j] eqn:E; [|destruct j; discriminate]. injection H as <-. replace i with (length ns) by lia. apply O, X.
  - intros d F id H. apply at_app, (B d F id H).
Qed.
Lemma lookup_in d F m r : lookup d F m = Some r -> In ((d, F), r) m.
Proof.
  induction m as [|[[d' F'] r'] m IH]; cbn [lookup]; [discriminate|]. destruct ((d =? d') && same F F') eqn:E; [|intros H; right; apply IH, H]. intros [= ->]. apply andb_true_iff in E as [E1 E2]. apply Nat.eqb_eq in E1. apply same_eq in E2. subst. left. reflexivity.
Qed.
Lemma within_cofactor d n F b : within d n F -> within (S d) n (cofactor F d b).
Proof. intros W c l Hc Hl. destruct (cofactor_vars F d b c l Hc Hl) as (N & e & He & Hl'). specialize (W e l He Hl'). lia. Qed.
Lemma go_ok n : forall k d F ns m res ns' m', k + d = n -> inv n ns m -> go k d F ns m = (res, ns', m') ->
  inv n ns' m' /\ (exists e, ns' = ns ++ e) /\ match res with Some id => at_ ns' id F | None => within d n F -> sat F end.
Proof.
  induction k as [|k IH]; intros d F ns m res ns' m' Kd I H; cbn [go] in H.
  - destruct (lookup d F m) as [hit|] eqn:L.
    { injection H as <- <- <-. apply lookup_in in L. split; [exact I|]. split; [exists []; rewrite app_nil_r; reflexivity|]. destruct I as (_ & B & C). destruct hit as [id|]; [exact (B d F id L)|exact (C d F L)]. }
    destruct (is_leaf F) eqn:Lf; injection H as <- <- <-.
    + pose proof (inv_push n ns m (Leaf F) I Lf) as (A & B & C). pose proof (at_last ns (Leaf F)) as At. cbn in At. split; [|split; [eauto|exact At]]. split; [exact A|]. split; [intros d' F' id [[= <- <- <-] | K]; [exact At|exact (B d' F' id K)]|intros d' F' [K | K]; [discriminate|exact (C d' F' K)]].
    + assert (S : within d n F -> sat F).
      { intros W. exists (fun _ => false). intros c Hc. destruct c as [|l c]; [|specialize (W _ l Hc (or_introl eq_refl)); lia]. exfalso. apply not_true_iff_false in Lf. apply Lf. unfold is_leaf. apply existsb_exists. exists []. auto. }
      destruct I as (A & B & C). split; [|split; [exists []; rewrite app_nil_r; reflexivity|exact S]]. split; [exact A|]. split; [intros d' F' id [K | K]; [discriminate|exact (B d' F' id K)]|intros d' F' [[= <- <-] | K]; [exact S|exact (C d' F' K)]].
  - destruct (lookup d F m) as [hit|] eqn:L.
    { injection H as <- <- <-. apply lookup_in in L. split; [exact I|]. split; [exists []; rewrite app_nil_r; reflexivity|]. destruct I as (_ & B & C). destruct hit as [id|]; [exact (B d F id L)|exact (C d F L)]. }
    destruct (is_leaf F) eqn:Lf.
    { injection H as <- <- <-. pose proof (inv_push n ns m (Leaf F) I Lf) as (A & B & C). pose proof (at_last ns (Leaf F)) as At. cbn in At. split; [|split; [eauto|exact At]]. split; [exact A|]. split; [intros d' F' id [[= <- <- <-] | K]; [exact At|exact (B d' F' id K)]|intros d' F' [K | K]; [discriminate|exact (C d' F' K)]]. }
    destruct (go k (S d) (cofactor F d false) ns m) as [[lo n1] m1] eqn:G1. destruct (go k (S d) (cofactor F d true) n1 m1) as [[hi n2] m2] eqn:G2.
    assert (Kd' : k + S d = n) by lia. destruct (IH _ _ _ _ _ _ _ Kd' I G1) as (I1 & (e1 & E1) & R1). destruct (IH _ _ _ _ _ _ _ Kd' I1 G2) as (I2 & (e2 & E2) & R2).
    assert (Fail : (lo = None \/ hi = None) -> within d n F -> sat F).
    { intros Z W. apply (C131_shannon F d). destruct lo as [lo|]; [|left; apply R1, within_cofactor, W]. destruct hi as [hi|]; [destruct Z; discriminate|]. right. apply R2, within_cofactor, W. }
    assert (Out : (lo = None \/ hi = None) -> inv n n2 (((d, F), None) :: m2) /\ (exists e, n2 = ns ++ e) /\ (within d n F -> sat F)).
    { intros Z. destruct I2 as (A & B & C). split; [|split; [exists (e1 ++ e2); rewrite E2, E1, app_assoc; reflexivity|exact (Fail Z)]]. split; [exact A|]. split; [intros d' F' id [K | K]; [discriminate|exact (B d' F' id K)]|intros d' F' [[= <- <-] | K]; [exact (Fail Z)|exact (C d' F' K)]]. }
    destruct lo as [lo|]; [destruct hi as [hi|]|]; [|injection H as <- <- <-; apply Out; auto|destruct hi; injection H as <- <- <-; apply Out; auto].
    injection H as <- <- <-. rewrite E2 in *. assert (R1' : at_ (n1 ++ e2) lo (cofactor F d false)) by (apply at_app, R1).
    pose proof (inv_push n (n1 ++ e2) m2 (Internal F d lo hi) I2) as P. cbn [node_ok] in P. specialize (P (conj (at_lt _ _ _ R1') (conj (at_lt _ _ _ R2) (conj R1' R2)))). destruct P as (A & B & C).
    pose proof (at_last (n1 ++ e2) (Internal F d lo hi)) as At. cbn [clauses_of] in At. split; [|split; [exists (e1 ++ e2 ++ [Internal F d lo hi]); rewrite E1, <- !app_assoc; reflexivity|exact At]].
    split; [exact A|]. split; [intros d' F' id [[= <- <- <-] | K]; [exact At|exact (B d' F' id K)]|intros d' F' [K | K]; [discriminate|exact (C d' F' K)]].
Qed.
(** ** The checker *)
Definition acyclic (ns : list node) : Prop := exists rank : nat -> nat, forall i F v lo hi, nth_error ns i = Some (Internal F v lo hi) -> rank lo < rank i /\ rank hi < rank i.
Lemma child_at ns id F : child_is ns id F = true <-> at_ ns id F.
Proof.
  unfold child_is, at_. split.
  - destruct (nth_error ns id) as [x|]; [|discriminate]. intros E. apply same_eq in E. eauto.
  - intros (x & -> & E). apply same_eq, E.
Qed.
(** An accepted diagram without a cycle shows that the formula has no model. *)
Theorem C131_check_sound root ns F : acyclic ns -> check_distinct_dag root ns F = true -> ~ sat F.
Proof.
  intros [rank R] H. unfold check_distinct_dag in H. apply andb_true_iff in H as [Hr H]. rewrite forallb_forall in H. apply child_at in Hr.
  assert (G : forall r i, rank i = r -> forall G, at_ ns i G -> ~ sat G).
  { induction r as [r IH] using lt_wf_ind. intros i Er G (x & Hx & <-). pose proof (H x (nth_error_In _ _ Hx)) as C. destruct x as [G|G v lo hi]; cbn [clauses_of]; [apply leaf_unsat, C|].
    apply andb_true_iff in C as [C1 C2]. apply child_at in C1, C2. destruct (R _ _ _ _ _ Hx) as [Rl Rh]. rewrite Er in *. intros S. apply (C131_shannon G v) in S as [S | S]; [exact (IH _ Rl lo eq_refl _ C1 S)|exact (IH _ Rh hi eq_refl _ C2 S)]. }
  exact (G _ root eq_refl F Hr).
Qed.
(** Every diagram that is built is accepted and has no cycle, and so the formula has no model. *)
Theorem C131_dag_checks n F root ns : distinct_cofactor_dag n F = Some (root, ns) -> check_distinct_dag root ns F = true /\ acyclic ns /\ ~ sat F.
Proof.
  unfold distinct_cofactor_dag. destruct (go n 0 F [] []) as [[res ns'] m'] eqn:G. destruct (go_ok n n 0 F [] [] res ns' m') as ((A & _ & _) & _ & R); [lia| |exact G|].
  { split; [intros [|i] x; discriminate|]. split; intros d F' H; intros; contradiction. }
  destruct res as [r|]; [|discriminate]. intros [= <- <-]. assert (C : check_distinct_dag r ns' F = true).
  { unfold check_distinct_dag. apply andb_true_iff. split; [apply child_at, R|]. apply forallb_forall. intros x Hx. apply In_nth_error in Hx as (i & Hx). specialize (A i x Hx). destruct x as [G'|G' v lo hi]; [exact A|]. destruct A as (_ & _ & A1 & A2). apply andb_true_iff. split; apply child_at; assumption. }
  assert (Ac : acyclic ns'). { exists (fun i => i). intros i G' v lo hi Hx. destruct (A i _ Hx) as (L1 & L2 & _). auto. }
  split; [exact C|]. split; [exact Ac|]. exact (C131_check_sound r ns' F Ac C).
Qed.
(** Over the declared variables no diagram is built exactly when the formula has a model. *)
Theorem C131_dag_none n F : (forall c l, In c F -> In l c -> fst l < n) -> (distinct_cofactor_dag n F = None <-> sat F).
Proof.
  intros V. split.
  - unfold distinct_cofactor_dag. destruct (go n 0 F [] []) as [[res ns'] m'] eqn:G. destruct (go_ok n n 0 F [] [] res ns' m') as (_ & _ & R); [lia| |exact G|].
    { split; [intros [|i] x; discriminate|]. split; intros d F' H; intros; contradiction. }
    destruct res as [r|]; [discriminate|]. intros _. apply R. intros c l Hc Hl. specialize (V c l Hc Hl). lia.
  - intros S. destruct (distinct_cofactor_dag n F) as [[root ns]|] eqn:E; [|reflexivity]. destruct (C131_dag_checks n F root ns E) as (_ & _ & U). contradiction.
Qed.
(** A node may be its own child: the checker accepts a satisfiable formula. *)
Theorem C131_cycle_refuted : exists root ns F, F = canon_raw F /\ check_distinct_dag root ns F = true /\ sat F.
Proof. exists 0, [Internal [[(0, true)]] 5 0 0], [[(0, true)]]. split; [reflexivity|]. split; [reflexivity|]. exists (fun _ => true). intros c [<- | []]. exists (0, true). split; [left; reflexivity|reflexivity]. Qed.
Example C131_example : exists root ns, distinct_cofactor_dag 2 [[(0, false); (1, false)]; [(0, true)]; [(1, true)]] = Some (root, ns) /\ length ns = 4 /\ distinct_cofactor_dag 2 [[(0, true); (1, true)]] = None.
Proof. do 2 eexists. vm_compute. repeat split; reflexivity. Qed.
