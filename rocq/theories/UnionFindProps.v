(** C36: union-find computes the generated equivalence. *)
From Coq Require Import List Arith Lia Relations.
From stdpp Require Import list.
From Verif Require Import UnionFindModel UnionFindProofs.

(** The specification: how many elements a program makes, which pairs it unites, and the least
    equivalence containing those pairs. *)
Fixpoint made (os : list uf_op) : nat :=
  match os with [] => 0 | OMake :: os => S (made os) | _ :: os => made os end.
Fixpoint united (os : list uf_op) (x y : nat) : Prop :=
  match os with [] => False | OUnion a b :: os => (x = a /\ y = b) \/ united os x y | _ :: os => united os x y end.
Definition connected (os : list uf_op) : nat -> nat -> Prop := clos_refl_sym_trans nat (united os).
(** A program uses only elements it has made. *)
Definition op_in (n : nat) (o : uf_op) : Prop :=
  match o with OMake => True | OFind x => (x < n)%nat | OUnion x y => (x < n /\ y < n)%nat end.
Definition well_scoped (os : list uf_op) : Prop :=
  forall os1 o os2, os = os1 ++ o :: os2 -> op_in (made os1) o.

Lemma made_app os os' : made (os ++ os') = (made os + made os')%nat.
Proof. induction os as [|[] os IH]; cbn; lia. Qed.
Lemma united_app os os' x y : united (os ++ os') x y <-> united os x y \/ united os' x y.
Proof. induction os as [|[] os IH]; cbn; tauto. Qed.
Lemma uf_run_app u os os' : uf_run u (os ++ os') = match uf_run u os with Some u' => uf_run u' os' | None => None end.
Proof. revert u. induction os as [|o os IH]; intros u; cbn; [done|]. destruct (uf_step u o); [apply IH|done]. Qed.

Lemma connected_mono os os' x y : (forall a b, united os a b -> united os' a b) -> connected os x y -> connected os' x y.
Proof. intros M. induction 1; [apply rst_step; auto|apply rst_refl|now apply rst_sym|eapply rst_trans; eassumption]. Qed.

(** The state reached by a well scoped program, against its specification. *)
Record reached (os : list uf_op) (u : uf) : Prop := {
  re_ok : uf_ok u;
  re_len : length (uf_parent u) = made os;
  re_eq : forall x y r s, root (uf_parent u) x r -> root (uf_parent u) y s -> r = s <-> connected os x y;
  re_in : forall x y, united os x y -> (x < made os /\ y < made os)%nat
}.

Lemma connected_in os x y : (forall x y, united os x y -> (x < made os /\ y < made os)%nat) -> connected os x y -> x = y \/ (x < made os /\ y < made os)%nat.
Proof. intros I. induction 1; [right; auto|now left|intuition|intuition (subst; auto)]. Qed.

Lemma connected_snoc_make os x y : connected (os ++ [OMake]) x y <-> connected os x y.
Proof. split; apply connected_mono; intros a b; rewrite united_app; cbn; tauto. Qed.
Lemma connected_snoc_find os v x y : connected (os ++ [OFind v]) x y <-> connected os x y.
Proof. split; apply connected_mono; intros a b; rewrite united_app; cbn; tauto. Qed.
Lemma connected_snoc_union os v w x y :
  connected (os ++ [OUnion v w]) x y <->
  connected os x y \/ (connected os x v /\ connected os w y) \/ (connected os x w /\ connected os v y).
Proof.
  set (Up := fun a b (H : connected os a b) => connected_mono os (os ++ [OUnion v w]) a b (fun a b U => proj2 (united_app _ _ a b) (or_introl U)) H).
  assert (E : connected (os ++ [OUnion v w]) v w) by (apply rst_step, united_app; right; cbn; auto).
  split.
  - induction 1 as [a b U|a|a b H IH|a b c H1 I1 H2 I2].
    + apply united_app in U. destruct U as [U|U]; [left; now apply rst_step|]. cbn in U. destruct U as [[-> ->]|[]]. right. left. split; apply rst_refl.
    + left. apply rst_refl.
    + destruct IH as [I|[[I J]|[I J]]]; [left|right; right|right; left]; try split; now apply rst_sym.
    + destruct I1 as [I1|[[I1 J1]|[I1 J1]]], I2 as [I2|[[I2 J2]|[I2 J2]]].
      * left. exact (rst_trans _ _ _ _ _ I1 I2).
      * right. left. split; [exact (rst_trans _ _ _ _ _ I1 I2)|done].
      * right. right. split; [exact (rst_trans _ _ _ _ _ I1 I2)|done].
      * right. left. split; [done|exact (rst_trans _ _ _ _ _ J1 I2)].
      * right. left. done.
      * left. exact (rst_trans _ _ _ _ _ I1 J2).
      * right. right. split; [done|exact (rst_trans _ _ _ _ _ J1 I2)].
      * left. exact (rst_trans _ _ _ _ _ I1 J2).
      * right. right. done.
  - intros [H|[[H1 H2]|[H1 H2]]]; [now apply Up| |].
    + exact (rst_trans _ _ _ _ _ (Up _ _ H1) (rst_trans _ _ _ _ _ E (Up _ _ H2))).
    + exact (rst_trans _ _ _ _ _ (Up _ _ H1) (rst_trans _ _ _ _ _ (rst_sym _ _ _ _ E) (Up _ _ H2))).
Qed.

Lemma reached_run os : well_scoped os -> exists u, uf_run uf_new os = Some u /\ reached os u.
Proof.
  induction os as [|o os IH] using rev_ind; intros W.
  - exists uf_new. split; [done|]. constructor; [apply new_ok|done| |].
    + intros x y r s H. apply root_lt in H. cbn in H. lia.
    + intros x y [].
  - destruct IH as (u & R & [Ok Ln Eq In]).
    { intros os1 o' os2 ->. apply (W os1 o' (os2 ++ [o])). now rewrite <- app_assoc. }
    pose proof (W os o [] eq_refl) as Wo. rewrite uf_run_app, R. cbn [uf_run].
    destruct o as [|v|v w]; cbn [uf_step op_in] in *.
    + destruct (make_ok u Ok) as [Ok' Rt]. eexists. split; [reflexivity|]. constructor; [done| | |].
      * rewrite made_app. cbn. rewrite app_length. cbn. lia.
      * intros x y r s Hx Hy. apply Rt in Hx, Hy. rewrite connected_snoc_make.
        destruct Hx as [Hx|[-> ->]], Hy as [Hy|[-> ->]]; [now apply Eq| | |split; [intros; apply rst_refl|done]].
        -- split; [intros ->; apply root_lt in Hx; lia|]. intros C. destruct (connected_in _ _ _ In C) as [->|]; [apply root_lt in Hx|]; lia.
        -- split; [intros <-; apply root_lt in Hy; lia|]. intros C. destruct (connected_in _ _ _ In C) as [<-|]; [apply root_lt in Hy|]; lia.
      * intros x y. rewrite united_app, made_app. cbn. intros [H|[]]. apply In in H. lia.
    + destruct (root_exists u v Ok) as [r Hr]; [lia|]. destruct (find_ok u v r Ok Hr) as (u' & E & Ok' & [L Sr] & _). rewrite E.
      exists u'. split; [done|]. constructor; [done| | |].
      * rewrite made_app. cbn. lia.
      * intros x y a b Hx Hy. apply Sr in Hx, Hy. rewrite connected_snoc_find. now apply Eq.
      * intros x y. rewrite united_app, made_app. cbn. intros [H|[]]. apply In in H. lia.
    + destruct Wo as [Wv Ww]. destruct (root_exists u v Ok) as [rv Hv]; [lia|]. destruct (root_exists u w Ok) as [rw Hw]; [lia|].
      destruct (union_ok u v w rv rw Ok Hv Hw) as (u' & b & E & Ok' & L & _ & Cl). rewrite E.
      exists u'. split; [done|]. constructor; [done| | |].
      * rewrite made_app. cbn. lia.
      * intros x y a c Hx Hy. rewrite connected_snoc_union.
        destruct (root_exists u x Ok) as [rx Hx0]; [apply root_lt in Hx; lia|]. destruct (root_exists u y Ok) as [ry Hy0]; [apply root_lt in Hy; lia|].
        specialize (Cl x y rx ry Hx0 Hy0). rewrite <- (Eq x y rx ry), <- (Eq x v rx rv), <- (Eq w y rw ry), <- (Eq x w rx rw), <- (Eq v y rv ry) by done.
        split.
        -- intros <-. destruct (proj1 Cl) as [?|[[? ?]|[? ?]]]; [now exists a|..]; intuition congruence.
        -- intros H. destruct (proj2 Cl) as (t & T1 & T2); [intuition congruence|].
           rewrite (root_fun _ _ _ _ Hx T1), (root_fun _ _ _ _ Hy T2). done.
      * intros x y. rewrite united_app, made_app. cbn. intros [H|[[-> ->]|[]]]; [apply In in H|]; lia.
Qed.

(** ** C36 *)

(** Any program that only uses elements it made runs without a panic. Afterwards two elements
    have the same representative exactly when the requested unions connect them, and the
    representative belongs to the element's class. *)
Theorem C36_classes os x y : well_scoped os -> (x < made os)%nat -> (y < made os)%nat ->
  exists u ux rx uy ry, uf_run uf_new os = Some u /\ uf_find u x = Some (ux, rx) /\ uf_find u y = Some (uy, ry) /\
    (rx = ry <-> connected os x y) /\ connected os x rx.
Proof.
  intros W Hx Hy. destruct (reached_run os W) as (u & R & [Ok Ln Eq In]).
  destruct (root_exists u x Ok) as [rx Rx]; [lia|]. destruct (root_exists u y Ok) as [ry Ry]; [lia|].
  destruct (find_ok u x rx Ok Rx) as (ux & Ex & _). destruct (find_ok u y ry Ok Ry) as (uy & Ey & _).
  exists u, ux, rx, uy, ry. split; [done|]. split; [done|]. split; [done|]. split; [now apply Eq|].
  apply (Eq x rx rx rx); [done|now apply root_root in Rx|done].
Qed.

(** A lookup changes no class and no representative, and repeating it gives the same answer. *)
Theorem C36_find_pure os x : well_scoped os -> (x < made os)%nat ->
  exists u u' r, uf_run uf_new os = Some u /\ uf_find u x = Some (u', r) /\ uf_len u' = uf_len u /\
    forall y, (y < made os)%nat -> exists v v' s, uf_find u y = Some (v, s) /\ uf_find u' y = Some (v', s).
Proof.
  intros W Hx. destruct (reached_run os W) as (u & R & [Ok Ln Eq In]).
  destruct (root_exists u x Ok) as [r Hr]; [lia|]. destruct (find_ok u x r Ok Hr) as (u' & E & Ok' & [L Sr] & _).
  exists u, u', r. split; [done|]. split; [done|]. split; [exact L|]. intros y Hy.
  destruct (root_exists u y Ok) as [s Hs]; [lia|]. destruct (find_ok u y s Ok Hs) as (v & Ev & _).
  destruct (find_ok u' y s Ok') as (v' & Ev' & _); [now apply Sr|]. eauto.
Qed.

(** [union] reports a merge exactly when the two elements were not yet connected. *)
Theorem C36_union_reports os x y : well_scoped os -> (x < made os)%nat -> (y < made os)%nat ->
  exists u u' b, uf_run uf_new os = Some u /\ uf_union u x y = Some (u', b) /\ (b = true <-> ~ connected os x y).
Proof.
  intros W Hx Hy. destruct (reached_run os W) as (u & R & [Ok Ln Eq In]).
  destruct (root_exists u x Ok) as [rx Rx]; [lia|]. destruct (root_exists u y Ok) as [ry Ry]; [lia|].
  destruct (union_ok u x y rx ry Ok Rx Ry) as (u' & b & E & _ & _ & Hb & _). exists u, u', b. split; [done|]. split; [done|].
  rewrite Hb. now rewrite (Eq x y rx ry).
Qed.

(** Union by rank keeps the trees shallow: a lookup recurses at most [1 + log2 n] deep, where [n]
    is the number of elements. *)
Theorem C36_depth os x : well_scoped os -> (x < made os)%nat ->
  exists u, uf_run uf_new os = Some u /\ is_Some (find_steps (S (Nat.log2 (made os))) (uf_parent u) x).
Proof.
  intros W Hx. destruct (reached_run os W) as (u & R & [Ok Ln Eq In]). exists u. split; [done|].
  destruct (root_exists u x Ok) as [r Hr]; [lia|].
  destruct (find_depth u x r (S (Nat.log2 (made os))) Ok Hr) as (p' & E & _); [rewrite Ln; lia|]. rewrite E. eauto.
Qed.

(** An element that was never made is refused (an index panic), rather than given a class. *)
Theorem C36_out_of_range os x : well_scoped os -> (made os <= x)%nat ->
  exists u, uf_run uf_new os = Some u /\ uf_find u x = None.
Proof.
  intros W Hx. destruct (reached_run os W) as (u & R & [Ok Ln Eq In]). exists u. split; [done|].
  unfold uf_find. destruct (length (uf_parent u)) eqn:E; [done|]. cbn. rewrite lookup_ge_None_2 by lia. done.
Qed.

Example C36_example :
  let os := [OMake; OMake; OMake; OMake; OMake; OUnion 0 1; OUnion 2 3; OUnion 3 1; OFind 0] in
  well_scoped os /\ connected os 0 2 /\ ~ connected os 0 4 /\
  (exists u u' u'', uf_run uf_new os = Some u /\ uf_find u 0 = Some (u', 2) /\ uf_find u 4 = Some (u'', 4)) /\
  (exists u, uf_run uf_new [OMake; OMake; OUnion 0 1; OUnion 1 0] = Some u).
Proof.
  set (os := [OMake; OMake; OMake; OMake; OMake; OUnion 0 1; OUnion 2 3; OUnion 3 1; OFind 0]). cbv zeta.
  assert (W : well_scoped os).
  { intros os1 o os2 E. unfold os in E.
    do 9 (destruct os1 as [|? os1]; [injection E as <- _; cbn; lia|injection E as <- E]). destruct os1; discriminate. }
  split; [done|]. split.
  { apply rst_trans with 1; [apply rst_step; cbn; tauto|]. apply rst_trans with 3; [apply rst_sym, rst_step; cbn; tauto|apply rst_sym, rst_step; cbn; tauto]. }
  split; [|split; [|eexists; reflexivity]].
  - intros C. assert (G : forall a b, connected os a b -> (a = 4 <-> b = 4)).
    { clear C. induction 1 as [a b U| | |]; [|done|symmetry; done|etransitivity; eassumption]. cbn in U. lia. }
    apply G in C. lia.
  - eexists _, _, _. split; [reflexivity|]. split; reflexivity.
Qed.

Print Assumptions C36_classes.
Print Assumptions C36_find_pure.
Print Assumptions C36_union_reports.
Print Assumptions C36_depth.
Print Assumptions C36_out_of_range.
