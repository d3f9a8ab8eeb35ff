(** C37: accepted RUP refutations imply unsatisfiability. *)
From Coq Require Import List Arith Bool Lia.
From stdpp Require Import list.
From Verif Require Import RupModel RupProofs.

(** ** Soundness for every input, including literals out of range *)
Section sound.
Variable f : nat -> bool.
Definition agrees (a : assign) : Prop := forall l, is_t a l -> lit_true f l.

Lemma scan_sound c : forall a us r, scan a us c = Some r ->
  match r with Satisfied => True | Unset vs => (forall l, l ∈ us -> l ∈ vs) /\ forall l, l ∈ c -> is_f a l \/ l ∈ vs end.
Proof.
  induction c as [|k c IH]; intros a us r; cbn [scan].
  - intros [= <-]. split; [done|]. intros l H. now apply elem_of_nil in H.
  - destruct (lit_val a k) as [[[]|]|] eqn:V; intros H; try discriminate.
    + injection H as <-. done.
    + apply IH in H. destruct r; [done|]. destruct H as [H1 H2]. split; [done|]. intros l [->|Hl]%elem_of_cons; [now left|auto].
    + case_bool_decide as B; [injection H as <-; done|]. apply IH in H. destruct r; [done|]. destruct H as [H1 H2].
      assert (K : k ∈ ls /\ forall l, l ∈ us -> l ∈ ls).
      { case_bool_decide as B2; [auto|]. split; [|intros l Hl]; apply H1, elem_of_app; [right; left|auto]. }
      destruct K. split; [done|]. intros l [->|Hl]%elem_of_cons; auto.
Qed.

Lemma set_true_sound a l a' b : agrees a -> set_true a l = Some (a', b) ->
  (b = true -> lit_true f l -> agrees a') /\ (b = false -> ~ lit_true f l).
Proof.
  intros A. unfold set_true. destruct (lit_val a l) as [[[]|]|] eqn:V; intros [= <- <-]; split; try discriminate; auto.
  - intros _. apply lit_true_neg, A, is_t_neg. exact V.
  - intros _ T k Hk. destruct (decide (lvar l < length a)%nat) as [L|L].
    + apply set_true_t in Hk; [|done|done]. destruct Hk as [->|?]; auto.
    + rewrite list_insert_ge in Hk by lia. auto.
Qed.

Lemma pass_sound db0 : satisfies f db0 -> forall db a ch r, (forall c, c ∈ db -> c ∈ db0) -> agrees a -> pass a ch db = Some r ->
  match r with Conflict => False | Next a' _ => agrees a' end.
Proof.
  intros Sat. induction db as [|c db IH]; intros a ch r Sub A; cbn [pass]; [now intros [= <-]|].
  assert (Sd : forall d, d ∈ db -> d ∈ db0) by (intros d Hd; apply Sub; now right).
  destruct (Sat c (Sub c (elem_of_list_here _ _))) as (k & K1 & K2).
  destruct (scan a [] c) as [s|] eqn:E; [|discriminate]. apply scan_sound in E. destruct s as [|vs]; [apply IH; auto|].
  destruct E as [_ E]. specialize (E k K1).
  assert (NF : ~ is_f a k) by (intros F; apply is_t_neg in F; apply A, lit_true_neg in F; done).
  destruct vs as [|l [|l2 vs]].
  - intros [= <-]. destruct E as [?|H]; [done|]. now apply elem_of_nil in H.
  - destruct (set_true a l) as [[a' b]|] eqn:S; [|discriminate]. intros H. apply IH in H; auto.
    destruct E as [?|El]; [done|]. apply elem_of_list_singleton in El as ->.
    destruct (set_true_sound a l a' b A S) as [S1 S2]. destruct b; [now apply S1|]. now destruct (S2 eq_refl).
  - apply IH; auto.
Qed.

Lemma propagate_sound db : satisfies f db -> forall n a, agrees a -> propagate_steps n db a <> Some true.
Proof.
  intros Sat. induction n as [|n IH]; intros a A; cbn [propagate_steps]; [discriminate|].
  destruct (pass a false db) as [r|] eqn:E; [|discriminate]. apply (pass_sound db Sat db a false r (fun c H => H) A) in E.
  destruct r as [|a' []]; [done|now apply IH|discriminate].
Qed.

Lemma assume_sound c : (forall l, l ∈ c -> ~ lit_true f l) -> forall a, agrees a ->
  assume_neg a c <> Some None /\ forall a', assume_neg a c = Some (Some a') -> agrees a'.
Proof.
  induction c as [|k c IH]; intros N a A; cbn [assume_neg]; [split; [discriminate|now intros a' [= <-]]|].
  assert (T : lit_true f (negated k)) by (apply lit_true_neg, N; left).
  destruct (set_true a (negated k)) as [[a' b]|] eqn:S; [|split; [discriminate|discriminate]].
  destruct (set_true_sound _ _ _ _ A S) as [S1 S2]. destruct b.
  - apply IH; auto. intros l Hl. apply N. now right.
  - now destruct (S2 eq_refl).
Qed.
End sound.

Lemma agrees_empty f n : agrees f (replicate n None).
Proof.
  intros l. unfold is_t, lit_val. destruct (replicate n None !! lvar l) as [o|] eqn:X; [|discriminate].
  apply lookup_replicate in X as [-> _]. discriminate.
Qed.

(** ** C37 *)

(** A clause accepted as a RUP step is true in every assignment that satisfies the database. *)
Theorem C37_step_sound n db c f : is_rup n db c = Some true -> satisfies f db -> clause_true f c.
Proof.
  intros H Sat. destruct (List.Exists_dec (lit_true f) c (fun l => bool_dec (f (lvar l)) (lpos l))) as [E|E].
  { apply Exists_exists in E. destruct E as (l & Hl & T). exists l. auto. }
  exfalso. assert (N : forall l, l ∈ c -> ~ lit_true f l) by (intros l Hl T; apply E, Exists_exists; eauto).
  destruct (assume_sound f c N (replicate n None) (agrees_empty f n)) as [A1 A2]. unfold is_rup in H.
  destruct (assume_neg (replicate n None) c) as [[a|]|]; [|done|done].
  exact (propagate_sound f db Sat _ a (A2 a eq_refl) H).
Qed.

(** An accepted refutation means that no assignment satisfies the original clauses, whatever
    clauses are claimed as learned. *)
Theorem C37_refutation_sound n original learned : check_refutation n original learned = Some true ->
  ~ exists f, satisfies f original.
Proof.
  intros H [f Sat]. unfold check_refutation in H. revert original H Sat. induction learned as [|c learned IH]; intros db H Sat; cbn [check_learned] in H.
  - destruct (C37_step_sound n db [] f H Sat) as (l & Hl & _). now apply elem_of_nil in Hl.
  - destruct (is_rup n db c) as [[]|] eqn:E; try discriminate. apply (IH (db ++ [c]) H).
    intros d. rewrite elem_of_app, elem_of_list_singleton. intros [Hd| ->]; [auto|]. exact (C37_step_sound n db c f E Sat).
Qed.

(** With all variables in range the checker does not panic, and it accepts a step exactly when
    unit propagation (as a derivation system: no order, no search) reaches a contradiction from
    the negated clause. *)
Theorem C37_step_exact n db c : db_in_range n db -> in_range n c ->
  exists b, is_rup n db c = Some b /\ (b = true <-> contradiction db (neg_of c)).
Proof. exact (is_rup_ok n db c). Qed.

(** A learned-clause trace is accepted exactly when each clause is a RUP consequence of the
    original clauses and the earlier ones, and the whole database propagates to a contradiction. *)
Theorem C37_trace_exact n original learned : db_in_range n original -> db_in_range n learned ->
  exists b, check_refutation n original learned = Some b /\
    (b = true <->
       (forall l1 c l2, learned = l1 ++ c :: l2 -> contradiction (original ++ l1) (neg_of c)) /\
       contradiction (original ++ learned) (neg_of [])).
Proof.
  unfold check_refutation. revert original. induction learned as [|c learned IH]; intros db R Rl; cbn [check_learned].
  - destruct (is_rup_ok n db [] R) as (b & E & Hb); [intros l H; now apply elem_of_nil in H|]. exists b. split; [done|]. rewrite Hb, app_nil_r. split.
    + intros H. split; [|done]. intros l1 c l2 E2. destruct l1; discriminate.
    + tauto.
  - assert (Rc : in_range n c) by (apply Rl; left). destruct (is_rup_ok n db c R Rc) as (b & E & Hb). rewrite E. destruct b.
    + destruct (IH (db ++ [c])) as (b & E' & Hb').
      { intros d. rewrite elem_of_app, elem_of_list_singleton. intros [?| ->]; auto. }
      { intros d Hd. apply Rl. now right. }
      exists b. split; [done|]. rewrite Hb'. rewrite <- app_assoc. cbn. split; intros [H1 H2]; (split; [|done]).
      * intros [|d l1] c' l2 E2; cbn in E2; injection E2 as <- E2.
        -- rewrite app_nil_r. now apply Hb.
        -- specialize (H1 l1 c' l2 E2). now rewrite <- app_assoc in H1.
      * intros l1 c' l2 ->. specialize (H1 (c :: l1) c' l2 eq_refl). now rewrite <- app_assoc.
    + exists false. split; [done|]. split; [discriminate|]. intros [H _]. specialize (H [] c learned eq_refl). rewrite app_nil_r in H. tauto.
Qed.

(** The order and the multiplicity of the clauses in the database, and of the literals in the
    checked clause, do not matter. *)
Theorem C37_order_irrelevant n db db' c c' : db_in_range n db -> in_range n c ->
  (forall d, d ∈ db <-> d ∈ db') -> (forall l, l ∈ c <-> l ∈ c') -> is_rup n db c = is_rup n db' c'.
Proof.
  intros R Rc E Ec. assert (M : forall (db db' : list clause) (c c' : clause) l, (forall d, d ∈ db <-> d ∈ db') -> (forall l, l ∈ c <-> l ∈ c') ->
    derived db (neg_of c) l -> derived db' (neg_of c') l).
  { clear. intros db db' c c' l E Ec H. induction H as [l Hl|d l Hd Hl Hk IH]; [apply d_start, Ec, Hl|].
    apply (d_unit _ _ d); [now apply E|done|auto]. }
  assert (C : contradiction db (neg_of c) <-> contradiction db' (neg_of c')).
  { split; (intros [(d & Hd & H)|(l & H1 & H2)]; [left; exists d; split; [now apply E|]|right; exists l; split]); intros;
      try (apply (M db db' c c'); auto; fail); apply (M db' db c' c); auto; intros; symmetry; auto. }
  destruct (is_rup_ok n db c R Rc) as (b & Eb & Hb).
  destruct (is_rup_ok n db' c') as (b' & Eb' & Hb').
  { intros d Hd. apply R. now apply E. } { intros l Hl. apply Rc. now apply Ec. }
  rewrite Eb, Eb'. f_equal. apply eq_true_iff_eq. rewrite Hb, Hb'. exact C.
Qed.

(** (x or y), (x or not y), (not x or y), (not x or not y): refuted by learning (x); without a
    learned clause unit propagation alone does not refute it, and a clause that does not follow
    is rejected. *)
Definition ex_x := Lit 0 true. Definition ex_y := Lit 1 true.
Definition ex_db : list clause := [[ex_x; ex_y]; [ex_x; negated ex_y]; [negated ex_x; ex_y]; [negated ex_x; negated ex_y]].
Example C37_example :
  db_in_range 2 ex_db /\ in_range 2 [ex_x] /\ check_refutation 2 ex_db [[ex_x]] = Some true /\ check_refutation 2 ex_db [] = Some false /\
  is_rup 2 [[ex_x; ex_y]] [ex_x] = Some false /\ check_refutation 1 ex_db [] = None /\
  is_rup 2 [[ex_x; ex_x]; [negated ex_x]] [] = Some true /\ is_rup 2 [[ex_x; negated ex_x]] [] = Some false /\
  satisfies (fun _ => true) [[ex_x; ex_y]].
Proof.
  repeat split.
  - intros c Hc l Hl. unfold ex_db in Hc. repeat (apply elem_of_cons in Hc as [->|Hc]; [repeat (apply elem_of_cons in Hl as [->|Hl]; [cbn; lia|]); now apply elem_of_nil in Hl|]). now apply elem_of_nil in Hc.
  - intros l Hl. apply elem_of_list_singleton in Hl as ->. cbn. lia.
  - intros c Hc. apply elem_of_list_singleton in Hc as ->. exists ex_x. split; [left|done].
Qed.

Print Assumptions C37_step_sound.
Print Assumptions C37_refutation_sound.
Print Assumptions C37_step_exact.
Print Assumptions C37_trace_exact.
Print Assumptions C37_order_irrelevant.
