(** What an execution leaves unchanged: the variables it does not name, the enclosing blocks and the callers. *)
From Coq Require Import ZArith List Bool Lia.
From Verif Require Import FoldModel FoldProofs FoldMain FoldStmtModel PropModel.
Import ListNotations.

(** The names bound by Let and Repeat, and all names bound or set. *)
Fixpoint binders_of (st : stmt) : list nat :=
  match st with
  | SLet x _ _ _ => [x]
  | SIf _ t f => flat_map binders_of t ++ match f with Some b => flat_map binders_of b | None => [] end
  | SWhile _ b => flat_map binders_of b
  | SRepeat x _ b => x :: flat_map binders_of b
  | _ => []
  end.
Definition binders (p : list stmt) : list nat := flat_map binders_of p.
Definition names (p : list stmt) : list nat := binders p ++ set_targets p.

Section Frame.
Context {W : Type} (P : prims) (items : value -> option (list value)) (ext : nat -> list value -> W -> outcome value * W) (show : value -> W -> W) (F : nat -> option func).
Notation state := (state W).
Notation exec := (exec P items ext show F). Notation exec_stmt ex := (FoldStmtModel.exec_stmt P items ext show ex F). Notation call ex := (FoldStmtModel.call ext ex F).
(** The variables that some function sets. *)
Definition set_by_function (x : nat) : Prop := exists t ps body, F t = Some (ps, body) /\ In x (set_targets body).
Definition upper (s : state) : vars := if in_function s then locals s else main_block s.
(** The same names are defined in both. *)
Definition same_names (u v : vars) : Prop := forall x, u x = None <-> v x = None.
(** The undo log of the innermost block has grown by names of [N], and replaying that part gives back the names. *)
Definition grown (N : list nat) (a b : list (list (nat * option value))) (u v : vars) : Prop :=
  match a with [] => b = [] | l :: r => exists e, b = (e ++ l) :: r /\ (forall y o, In (y, o) e -> In y N) /\ same_names (undo e v) u end.
Record kept (N : list nat) (s s1 : state) : Prop := {
  k_frames : frames s1 = frames s;
  k_saves : grown N (saves s) (saves s1) (upper s) (upper s1);
  k_root : in_function s = false -> saves s = [] -> main_block s1 = main_block s \/ same_names (main_block s1) (main_block s);
  k_upper : forall x, ~ In x N -> upper s1 x = upper s x;
  k_globals : forall x, ~ set_by_function x -> (in_function s = true \/ ~ In x N) -> globals s1 x = globals s x;
  k_main : in_function s = true -> main_block s1 = main_block s }.
Lemma in_function_frames (s s1 : state) : frames s1 = frames s -> in_function s1 = in_function s.
Proof. unfold in_function. intros ->. reflexivity. Qed.
Lemma undo_none e : forall u v, same_names u v -> same_names (undo e u) (undo e v).
Proof. induction e as [| [y o] e IH]; intros u v H; [exact H |]. cbn [undo fold_left fst snd]. apply IH. intros x. unfold update. destruct (Nat.eqb x y); [reflexivity | apply H]. Qed.
Lemma same_trans u v w : same_names u v -> same_names v w -> same_names u w.
Proof. intros A B x. rewrite (A x). apply B. Qed.
Lemma same_refl u : same_names u u.
Proof. intros x. reflexivity. Qed.
Lemma grown_refl N a u : grown N a a u u.
Proof. destruct a as [| l r]; [reflexivity |]. exists []. split; [reflexivity |]. split; [intros y o [] | apply same_refl]. Qed.
Lemma grown_same N a u v : same_names v u -> grown N a a u v.
Proof. destruct a as [| l r]; [reflexivity |]. exists []. split; [reflexivity |]. split; [intros y o [] | assumption]. Qed.
Lemma grown_trans N a b c u v w : grown N a b u v -> grown N b c v w -> grown N a c u w.
Proof.
  destruct a as [| l r]; cbn; [intros -> E; exact E |]. intros (e & -> & H & S). cbn. intros (e' & -> & H' & S'). exists (e' ++ e). split; [rewrite app_assoc; reflexivity |]. split.
  - intros y o I. apply in_app_iff in I as [I | I]; [apply (H' y o I) | apply (H y o I)].
  - unfold undo in *. rewrite fold_left_app. apply (same_trans _ (undo e v)); [apply (undo_none e _ _ S') | exact S].
Qed.
Lemma grown_mono N M a b u v : (forall x, In x N -> In x M) -> grown N a b u v -> grown M a b u v.
Proof. intros S. destruct a as [| l r]; cbn; [auto |]. intros (e & -> & H & K). exists e. split; [reflexivity |]. split; [| exact K]. intros y o I. apply S, (H y o I). Qed.
Lemma kept_refl N s : kept N s s.
Proof. split; auto. apply grown_refl. Qed.
Lemma kept_trans N s s1 s2 : kept N s s1 -> kept N s1 s2 -> kept N s s2.
Proof.
  intros [F1 S1 R1 U1 G1 M1] [F2 S2 R2 U2 G2 M2]. pose proof (in_function_frames _ _ F1) as I1. split.
  - congruence.
  - apply (grown_trans N _ _ _ _ _ _ S1 S2).
  - intros I E. rewrite E in S1. cbn in S1. destruct (R1 I E) as [A | A], (R2 (eq_trans I1 I) S1) as [B | B]; [left; congruence | right; rewrite <- A; exact B | right; rewrite B; exact A | right; apply (same_trans _ _ _ B A)].
  - intros x N1. rewrite (U2 x N1). apply U1, N1.
  - intros x B H. rewrite (G2 x B); [apply G1; assumption |]. rewrite I1. exact H.
  - intros I. rewrite (M2 (eq_trans I1 I)). apply M1, I.
Qed.
Lemma kept_mono N M s s1 : (forall x, In x N -> In x M) -> kept N s s1 -> kept M s s1.
Proof.
  intros S [F1 S1 R1 U1 G1 M1]. split; auto; [apply (grown_mono N M _ _ _ _ S S1) |]. intros x B [H | H]; apply G1; auto.
Qed.
Lemma kept_world N s w : kept N s (set_world s w).
Proof. split; auto. apply grown_refl. Qed.
Lemma upper_world s w : upper (set_world s w) = upper s.
Proof. reflexivity. Qed.
Lemma update_other (m : vars) x o y : ~ In y [x] -> update m x o y = m y.
Proof. intros N. unfold update. destruct (Nat.eqb_spec y x) as [-> | D]; [exfalso; apply N; left; reflexivity | reflexivity]. Qed.
Lemma update_back (m : vars) x v : same_names (update (update m x (Some v)) x (m x)) m.
Proof. intros y. unfold update. destruct (Nat.eqb_spec y x) as [-> | D]; reflexivity. Qed.
Lemma update_same (m : vars) x v w : m x = Some w -> same_names (update m x (Some v)) m.
Proof. intros E y. unfold update. destruct (Nat.eqb_spec y x) as [-> | D]; [rewrite E; split; discriminate | reflexivity]. Qed.
Lemma kept_define (s : state) x v : kept [x] s (define s x v).
Proof using Type.
  unfold define. destruct (in_function s) eqn:I; cbn [set_locals saves].
  - assert (I2 : forall s2, frames s2 = frames s -> in_function s2 = true) by (intros s2 E; rewrite (in_function_frames _ _ E); exact I).
    destruct (saves s) as [| l r] eqn:E; (split; [reflexivity | | intros J; rewrite I in J; discriminate | | | ]).
    + cbn. rewrite E. reflexivity.
    + intros y N. unfold upper. rewrite I2 by reflexivity. rewrite I. apply update_other, N.
    + reflexivity.
    + reflexivity.
    + rewrite E. exists [(x, locals s x)]. split; [reflexivity |]. split; [intros y o [J | []]; injection J as <- _; left; reflexivity |]. unfold upper. rewrite I2 by reflexivity. rewrite I. apply update_back.
    + intros y N. unfold upper. rewrite I2 by reflexivity. rewrite I. apply update_other, N.
    + reflexivity.
    + reflexivity.
  - destruct (saves s) as [| l r] eqn:E; cbn [set_main saves]; try rewrite E; (split; [reflexivity | | | | | ]).
    + cbn. rewrite E. reflexivity.
    + left. reflexivity.
    + reflexivity.
    + intros y _ [D | N]; [rewrite I in D; discriminate | apply update_other, N].
    + intros J; rewrite I in J; discriminate.
    + rewrite E. exists [(x, main_block s x)]. split; [reflexivity |]. split; [intros y o [J | []]; injection J as <- _; left; reflexivity |]. unfold upper, in_function in *. cbn. rewrite I. apply update_back.
    + intros _ J; rewrite E in J; discriminate.
    + intros y N. unfold upper, in_function in *. cbn. rewrite I. apply update_other, N.
    + reflexivity.
    + intros J; rewrite I in J; discriminate.
Qed.
Lemma kept_assign (s : state) x v s1 : (in_function s = true -> set_by_function x) -> assign s x v = Some s1 -> kept [x] s s1.
Proof using Type.
  intros B. unfold assign. destruct (in_function s) eqn:I.
  - destruct (locals s x) as [u |] eqn:L.
    + intros E. injection E as <-. assert (Up : upper (set_locals s (update (locals s) x (Some v))) = update (locals s) x (Some v) /\ upper s = locals s) by (unfold upper, in_function in *; cbn; rewrite I; auto). destruct Up as [Up Us].
      split; auto; [cbn [set_locals saves]; apply grown_same; rewrite Up, Us; apply (update_same _ x v u L) |]. intros y N. rewrite Up, Us. apply update_other, N.
    + destruct (globals s x) as [u |]; [| discriminate]. intros E. injection E as <-. split; auto; [apply grown_refl |]. intros y S _. cbn. unfold update. destruct (Nat.eqb_spec y x) as [-> | D]; [exfalso; apply S, B; reflexivity | reflexivity].
  - destruct (main_block s x) as [u |] eqn:L.
    + intros E. injection E as <-. assert (Up : upper (set_main s (update (main_block s) x (Some v))) = update (main_block s) x (Some v) /\ upper s = main_block s) by (unfold upper, in_function in *; cbn; rewrite I; auto). destruct Up as [Up Us].
      split; auto; [cbn [set_main saves]; apply grown_same; rewrite Up, Us; apply (update_same _ x v u L) | intros _ _; right; apply (update_same _ x v u L) | | intros J; rewrite I in J; discriminate]. intros y N. rewrite Up, Us. apply update_other, N.
    + destruct (globals s x) as [u |]; [| discriminate]. intros E. injection E as <-. split; auto; [apply grown_refl |]. intros y S [D | N]; [rewrite I in D; discriminate | apply update_other, N].
Qed.
Lemma undo_other N l : forall m x, (forall y o, In (y, o) l -> In y N) -> ~ In x N -> undo l m x = m x.
Proof.
  induction l as [| [y o] l IH]; intros m x H Nx; [reflexivity |]. cbn [undo fold_left fst snd]. change (undo l (update m y o) x = m x). rewrite IH; [| intros z q I; apply (H z q); right; exact I | exact Nx]. unfold update. destruct (Nat.eqb_spec x y) as [-> | D]; [| reflexivity]. exfalso. apply Nx, (H y o). left. reflexivity.
Qed.
(** Leaving a block restores the enclosing ones. *)
Lemma kept_block N s s2 : kept N (push_scope s) s2 -> kept N s (pop_scope s2) /\ saves (pop_scope s2) = saves s.
Proof.
  intros [F1 S1 R1 U1 G1 M1]. cbn [push_scope set_saves saves] in S1. destruct S1 as (e & S1 & He & Sn). rewrite app_nil_r in S1. assert (I1 : in_function s2 = in_function s) by (apply in_function_frames; exact F1).
  unfold pop_scope. rewrite S1. change (upper (push_scope s)) with (upper s) in *. unfold upper in U1, Sn. rewrite I1 in *.
  destruct (in_function s) eqn:I; (split; [| reflexivity]).
  - assert (Up : upper (set_locals (set_saves s2 (saves s)) (undo e (locals s2))) = undo e (locals s2)) by (unfold upper, in_function in *; cbn; rewrite I1; reflexivity). assert (Us : upper s = locals s) by (unfold upper; rewrite I; reflexivity). split.
    + exact F1.
    + cbn [set_locals set_saves saves]. apply grown_same. rewrite Up, Us. exact Sn.
    + congruence.
    + intros x N1. rewrite Up, Us, (undo_other N e _ x He N1). apply U1, N1.
    + intros x B H. apply (G1 x B). left. exact I.
    + intros J. apply (M1 J).
  - assert (Up : upper (set_main (set_saves s2 (saves s)) (undo e (main_block s2))) = undo e (main_block s2)) by (unfold upper, in_function in *; cbn; rewrite I1; reflexivity). assert (Us : upper s = main_block s) by (unfold upper; rewrite I; reflexivity). split.
    + exact F1.
    + cbn [set_main set_saves saves]. apply grown_same. rewrite Up, Us. exact Sn.
    + intros _ _. right. exact Sn.
    + intros x N1. rewrite Up, Us, (undo_other N e _ x He N1). apply U1, N1.
    + intros x B H. apply (G1 x B). right. destruct H as [H | H]; [congruence | exact H].
    + congruence.
Qed.
Lemma define_all_kept ps : forall vs s, kept (map fst ps) s (define_all s ps vs).
Proof.
  induction ps as [| p ps IH]; intros vs s; [destruct vs; apply kept_refl |]. destruct vs as [| v vs]; [apply kept_refl |]. cbn [define_all map]. apply kept_trans with (define s (fst p) v); [apply (kept_mono [fst p]); [intros x [-> | []]; left; reflexivity | apply kept_define] | apply (kept_mono (map fst ps)); [intros x I; right; exact I | apply IH]].
Qed.

Section Step.
Context (ex : list stmt -> state -> outcome flow * state).
Hypothesis IH : forall p s fl s1, (in_function s = true -> forall x, In x (set_targets p) -> set_by_function x) -> ex p s = (Ok fl, s1) -> kept (names p) s s1.
Notation ev := (eval P lookup (call ex)).
Lemma call_kept t vs s v s1 : call ex t vs s = (Ok v, s1) -> kept [] s s1.
Proof.
  unfold FoldStmtModel.call. destruct (F t) as [[ps body] |] eqn:E.
  - destruct (Nat.eqb (length vs) (length ps)); cbn [negb]; [| discriminate]. intros H. apply bind_ok in H as (fl & s2 & H & H2). injection H2 as <- <-. pose proof (define_all_kept ps vs (push_frame s)) as [F1 S1 R1 U1 G1 M1].
    assert (I1 : in_function (define_all (push_frame s) ps vs) = true) by (rewrite (in_function_frames _ _ F1); reflexivity).
    apply IH in H; [| intros _ x I; exists t, ps, body; split; assumption]. destruct H as [F2 S2 R2 U2 G2 M2]. rewrite F1 in F2. cbn [push_frame frames] in F2. unfold pop_frame. rewrite F2.
    assert (Gl : forall x, ~ set_by_function x -> globals s2 x = globals s x) by (intros x B; rewrite (G2 x B (or_introl I1)); rewrite (G1 x B (or_introl eq_refl)); reflexivity). assert (Ma : main_block s2 = main_block s) by (rewrite (M2 I1); apply (M1 eq_refl)).
    assert (Up : upper (State (globals s2) (main_block s2) (locals s) (saves s) (frames s) (world s2)) = upper s) by (unfold upper, in_function; cbn [frames locals main_block]; rewrite Ma; reflexivity).
    split; [reflexivity | rewrite Up; apply grown_refl | intros _ _; left; exact Ma | intros x _; rewrite Up; reflexivity | intros x B _; apply Gl, B | intros _; exact Ma].
  - destruct (ext t vs (world s)) as [r w]. intros H. injection H as _ <-. apply kept_world.
Qed.
Lemma eval_kept e : forall s v s1, ev e s = (Ok v, s1) -> kept [] s s1.
Proof.
  induction e as [l | x | op l r IHl IHr | a IHa | c w IHc IHw | t args IHargs] using expr_ind2; intros s v s1 E.
  - injection E as _ <-. apply kept_refl.
  - cbn [eval] in E. apply (f_equal snd) in E. cbn [snd] in E. subst s1. apply kept_refl.
  - assert (K : forall u s2 w s3, ev l s = (Ok u, s2) -> ev r s2 = (Ok w, s3) -> kept [] s s3) by (intros u s2 w s3 E1 E2; apply kept_trans with s2; [apply (IHl s u s2 E1) | apply (IHr s2 w s3 E2)]).
    destruct op; cbn [eval] in E; apply bind_ok in E as (u & s2 & E1 & E);
      try (apply bind_ok in E as (w & s3 & E2 & E); apply (f_equal snd) in E; cbn [snd] in E; subst s1; apply (K u s2 w s3 E1 E2));
      destruct (truthy P u); try (injection E as _ <-; apply (IHl s u s2 E1)); apply bind_ok in E as (w & s3 & E2 & E); injection E as _ <-; apply (K u s2 w s3 E1 E2).
  - cbn [eval] in E. apply bind_ok in E as (u & s2 & E1 & E). injection E as _ <-. apply (IHa s u s2 E1).
  - cbn [eval] in E. apply bind_ok in E as (u & s2 & E1 & E). apply bind_ok in E as (u' & s3 & E2 & E). apply (f_equal snd) in E. cbn [snd] in E. subst s1. apply kept_trans with s2; [apply (IHc s u s2 E1) | apply (IHw s2 u' s3 E2)].
  - cbn [eval] in E. apply bind_ok in E as (vs & s2 & E1 & E). apply kept_trans with s2; [| apply (call_kept t vs s2 v s1 E)]. clear E. revert s vs s2 E1. induction args as [| e es IHes]; intros s vs s2 E; [injection E as _ <-; apply kept_refl |].
    inversion IHargs as [| ? ? He Hes]; subst. cbn [eval_list] in E. apply bind_ok in E as (u & s3 & E1 & E). apply bind_ok in E as (us & s4 & E2 & E). injection E as _ <-. apply kept_trans with s3; [apply (He s u s3 E1) | apply (IHes Hes s3 us s4 E2)].
Qed.
Lemma list_kept es : forall s vs s1, eval_list ev es s = (Ok vs, s1) -> kept [] s s1.
Proof.
  induction es as [| e es IHes]; intros s vs s1 E; [injection E as _ <-; apply kept_refl |]. cbn [eval_list] in E. apply bind_ok in E as (u & s3 & E1 & E). apply bind_ok in E as (us & s4 & E2 & E). injection E as _ <-. apply kept_trans with s3; [apply (eval_kept e s u s3 E1) | apply (IHes s3 us s4 E2)].
Qed.
Lemma kept_nil N s s1 : kept [] s s1 -> kept N s s1.
Proof. apply kept_mono. intros x []. Qed.
Lemma block_kept b s fl s1 : (in_function s = true -> forall x, In x (set_targets b) -> set_by_function x) -> block ex b s = (Ok fl, s1) -> kept (names b) s s1 /\ saves s1 = saves s.
Proof. intros B E. unfold block in E. apply bind_ok in E as (g & s2 & E & E2). injection E2 as _ <-. apply kept_block, (IH b (push_scope s) g s2 B E). Qed.
Lemma iter_kept x b vs : forall s fl s1, (in_function s = true -> forall x, In x (set_targets b) -> set_by_function x) -> iterate ex x b vs s = (Ok fl, s1) -> kept (x :: names b) s s1.
Proof.
  induction vs as [| v vs IHv]; intros s fl s1 B E; [injection E as _ <-; apply kept_refl |]. cbn [iterate] in E. apply bind_ok in E as (g & s2 & E & E2). pose proof (kept_define s x v) as Kd.
  assert (Bd : in_function (define s x v) = true -> forall y, In y (set_targets b) -> set_by_function y) by (rewrite (in_function_frames _ _ (k_frames _ _ _ Kd)); exact B).
  assert (K2 : kept (x :: names b) s s2) by (apply kept_trans with (define s x v); [apply (kept_mono [x]); [intros y [-> | []]; left; reflexivity | exact Kd] | apply (kept_mono (names b)); [intros y I; right; exact I | apply (block_kept b _ g s2 Bd E)]]).
  destruct g; [| injection E2 as _ <-; exact K2 | injection E2 as _ <-; exact K2]. apply kept_trans with s2; [exact K2 |]. apply (IHv s2 fl s1); [rewrite (in_function_frames _ _ (k_frames _ _ _ K2)); exact B | exact E2].
Qed.
Ltac named := unfold names, binders, set_targets in *; cbn [flat_map binders_of targets_of] in *; repeat rewrite ?app_nil_r, ?in_app_iff in *; cbn [In] in *.
Lemma stmt_kept st s fl s1 : (in_function s = true -> forall x, In x (set_targets [st]) -> set_by_function x) -> exec_stmt ex st s = (Ok fl, s1) -> kept (names [st]) s s1.
Proof.
  intros B E. destruct st as [x ann mut e | x e | c t f | c b | x e b | e | | e | t args]; cbn [FoldStmtModel.exec_stmt] in E.
  - apply bind_ok in E as (v & s2 & E & E2). injection E2 as _ <-. apply kept_trans with s2; [apply kept_nil, (eval_kept e s v s2 E) | apply kept_define].
  - apply bind_ok in E as (v & s2 & E & E2). destruct (assign s2 x v) as [s3 |] eqn:A; [| discriminate]. injection E2 as _ <-. pose proof (eval_kept e s v s2 E) as K. apply kept_trans with s2; [apply kept_nil, K |]. apply (kept_assign s2 x v s3); [| exact A]. intros I. apply B; [rewrite <- (in_function_frames _ _ (k_frames _ _ _ K)); exact I | left; reflexivity].
  - apply bind_ok in E as (v & s2 & E & E2). pose proof (eval_kept c s v s2 E) as K. apply kept_trans with s2; [apply kept_nil, K |].
    assert (Bt : in_function s2 = true -> forall y, In y (set_targets t) -> set_by_function y) by (rewrite (in_function_frames _ _ (k_frames _ _ _ K)); intros I y Iy; apply (B I); named; tauto).
    destruct (truthy P v).
    + apply (kept_mono (names t)); [| apply (block_kept t s2 fl s1 Bt E2)]. intros y Iy. named. tauto.
    + destruct f as [f |]; [| injection E2 as _ <-; apply kept_refl]. assert (Bf : in_function s2 = true -> forall y, In y (set_targets f) -> set_by_function y) by (rewrite (in_function_frames _ _ (k_frames _ _ _ K)); intros I y Iy; apply (B I); named; tauto).
      apply (kept_mono (names f)); [| apply (block_kept f s2 fl s1 Bf E2)]. intros y Iy. named. tauto.
  - apply bind_ok in E as (v & s2 & E & E2). pose proof (eval_kept c s v s2 E) as K. apply kept_trans with s2; [apply kept_nil, K |]. destruct (truthy P v); [| injection E2 as _ <-; apply kept_refl].
    assert (Bb : in_function s2 = true -> forall y, In y (set_targets b) -> set_by_function y) by (rewrite (in_function_frames _ _ (k_frames _ _ _ K)); intros I y Iy; apply (B I); named; tauto).
    apply bind_ok in E2 as (g & s3 & E2 & E3). assert (K3 : kept (names [SWhile c b]) s2 s3) by (apply (kept_mono (names b)); [intros y Iy; named; tauto | apply (block_kept b s2 g s3 Bb E2)]).
    destruct g; [| injection E3 as _ <-; exact K3 | injection E3 as _ <-; exact K3]. apply kept_trans with s3; [exact K3 |]. apply (IH [SWhile c b] s3 fl s1); [| exact E3]. rewrite (in_function_frames _ _ (k_frames _ _ _ K3)), (in_function_frames _ _ (k_frames _ _ _ K)). exact B.
  - apply bind_ok in E as (v & s2 & E & E2). pose proof (eval_kept e s v s2 E) as K. apply kept_trans with s2; [apply kept_nil, K |]. destruct (items v) as [vs |]; [| discriminate]. apply bind_ok in E2 as (g & s3 & E2 & E3). injection E3 as _ <-.
    assert (Bb : in_function (push_scope s2) = true -> forall y, In y (set_targets b) -> set_by_function y) by (change (in_function (push_scope s2)) with (in_function s2); rewrite (in_function_frames _ _ (k_frames _ _ _ K)); intros I y Iy; apply (B I); named; tauto).
    apply (kept_mono (x :: names b)); [| apply (kept_block (x :: names b) s2 s3), (iter_kept x b vs (push_scope s2) g s3 Bb E2)]. intros y Iy. named. destruct Iy as [-> | Iy]; [left; left; reflexivity |]. named. cbn [In]. tauto.
  - destruct e as [e |]; [apply bind_ok in E as (v & s2 & E & E2); injection E2 as _ <-; apply kept_nil, (eval_kept e s v s2 E) | injection E as _ <-; apply kept_refl].
  - injection E as _ <-. apply kept_refl.
  - apply bind_ok in E as (v & s2 & E & E2). injection E2 as _ <-. apply kept_trans with s2; [apply kept_nil, (eval_kept e s v s2 E) | apply kept_world].
  - apply bind_ok in E as (vs & s2 & E & E2). apply bind_ok in E2 as (u & s3 & E2 & E3). injection E3 as _ <-. apply kept_nil, kept_trans with s2; [apply (list_kept args s vs s2 E) | apply (call_kept t vs s2 u s3 E2)].
Qed.
End Step.
Lemma exec_kept n : forall p s fl s1, (in_function s = true -> forall x, In x (set_targets p) -> set_by_function x) -> exec n p s = (Ok fl, s1) -> kept (names p) s s1.
Proof.
  induction n as [| n IH]; intros p s fl s1 B E; [discriminate |]. destruct p as [| st rest]; [injection E as _ <-; apply kept_refl |]. cbn [FoldStmtModel.exec] in E. apply bind_ok in E as (g & s2 & E & E2).
  assert (K : kept (names (st :: rest)) s s2).
  { apply (kept_mono (names [st])); [| apply (stmt_kept (exec n) IH st s g s2); [| exact E]]; unfold names, binders, set_targets in *; cbn [flat_map] in *.
    - intros x. rewrite !app_nil_r, !in_app_iff. tauto.
    - intros I x. rewrite app_nil_r. intros Ix. apply (B I), in_app_iff. left. exact Ix. }
  destruct g; [| injection E2 as _ <-; exact K | injection E2 as _ <-; exact K]. apply kept_trans with s2; [exact K |]. apply (kept_mono (names rest)); [unfold names, binders, set_targets; cbn [flat_map]; intros x; rewrite !in_app_iff; tauto |].
  apply (IH rest s2 fl s1); [| exact E2]. rewrite (in_function_frames _ _ (k_frames _ _ _ K)). intros I x Ix. apply (B I). unfold set_targets. cbn [flat_map]. apply in_app_iff. right. exact Ix.
Qed.
End Frame.
