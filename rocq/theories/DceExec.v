(** Executions that end well: more fuel changes nothing, lists run in sequence, and a block without bindings runs alike
    with and without a scope of its own. *)
From Coq Require Import ZArith List Bool Lia.
From Verif Require Import FoldModel FoldProofs FoldMain FoldStmtModel DceModel.
Import ListNotations.
Local Open Scope nat_scope.

Section Exec.
Context {W : Type} (P : prims) (items : value -> option (list value)) (ext : nat -> list value -> W -> outcome value * W) (show : value -> W -> W).
Notation state := (state W).
Notation exec F := (FoldStmtModel.exec P items ext show F). Notation exec_stmt ex F := (FoldStmtModel.exec_stmt P items ext show ex F). Notation call ex F := (FoldStmtModel.call ext ex F).
Notation ev ex F := (eval P lookup (call ex F)).

(** ** More fuel *)
Section Mono.
Context (F : nat -> option func) (ex1 ex2 : list stmt -> state -> outcome flow * state).
Hypothesis le : forall p s fl s1, ex1 p s = (Ok fl, s1) -> ex2 p s = (Ok fl, s1).
Lemma call_mono t vs s v s1 : call ex1 F t vs s = (Ok v, s1) -> call ex2 F t vs s = (Ok v, s1).
Proof.
  unfold FoldStmtModel.call. destruct (F t) as [[ps body] |]; [| auto]. destruct (negb (Nat.eqb (length vs) (length ps))); [auto |]. intros E. apply bind_ok in E as (fl & s2 & E & E2). rewrite (le _ _ _ _ E). exact E2.
Qed.
End Mono.
(** Transfer along a correspondence of calls. *)
Section Transfer.
Context (o1 o2 : nat -> list value -> state -> outcome value * state).
Hypothesis T : forall t vs s v s1, o1 t vs s = (Ok v, s1) -> o2 t vs s = (Ok v, s1).
Lemma eval_transfer e : forall s v s1, eval P lookup o1 e s = (Ok v, s1) -> eval P lookup o2 e s = (Ok v, s1).
Proof.
  induction e as [l | x | op l r IHl IHr | a IHa | c w IHc IHw | t args IH] using expr_ind2; intros s v s1 E; try exact E.
  - destruct op; cbn [eval] in *; apply bind_ok in E as (u & s2 & E1 & E); rewrite (IHl _ _ _ E1); cbn [bind];
      try (apply bind_ok in E as (w & s3 & E2 & E); rewrite (IHr _ _ _ E2); exact E); destruct (truthy P u); try exact E; apply bind_ok in E as (w & s3 & E2 & E); rewrite (IHr _ _ _ E2); exact E.
  - cbn [eval] in *. apply bind_ok in E as (u & s2 & E1 & E). rewrite (IHa _ _ _ E1). exact E.
  - cbn [eval] in *. apply bind_ok in E as (u & s2 & E1 & E). rewrite (IHc _ _ _ E1). cbn [bind]. apply bind_ok in E as (w' & s3 & E2 & E). rewrite (IHw _ _ _ E2). exact E.
  - cbn [eval] in *. apply bind_ok in E as (vs & s2 & E1 & E). assert (L : eval_list (eval P lookup o2) args s = (Ok vs, s2)).
    { clear E. revert s vs s2 E1. induction args as [| e es IHes]; intros s vs s2 E; [exact E |]. inversion IH as [| ? ? He Hes]; subst. cbn [eval_list] in *. apply bind_ok in E as (u & s3 & E1 & E). rewrite (He _ _ _ E1). cbn [bind]. apply bind_ok in E as (us & s4 & E2 & E). rewrite (IHes Hes _ _ _ E2). exact E. }
    rewrite L. cbn [bind]. apply T, E.
Qed.
Lemma list_transfer es : forall s vs s1, eval_list (eval P lookup o1) es s = (Ok vs, s1) -> eval_list (eval P lookup o2) es s = (Ok vs, s1).
Proof.
  induction es as [| e es IH]; intros s vs s1 E; [exact E |]. cbn [eval_list] in *. apply bind_ok in E as (u & s3 & E1 & E). rewrite (eval_transfer _ _ _ _ E1). cbn [bind]. apply bind_ok in E as (us & s4 & E2 & E). rewrite (IH _ _ _ E2). exact E.
Qed.
End Transfer.
Section Mono2.
Context (F : nat -> option func) (ex1 ex2 : list stmt -> state -> outcome flow * state).
Hypothesis le : forall p s fl s1, ex1 p s = (Ok fl, s1) -> ex2 p s = (Ok fl, s1).
Lemma block_mono b s fl s1 : block ex1 b s = (Ok fl, s1) -> block ex2 b s = (Ok fl, s1).
Proof. unfold block. intros E. apply bind_ok in E as (g & s2 & E & E2). rewrite (le _ _ _ _ E). exact E2. Qed.
Lemma iter_mono x b vs : forall s fl s1, iterate ex1 x b vs s = (Ok fl, s1) -> iterate ex2 x b vs s = (Ok fl, s1).
Proof.
  induction vs as [| v vs IH]; intros s fl s1 E; [exact E |]. cbn [iterate] in *. apply bind_ok in E as (g & s2 & E & E2). rewrite (block_mono _ _ _ _ E). cbn [bind]. destruct g; auto.
Qed.
Lemma stmt_mono st s fl s1 : exec_stmt ex1 F st s = (Ok fl, s1) -> exec_stmt ex2 F st s = (Ok fl, s1).
Proof.
  assert (T : forall t vs s v s1, call ex1 F t vs s = (Ok v, s1) -> call ex2 F t vs s = (Ok v, s1)) by (intros t vs s0 v s2; apply (call_mono F ex1 ex2 le)).
  destruct st as [x ann mut e | x e | c t f | c b | x e b | e | | e | t args]; cbn [FoldStmtModel.exec_stmt]; intros E.
  - apply bind_ok in E as (v & s2 & E & E2). rewrite (eval_transfer _ _ T _ _ _ _ E). exact E2.
  - apply bind_ok in E as (v & s2 & E & E2). rewrite (eval_transfer _ _ T _ _ _ _ E). exact E2.
  - apply bind_ok in E as (v & s2 & E & E2). rewrite (eval_transfer _ _ T _ _ _ _ E). cbn [bind]. destruct (truthy P v); [apply block_mono, E2 |]. destruct f; [apply block_mono, E2 | exact E2].
  - apply bind_ok in E as (v & s2 & E & E2). rewrite (eval_transfer _ _ T _ _ _ _ E). cbn [bind]. destruct (truthy P v); [| exact E2]. apply bind_ok in E2 as (g & s3 & E2 & E3). rewrite (block_mono _ _ _ _ E2). cbn [bind]. destruct g; auto.
  - apply bind_ok in E as (v & s2 & E & E2). rewrite (eval_transfer _ _ T _ _ _ _ E). cbn [bind]. destruct (items v); [| exact E2]. apply bind_ok in E2 as (g & s3 & E2 & E3). rewrite (iter_mono _ _ _ _ _ _ E2). exact E3.
  - destruct e as [e |]; [| exact E]. apply bind_ok in E as (v & s2 & E & E2). rewrite (eval_transfer _ _ T _ _ _ _ E). exact E2.
  - exact E.
  - apply bind_ok in E as (v & s2 & E & E2). rewrite (eval_transfer _ _ T _ _ _ _ E). exact E2.
  - apply bind_ok in E as (vs & s2 & E & E2). rewrite (list_transfer _ _ T _ _ _ _ E). cbn [bind]. apply bind_ok in E2 as (u & s3 & E2 & E3). rewrite (T _ _ _ _ _ E2). exact E3.
Qed.
End Mono2.
Lemma exec_more F n : forall p s fl s1, exec F n p s = (Ok fl, s1) -> exec F (S n) p s = (Ok fl, s1).
Proof.
  induction n as [| n IH]; intros p s fl s1 E; [discriminate |]. destruct p as [| st rest]; [exact E |]. change (bind (exec_stmt (exec F (S n)) F st s) (fun fl s1 => match fl with Next => exec F (S n) rest s1 | _ => (Ok fl, s1) end) = (Ok fl, s1)). cbn [FoldStmtModel.exec] in E. apply bind_ok in E as (g & s2 & E & E2).
  rewrite (stmt_mono F (exec F n) (exec F (S n)) IH _ _ _ _ E). cbn [bind]. destruct g; auto.
Qed.
Lemma exec_mono F n m p s fl s1 : (n <= m)%nat -> exec F n p s = (Ok fl, s1) -> exec F m p s = (Ok fl, s1).
Proof. intros L. induction L as [| m L IH]; [auto |]. intros E. apply exec_more, IH, E. Qed.

(** ** Sequences *)
Lemma exec_app F n : forall p q s s1 m fl s2, exec F n p s = (Ok Next, s1) -> exec F m q s1 = (Ok fl, s2) -> exec F (n + m)%nat (p ++ q) s = (Ok fl, s2).
Proof.
  induction n as [| n IH]; intros p q s s1 m fl s2 E1 E2; [discriminate |]. destruct p as [| st rest]; [injection E1 as <-; apply (exec_mono F m); [lia | exact E2] |].
  cbn [FoldStmtModel.exec Nat.add app] in *. apply bind_ok in E1 as (g & s3 & E1 & E3). rewrite (stmt_mono F (exec F n) (exec F (n + m)%nat)) with (fl := g) (s1 := s3); [| intros p0 s0 fl0 s4; apply exec_mono; lia | exact E1]. cbn [bind]. destruct g; try discriminate. apply (IH rest q s3 s1 m fl s2 E3 E2).
Qed.
Lemma exec_app_stop F n : forall p q s fl s1, exec F n p s = (Ok fl, s1) -> fl <> Next -> exec F n (p ++ q) s = (Ok fl, s1).
Proof.
  induction n as [| n IH]; intros p q s fl s1 E N; [discriminate |]. destruct p as [| st rest]; [injection E as <- <-; contradiction |]. cbn [FoldStmtModel.exec app] in *. apply bind_ok in E as (g & s3 & E1 & E3). rewrite E1. cbn [bind]. destruct g; auto.
Qed.
Lemma exec_trunc F n : forall p s, exec F n (trunc p) s = exec F n p s.
Proof.
  induction n as [| n IH]; intros p s; [reflexivity |]. destruct p as [| st rest]; [reflexivity |].
  assert (K : (exists e, st = SReturn e) \/ trunc (st :: rest) = st :: trunc rest) by (destruct st; eauto). destruct K as [[e ->] | ->].
  - cbn [trunc FoldStmtModel.exec]. destruct (exec_stmt (exec F n) F (SReturn e) s) as [[g | |] s1] eqn:E; cbn [bind]; try reflexivity. destruct g; try reflexivity. exfalso. cbn [FoldStmtModel.exec_stmt] in E. destruct e as [e |]; [| discriminate]. apply bind_ok in E as (v & s2 & _ & E). discriminate.
  - cbn [FoldStmtModel.exec]. destruct (exec_stmt (exec F n) F st s) as [[g | |] s1]; cbn [bind]; try reflexivity. destruct g; try reflexivity. apply IH.
Qed.

(** ** A block without bindings of its own needs no scope *)
Definition no_let (p : list stmt) : Prop := Forall (fun st => match st with SLet _ _ _ _ => False | _ => True end) p.
Section Wide.
Context (base : list (list (nat * option value))) (depth : nat).
(** The second state has one more, empty, undo log than the first, [k] logs from the top, in the frame [j] calls down. *)
Inductive wide : nat -> nat -> state -> state -> Prop :=
  | wide_here g mb lo l fr w : wide (length l) 0 (State g mb lo (l ++ base) fr w) (State g mb lo (l ++ [] :: base) fr w)
  | wide_deep g mb lo sv f loc l fr w : wide (length l) (S (length f)) (State g mb lo sv (f ++ (loc, l ++ base) :: fr) w) (State g mb lo sv (f ++ (loc, l ++ [] :: base) :: fr) w).
Lemma deep_function g mb lo sv (f : list (vars * list (list (nat * option value)))) x fr w : in_function (State g mb lo sv (f ++ x :: fr) w : state) = true.
Proof. destruct f; reflexivity. Qed.
Lemma wide_function k j s s' : wide k j s s' -> in_function s' = in_function s.
Proof. intros H. destruct H; [reflexivity |]. unfold in_function. cbn. destruct f; reflexivity. Qed.
Lemma wide_look k j s s' x : wide k j s s' -> lookup s' x = lookup s x.
Proof. intros H. unfold lookup. rewrite (wide_function _ _ _ _ H). destruct H; reflexivity. Qed.
Lemma wide_world k j s s' : wide k j s s' -> world s' = world s.
Proof. intros H. destruct H; reflexivity. Qed.
Lemma wide_set_world k j s s' w : wide k j s s' -> wide k j (set_world s w) (set_world s' w).
Proof. intros H. destruct H; constructor. Qed.
Lemma wide_push k j s s' : wide k j s s' -> wide (match j with O => S k | _ => k end) j (push_scope s) (push_scope s').
Proof. intros H. destruct H; [apply (wide_here g mb lo ([] :: l)) | constructor]. Qed.
Lemma wide_pop k j s s' : wide k j s s' -> (j = O -> k <> O) -> wide (match j with O => pred k | _ => k end) j (pop_scope s) (pop_scope s').
Proof.
  intros H N. pose proof (wide_function _ _ _ _ H) as IF. destruct H.
  - destruct l as [| e l]; [exfalso; apply (N eq_refl eq_refl) |]. unfold pop_scope. rewrite IF. cbn [saves app]. destruct (in_function _); constructor.
  - unfold pop_scope. rewrite !deep_function. cbn [saves]. destruct sv as [| e sv]; constructor.
Qed.
Lemma wide_define k j s s' x v : wide k j s s' -> (j = O -> k <> O) -> wide k j (define s x v) (define s' x v).
Proof.
  intros H N. pose proof (wide_function _ _ _ _ H) as IF. destruct H.
  - destruct l as [| e l]; [exfalso; apply (N eq_refl eq_refl) |]. unfold define. rewrite IF. cbn [saves app set_locals set_main]. destruct (in_function _); apply (wide_here _ _ _ (((_, _) :: e) :: l)).
  - unfold define. rewrite !deep_function. cbn [saves set_locals]. destruct sv; constructor.
Qed.
Lemma wide_assign k j s s' x v s1' : wide k j s s' -> assign s' x v = Some s1' -> exists s1, assign s x v = Some s1 /\ wide k j s1 s1'.
Proof.
  intros H. pose proof (wide_function _ _ _ _ H) as IF. unfold assign. rewrite IF. clear IF. cbv zeta. intros E. destruct H; cbn [locals globals main_block] in *; rewrite ?deep_function in *; [destruct (in_function _); [destruct (lo x) | destruct (mb x)] | destruct (lo x)];
    try (injection E as <-; eexists; (split; [reflexivity | constructor])); (destruct (g x); [| discriminate]); injection E as <-; eexists; (split; [reflexivity | constructor]).
Qed.
Lemma wide_push_frame k j s s' : wide k j s s' -> wide k (S j) (push_frame s) (push_frame s').
Proof. intros H. destruct H; [apply (wide_deep _ _ _ _ []) | apply (wide_deep _ _ _ _ ((_, _) :: f))]. Qed.
Lemma wide_pop_frame k j s s' : wide k (S j) s s' -> wide k j (pop_frame s) (pop_frame s').
Proof. intros H. inversion H; subst. destruct f as [| [lo0 sv0] f]; unfold pop_frame; cbn [frames app length]; constructor. Qed.
Lemma wide_define_all ps : forall vs k j s s', wide k (S j) s s' -> wide k (S j) (define_all s ps vs) (define_all s' ps vs).
Proof. induction ps as [| p ps IH]; intros vs k j s s' H; [exact H |]. destruct vs as [| v vs]; [exact H |]. cbn [define_all]. apply IH, wide_define; [exact H | discriminate]. Qed.
Context (F : nat -> option func).
Section Step.
Context (ex : list stmt -> state -> outcome flow * state).
Hypothesis IH : forall p k j s s' fl s1', wide k j s s' -> ((j = O -> k <> O) \/ no_let p) -> ex p s' = (Ok fl, s1') -> exists s1, ex p s = (Ok fl, s1) /\ wide k j s1 s1'.
Lemma wide_call k j s s' t vs v s1' : wide k j s s' -> call ex F t vs s' = (Ok v, s1') -> exists s1, call ex F t vs s = (Ok v, s1) /\ wide k j s1 s1'.
Proof.
  intros H. unfold FoldStmtModel.call. destruct (F t) as [[ps body] |].
  - destruct (negb (Nat.eqb (length vs) (length ps))); [discriminate |]. intros E. apply bind_ok in E as (fl & s2' & E & E2). injection E2 as <- <-.
    destruct (IH body k (S j) (define_all (push_frame s) ps vs) (define_all (push_frame s') ps vs) fl s2') as (s2 & E2 & H2); [apply wide_define_all, wide_push_frame, H | left; discriminate | exact E |]. rewrite E2. cbn [bind]. eexists. split; [reflexivity | apply wide_pop_frame, H2].
  - rewrite (wide_world _ _ _ _ H). destruct (ext t vs (world s)) as [r w]. intros E. injection E as -> <-. eexists. split; [reflexivity | apply wide_set_world, H].
Qed.
Lemma wide_eval e : forall k j s s' v s1', wide k j s s' -> ev ex F e s' = (Ok v, s1') -> exists s1, ev ex F e s = (Ok v, s1) /\ wide k j s1 s1'.
Proof.
  induction e as [l | x | op l r IHl IHr | a IHa | c w IHc IHw | t args IHa] using expr_ind2; intros k j s s' v s1' H E.
  - injection E as <- <-. eexists. split; [reflexivity | exact H].
  - cbn [eval] in *. rewrite (wide_look _ _ _ _ x H) in E. destruct (lookup s x); [| discriminate]. injection E as <- <-. eexists. split; [reflexivity | exact H].
  - destruct op; cbn [eval] in *; apply bind_ok in E as (u & s2' & E1 & E); destruct (IHl _ _ _ _ _ _ H E1) as (s2 & L1 & H2); rewrite L1; cbn [bind];
      try (apply bind_ok in E as (w & s3' & E2 & E); destruct (IHr _ _ _ _ _ _ H2 E2) as (s3 & L2 & H3); rewrite L2; cbn [bind]; destruct (binary_op P _ u w); [| discriminate]; cbn [of_option] in *; injection E as <- <-; eexists; (split; [reflexivity | exact H3]));
      destruct (truthy P u); try (injection E as <- <-; eexists; split; [reflexivity | exact H2]); apply bind_ok in E as (w & s3' & E2 & E); destruct (IHr _ _ _ _ _ _ H2 E2) as (s3 & L2 & H3); rewrite L2; cbn [bind]; injection E as <- <-; eexists; (split; [reflexivity | exact H3]).
  - cbn [eval] in *. apply bind_ok in E as (u & s2' & E1 & E). destruct (IHa _ _ _ _ _ _ H E1) as (s2 & L1 & H2). rewrite L1. injection E as <- <-. eexists. split; [reflexivity | exact H2].
  - cbn [eval] in *. apply bind_ok in E as (u & s2' & E1 & E). destruct (IHc _ _ _ _ _ _ H E1) as (s2 & L1 & H2). rewrite L1. cbn [bind]. apply bind_ok in E as (w' & s3' & E2 & E). destruct (IHw _ _ _ _ _ _ H2 E2) as (s3 & L2 & H3). rewrite L2. cbn [bind].
    destruct (contains P u w'); [| discriminate]. cbn [option_map of_option] in *. injection E as <- <-. eexists. split; [reflexivity | exact H3].
  - cbn [eval] in *. apply bind_ok in E as (vs & s2' & E1 & E). assert (L : exists s2, eval_list (ev ex F) args s = (Ok vs, s2) /\ wide k j s2 s2').
    { clear E. revert s s' vs s2' H E1. induction args as [| e es IHes]; intros s s' vs s2' H E; [injection E as <- <-; eexists; split; [reflexivity | exact H] |]. inversion IHa as [| ? ? He Hes]; subst. cbn [eval_list] in *. apply bind_ok in E as (u & s3' & E1 & E). destruct (He _ _ _ _ _ _ H E1) as (s3 & L1 & H3). rewrite L1. cbn [bind]. apply bind_ok in E as (us & s4' & E2 & E). destruct (IHes Hes _ _ _ _ H3 E2) as (s4 & L2 & H4). rewrite L2. injection E as <- <-. eexists. split; [reflexivity | exact H4]. }
    destruct L as (s2 & L & H2). rewrite L. cbn [bind]. apply (wide_call _ _ _ _ _ _ _ _ H2 E).
Qed.
Lemma wide_list es : forall k j s s' vs s1', wide k j s s' -> eval_list (ev ex F) es s' = (Ok vs, s1') -> exists s1, eval_list (ev ex F) es s = (Ok vs, s1) /\ wide k j s1 s1'.
Proof.
  induction es as [| e es IHes]; intros k j s s' vs s1' H E; [injection E as <- <-; eexists; split; [reflexivity | exact H] |]. cbn [eval_list] in *. apply bind_ok in E as (u & s3' & E1 & E). destruct (wide_eval _ _ _ _ _ _ _ H E1) as (s3 & L1 & H3). rewrite L1. cbn [bind]. apply bind_ok in E as (us & s4' & E2 & E). destruct (IHes _ _ _ _ _ _ H3 E2) as (s4 & L2 & H4). rewrite L2. injection E as <- <-. eexists. split; [reflexivity | exact H4].
Qed.
Lemma wide_block b k j s s' fl s1' : wide k j s s' -> block ex b s' = (Ok fl, s1') -> exists s1, block ex b s = (Ok fl, s1) /\ wide k j s1 s1'.
Proof.
  intros H E. unfold block in *. apply bind_ok in E as (g & s2' & E & E2). injection E2 as <- <-. destruct (IH b _ _ _ _ g s2' (wide_push _ _ _ _ H)) as (s2 & L & H2); [left; intros ->; discriminate | exact E |]. rewrite L. cbn [bind]. eexists. split; [reflexivity |].
  apply wide_pop in H2; [| intros ->; discriminate]. destruct j; exact H2.
Qed.
Lemma wide_iter x b vs : forall k j s s' fl s1', wide k j s s' -> (j = O -> k <> O) -> iterate ex x b vs s' = (Ok fl, s1') -> exists s1, iterate ex x b vs s = (Ok fl, s1) /\ wide k j s1 s1'.
Proof.
  induction vs as [| v vs IHv]; intros k j s s' fl s1' H N E; [injection E as <- <-; eexists; split; [reflexivity | exact H] |]. cbn [iterate] in *. apply bind_ok in E as (g & s2' & E & E2). destruct (wide_block _ _ _ _ _ _ _ (wide_define _ _ _ _ x v H N) E) as (s2 & L & H2). rewrite L. cbn [bind].
  destruct g; [apply (IHv _ _ _ _ _ _ H2 N E2) | injection E2 as <- <-; eexists; split; [reflexivity | exact H2] | injection E2 as <- <-; eexists; split; [reflexivity | exact H2]].
Qed.
Lemma wide_stmt st k j s s' fl s1' : wide k j s s' -> ((j = O -> k <> O) \/ match st with SLet _ _ _ _ => False | _ => True end) -> exec_stmt ex F st s' = (Ok fl, s1') -> exists s1, exec_stmt ex F st s = (Ok fl, s1) /\ wide k j s1 s1'.
Proof.
  intros H N E. destruct st as [x ann mut e | x e | c t f | c b | x e b | e | | e | t args]; cbn [FoldStmtModel.exec_stmt] in *.
  - apply bind_ok in E as (v & s2' & E & E2). destruct (wide_eval _ _ _ _ _ _ _ H E) as (s2 & L & H2). rewrite L. cbn [bind]. injection E2 as <- <-. eexists. split; [reflexivity |]. apply wide_define; [exact H2 | destruct N as [N | []]; exact N].
  - apply bind_ok in E as (v & s2' & E & E2). destruct (wide_eval _ _ _ _ _ _ _ H E) as (s2 & L & H2). rewrite L. cbn [bind]. destruct (assign s2' x v) as [s3' |] eqn:A; [| discriminate]. injection E2 as <- <-. destruct (wide_assign _ _ _ _ _ _ _ H2 A) as (s3 & A3 & H3). rewrite A3. eexists. split; [reflexivity | exact H3].
  - apply bind_ok in E as (v & s2' & E & E2). destruct (wide_eval _ _ _ _ _ _ _ H E) as (s2 & L & H2). rewrite L. cbn [bind]. destruct (truthy P v); [apply (wide_block _ _ _ _ _ _ _ H2 E2) |]. destruct f as [f |]; [apply (wide_block _ _ _ _ _ _ _ H2 E2) |]. injection E2 as <- <-. eexists. split; [reflexivity | exact H2].
  - apply bind_ok in E as (v & s2' & E & E2). destruct (wide_eval _ _ _ _ _ _ _ H E) as (s2 & L & H2). rewrite L. cbn [bind]. destruct (truthy P v); [| injection E2 as <- <-; eexists; split; [reflexivity | exact H2]]. apply bind_ok in E2 as (g & s3' & E2 & E3). destruct (wide_block _ _ _ _ _ _ _ H2 E2) as (s3 & L3 & H3). rewrite L3. cbn [bind].
    destruct g; [| injection E3 as <- <-; eexists; split; [reflexivity | exact H3] | injection E3 as <- <-; eexists; split; [reflexivity | exact H3]]. apply (IH [SWhile c b] _ _ _ _ _ _ H3); [right; repeat constructor | exact E3].
  - apply bind_ok in E as (v & s2' & E & E2). destruct (wide_eval _ _ _ _ _ _ _ H E) as (s2 & L & H2). rewrite L. cbn [bind]. destruct (items v) as [vs |]; [| discriminate]. apply bind_ok in E2 as (g & s3' & E2 & E3). injection E3 as <- <-.
    destruct (wide_iter x b vs _ _ _ _ g s3' (wide_push _ _ _ _ H2)) as (s3 & L3 & H3); [intros ->; discriminate | exact E2 |]. rewrite L3. cbn [bind]. eexists. split; [reflexivity |]. apply wide_pop in H3; [| intros ->; discriminate]. destruct j; exact H3.
  - destruct e as [e |]; [| injection E as <- <-; eexists; split; [reflexivity | exact H]]. apply bind_ok in E as (v & s2' & E & E2). destruct (wide_eval _ _ _ _ _ _ _ H E) as (s2 & L & H2). rewrite L. injection E2 as <- <-. eexists. split; [reflexivity | exact H2].
  - injection E as <- <-. eexists. split; [reflexivity | exact H].
  - apply bind_ok in E as (v & s2' & E & E2). destruct (wide_eval _ _ _ _ _ _ _ H E) as (s2 & L & H2). rewrite L. injection E2 as <- <-. rewrite (wide_world _ _ _ _ H2). eexists. split; [reflexivity | apply wide_set_world, H2].
  - apply bind_ok in E as (vs & s2' & E & E2). destruct (wide_list _ _ _ _ _ _ _ H E) as (s2 & L & H2). rewrite L. cbn [bind]. apply bind_ok in E2 as (u & s3' & E2 & E3). destruct (wide_call _ _ _ _ _ _ _ _ H2 E2) as (s3 & L3 & H3). rewrite L3. injection E3 as <- <-. eexists. split; [reflexivity | exact H3].
Qed.
End Step.
Lemma wide_exec n : forall p k j s s' fl s1', wide k j s s' -> ((j = O -> k <> O) \/ no_let p) -> exec F n p s' = (Ok fl, s1') -> exists s1, exec F n p s = (Ok fl, s1) /\ wide k j s1 s1'.
Proof.
  induction n as [| n IH]; intros p k j s s' fl s1' H N E; [discriminate |]. destruct p as [| st rest]; [injection E as <- <-; eexists; split; [reflexivity | exact H] |]. cbn [FoldStmtModel.exec] in *. apply bind_ok in E as (g & s2' & E & E2).
  destruct (wide_stmt (exec F n) IH st k j s s' g s2' H) as (s2 & L & H2); [destruct N as [N | N]; [left; exact N | right; inversion N; assumption] | exact E |]. rewrite L. cbn [bind].
  destruct g; [| injection E2 as <- <-; eexists; split; [reflexivity | exact H2] | injection E2 as <- <-; eexists; split; [reflexivity | exact H2]]. apply (IH rest k j s2 s2' fl s1' H2); [destruct N as [N | N]; [left; exact N | right; inversion N; assumption] | exact E2].
Qed.
End Wide.
Lemma unscoped F n b s fl s1 : no_let b -> block (exec F n) b s = (Ok fl, s1) -> exec F n b s = (Ok fl, s1).
Proof.
  intros N E. unfold block in E. apply bind_ok in E as (g & s2 & E & E2). injection E2 as <- <-. destruct s as [g0 mb lo sv fr w].
  destruct (wide_exec sv F n b 0 0 (State g0 mb lo sv fr w) (push_scope (State g0 mb lo sv fr w)) g s2 (wide_here sv g0 mb lo [] fr w) (or_intror N) E) as (s3 & L & H). rewrite L. f_equal. inversion H as [g1 mb1 lo1 l fr1 w1 El Ej Es Es' |]; subst. destruct l; [| discriminate]. unfold pop_scope. cbn [saves app in_function]. unfold in_function. cbn [frames]. destruct fr1; reflexivity. lia.
Qed.
End Exec.
