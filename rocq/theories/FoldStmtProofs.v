(** Folding statements keeps every regular execution. *)
From Coq Require Import ZArith List Bool Lia.
From Verif Require Import FoldModel FoldProofs FoldMain FoldStmtModel.
Import ListNotations.

Section A.
Context {W : Type} (P : prims) (items : value -> option (list value)) (ext : nat -> list value -> W -> outcome value * W) (show : value -> W -> W) (fb : list (nat * bool) -> list stmt -> nat -> bool).
Notation state := (state W).
Notation exec := (exec P items ext show). Notation exec_stmt := (exec_stmt P items ext show). Notation call := (call ext).
Section Reg.
Context (ex : list stmt -> state -> outcome flow * state) (rg : (nat -> bool) -> list stmt -> state -> Prop) (F : nat -> option func).
(** A call is regular when the body of the function runs regularly, with the booleans [fb] of the function. *)
Definition reg_call (t : nat) (vs : list value) (s : state) : Prop :=
  match F t with None => True | Some (ps, body) => length vs = length ps -> rg (fb ps body) body (define_all (push_frame s) ps vs) end.
Fixpoint reg_iter (bools : nat -> bool) (x : nat) (b : list stmt) (vs : list value) (s : state) : Prop :=
  match vs with [] => True | v :: vs => rg bools b (push_scope (define s x v)) /\ forall s1, block ex b (define s x v) = (Ok Next, s1) -> reg_iter bools x b vs s1 end.
Notation ev := (eval P lookup (call ex F)).
Notation rge bools := (regular P lookup (call ex F) bools reg_call).
(** Every expression evaluated is regular, and a Let annotated Bool binds a boolean. *)
Definition reg_stmt (bools : nat -> bool) (st : stmt) (s : state) : Prop :=
  match st with
  | SLet x ann _ e => rge bools e s /\ (ann = true -> forall v s1, ev e s = (Ok v, s1) -> exists b, v = VBool b)
  | SSet _ e | SReturn (Some e) | SShow e => rge bools e s
  | SIf c t f => rge bools c s /\ forall v s1, ev c s = (Ok v, s1) -> if truthy P v then rg bools t (push_scope s1) else match f with Some b => rg bools b (push_scope s1) | None => True end
  | SWhile c b => rge bools c s /\ forall v s1, ev c s = (Ok v, s1) -> truthy P v = true -> rg bools b (push_scope s1) /\ forall s2, block ex b s1 = (Ok Next, s2) -> rg bools [SWhile c b] s2
  | SRepeat x e b => rge bools e s /\ forall v s1 vs, ev e s = (Ok v, s1) -> items v = Some vs -> reg_iter bools x b vs (push_scope s1)
  | SEff t args => regular_list P lookup (call ex F) (rge bools) args s /\ forall vs s1, eval_list ev args s = (Ok vs, s1) -> reg_call t vs s1
  | SReturn None | SBreak => True
  end.
End Reg.
Fixpoint reg (F : nat -> option func) (n : nat) (bools : nat -> bool) (p : list stmt) (s : state) : Prop :=
  match n with
  | O => True
  | S n => match p with
           | [] => True
           | st :: rest => reg_stmt (exec F n) (reg F n) F bools st s /\ forall s1, exec_stmt (exec F n) F st s = (Ok Next, s1) -> reg F n bools rest s1
           end
  end.
End A.

(** The symbols taken for booleans in a function. *)
Definition collected (ord : list nat -> list nat) (ps : list (nat * bool)) (body : list stmt) : nat -> bool := in_syms (collect_bool_syms ord ps body).
Definition folded (ord : list nat -> list nat) (F : nat -> option func) : nat -> option func := fun t => option_map (fold_func ord) (F t).

Section Agree.
Context {W : Type} (P : prims) (items : value -> option (list value)) (ext : nat -> list value -> W -> outcome value * W) (show : value -> W -> W) (ord : list nat -> list nat).
Notation state := (state W).
Notation exec := (exec P items ext show). Notation exec_stmt := (exec_stmt P items ext show). Notation call := (call ext).
Notation reg_call := (reg_call (collected ord)). Notation reg_stmt := (reg_stmt P items ext (collected ord)). Notation reg := (reg P items ext show (collected ord)). Notation folded := (folded ord).
Hypothesis display_text : forall t, display P (VText t) = t.
Section Step.
Context (F : nat -> option func) (ex ex' : list stmt -> state -> outcome flow * state) (rg : (nat -> bool) -> list stmt -> state -> Prop).
Hypothesis IH : forall bools p s, rg bools p s -> ex' (map (fold_stmt bools) p) s = ex p s.
Lemma call_agree t vs s : reg_call rg F t vs s -> call ex' (folded F) t vs s = call ex F t vs s.
Proof.
  unfold FoldStmtProofs.reg_call, collected, FoldStmtModel.call, folded. destruct (F t) as [[ps body] |]; cbn [option_map fold_func fst snd]; [| reflexivity]. intros H. unfold fold_func. cbn [fst snd]. destruct (Nat.eqb_spec (length vs) (length ps)) as [E | E]; cbn [negb]; [| reflexivity].
  rewrite (IH _ _ _ (H E)). reflexivity.
Qed.
Lemma expr_agree bools e s : regular P lookup (call ex F) bools (reg_call rg F) e s -> eval P lookup (call ex' (folded F)) (fold_expr bools e) s = eval P lookup (call ex F) e s.
Proof. intros R. apply (fold_main P lookup (call ex F) (call ex' (folded F)) bools (reg_call rg F) display_text call_agree e s R). Qed.
Lemma list_agree bools args s : regular_list P lookup (call ex F) (regular P lookup (call ex F) bools (reg_call rg F)) args s ->
  eval_list (eval P lookup (call ex' (folded F))) (map (fold_expr bools) args) s = eval_list (eval P lookup (call ex F)) args s.
Proof.
  revert s. induction args as [| e es IHes]; intros s R; [reflexivity |]. destruct R as [Re Rs]. cbn [map eval_list]. rewrite (expr_agree bools e s Re). destruct (eval P lookup (call ex F) e s) as [[v | |] s1] eqn:E; cbn [bind]; try reflexivity. rewrite (IHes s1 (Rs v s1 eq_refl)). reflexivity.
Qed.
Lemma block_agree bools b s : rg bools b (push_scope s) -> block ex' (map (fold_stmt bools) b) s = block ex b s.
Proof. intros R. unfold block. rewrite (IH _ _ _ R). reflexivity. Qed.
Lemma iter_agree bools x b vs : forall s, reg_iter ex rg bools x b vs s -> iterate ex' x (map (fold_stmt bools) b) vs s = iterate ex x b vs s.
Proof.
  induction vs as [| v vs IHv]; intros s R; [reflexivity |]. destruct R as [Rb Rn]. cbn [iterate]. rewrite (block_agree bools b _ Rb). destruct (block ex b (define s x v)) as [[fl | |] s1] eqn:E; cbn [bind]; try reflexivity. destruct fl; try reflexivity. apply IHv, Rn, eq_refl.
Qed.
Lemma stmt_agree bools st s : reg_stmt ex rg F bools st s -> exec_stmt ex' (folded F) (fold_stmt bools st) s = exec_stmt ex F st s.
Proof.
  destruct st as [x ann mut e | x e | c t f | c b | x e b | e | | e | t args]; cbn [fold_stmt FoldStmtProofs.reg_stmt FoldStmtModel.exec_stmt]; intros R.
  - rewrite (expr_agree bools e s (proj1 R)). reflexivity.
  - rewrite (expr_agree bools e s R). reflexivity.
  - destruct R as [Rc Rb]. rewrite (expr_agree bools c s Rc). destruct (eval P lookup (call ex F) c s) as [[v | |] s1] eqn:E; cbn [bind]; try reflexivity. specialize (Rb v s1 eq_refl). destruct (truthy P v); [apply block_agree, Rb |]. destruct f as [f |]; [apply block_agree, Rb | reflexivity].
  - destruct R as [Rc Rb]. rewrite (expr_agree bools c s Rc). destruct (eval P lookup (call ex F) c s) as [[v | |] s1] eqn:E; cbn [bind]; try reflexivity. destruct (truthy P v) eqn:T; [| reflexivity]. destruct (Rb v s1 eq_refl T) as [R1 R2]. rewrite (block_agree bools b s1 R1).
    destruct (block ex b s1) as [[fl | |] s2] eqn:Eb; cbn [bind]; try reflexivity. destruct fl; try reflexivity. apply (IH bools [SWhile c b] s2), R2, eq_refl.
  - destruct R as [Rc Rb]. rewrite (expr_agree bools e s Rc). destruct (eval P lookup (call ex F) e s) as [[v | |] s1] eqn:E; cbn [bind]; try reflexivity. destruct (items v) as [vs |] eqn:I; [| reflexivity]. rewrite (iter_agree bools x b vs); [reflexivity | apply (Rb v s1 vs eq_refl I)].
  - destruct e as [e |]; [| reflexivity]. cbn [option_map]. rewrite (expr_agree bools e s R). reflexivity.
  - reflexivity.
  - rewrite (expr_agree bools e s R). reflexivity.
  - destruct R as [Ra Rc]. rewrite (list_agree bools args s Ra). destruct (eval_list (eval P lookup (call ex F)) args s) as [[vs | |] s1] eqn:E; cbn [bind]; try reflexivity. rewrite (call_agree t vs s1 (Rc vs s1 eq_refl)). reflexivity.
Qed.
End Step.
Lemma exec_agree F n : forall bools p s, reg F n bools p s -> exec (folded F) n (map (fold_stmt bools) p) s = exec F n p s.
Proof.
  induction n as [| n IH]; intros bools p s R; [reflexivity |]. destruct p as [| st rest]; [reflexivity |]. destruct R as [Rs Rn]. cbn [map FoldStmtModel.exec].
  rewrite (stmt_agree F (exec F n) (exec (folded F) n) (reg F n) IH bools st s Rs). destruct (exec_stmt (exec F n) F st s) as [[fl | |] s1] eqn:E; cbn [bind]; try reflexivity. destruct fl; try reflexivity. apply IH, Rn, eq_refl.
Qed.
End Agree.

(** ** The collected symbols *)
Lemma member_spec x l : member x l = true <-> In x l.
Proof. unfold member. rewrite existsb_exists. split; [intros (y & I & E); apply Nat.eqb_eq in E as ->; exact I | intros I; exists x; split; [exact I | apply Nat.eqb_refl]]. Qed.
Lemma boolish_mono (b1 b2 : nat -> bool) e : (forall x, b1 x = true -> b2 x = true) -> expr_is_boolish b1 e = true -> expr_is_boolish b2 e = true.
Proof. intros H. destruct e; cbn; auto. Qed.
Definition justified (bools : nat -> bool) (writes : list (nat * bool * expr)) (x : nat) : Prop :=
  forall ann e, In (x, ann, e) writes -> ann = true \/ expr_is_boolish bools e = true.
Lemma write_ok_spec bools writes x : forallb (write_ok bools x) writes = true <-> justified (fun z => member z bools) writes x.
Proof.
  rewrite forallb_forall. unfold justified, write_ok. split.
  - intros H ann e I. specialize (H _ I). cbn in H. rewrite Nat.eqb_refl in H. cbn [negb orb] in H. apply orb_true_iff, H.
  - intros H [[y ann] e] I. destruct (Nat.eqb_spec y x) as [-> | N]; [| reflexivity]. cbn [negb orb]. apply orb_true_iff, (H ann e I).
Qed.
Lemma justified_mono (b1 b2 : nat -> bool) ws x : (forall y, b1 y = true -> b2 y = true) -> justified b1 ws x -> justified b2 ws x.
Proof. intros M H ann e I. destruct (H ann e I) as [A | B]; [left; exact A | right; exact (boolish_mono _ _ _ M B)]. Qed.
Section Collect.
Context (ord : list nat -> list nat).
Lemma round_inv ws (keep : nat -> Prop) bools :
  (forall x, In x bools -> keep x \/ justified (fun z => member z bools) ws x) -> let b := round ord ws bools in (forall x, In x bools -> In x b) /\ forall x, In x b -> keep x \/ justified (fun z => member z b) ws x.
Proof.
  unfold round. generalize (ord (map (fun w => fst (fst w)) ws)). intros l. revert bools. induction l as [| y l IH]; intros bools H; cbn [fold_left]; [auto |].
  destruct (member y bools) eqn:M; [apply IH, H |]. destruct (forallb (write_ok bools y) ws) eqn:J; [| apply IH, H]. destruct (IH (y :: bools)) as [I1 I2].
  - assert (K : forall z, member z bools = true -> member z (y :: bools) = true) by (intros z Iz; apply member_spec; right; apply member_spec, Iz). intros x [-> | I]; [right; apply write_ok_spec in J; exact (justified_mono _ _ _ _ K J) |]. destruct (H x I) as [A | A]; [left; exact A | right; exact (justified_mono _ _ _ _ K A)].
  - split; [intros x I; apply I1; right; exact I | exact I2].
Qed.
(** Every collected symbol is a Bool parameter, or every write to it is annotated Bool or boolish by the collected symbols. *)
Lemma collect_justified ps body x : In x (collect_bool_syms ord ps body) -> In (x, true) ps \/ justified (in_syms (collect_bool_syms ord ps body)) (collect_writes body) x.
Proof.
  intros I. unfold collect_bool_syms in *. set (typed := map fst (filter snd ps)) in *. set (ws := collect_writes body) in *. set (b1 := round ord ws typed) in *. set (b2 := if Nat.eqb (length b1) (length typed) then b1 else round ord ws b1) in *.
  set (keep := fun y => In (y, true) ps).
  assert (T : forall y, In y typed -> keep y \/ justified (fun z => member z typed) ws y) by (intros y Iy; left; apply in_map_iff in Iy as ([z b] & <- & Iz); apply filter_In in Iz as [Iz Eb]; cbn in Eb; subst b; exact Iz).
  destruct (round_inv ws keep typed T) as [_ H1]. assert (H2 : forall y, In y b2 -> keep y \/ justified (fun z => member z b2) ws y).
  { unfold b2. destruct (Nat.eqb (length b1) (length typed)); [exact H1 |]. apply (round_inv ws keep b1 H1). }
  assert (Same : filter (fun y => forallb (write_ok b2 y) ws || existsb (fun p => Nat.eqb (fst p) y && snd p) ps) b2 = b2).
  { assert (G : forall l, (forall y, In y l -> In y b2) -> filter (fun y => forallb (write_ok b2 y) ws || existsb (fun p => Nat.eqb (fst p) y && snd p) ps) l = l); [| apply G; auto].
    induction l as [| y l IH]; intros L; [reflexivity |]. cbn [filter]. rewrite (IH (fun z Iz => L z (or_intror Iz))). assert (E : forallb (write_ok b2 y) ws || existsb (fun p => Nat.eqb (fst p) y && snd p) ps = true); [| rewrite E; reflexivity].
    apply orb_true_iff. destruct (H2 y (L y (or_introl eq_refl))) as [K | K]; [right; apply existsb_exists; exists (y, true); split; [exact K | cbn; rewrite Nat.eqb_refl; reflexivity] | left; apply write_ok_spec, K]. }
  rewrite Same in *. apply (H2 x I).
Qed.
End Collect.
