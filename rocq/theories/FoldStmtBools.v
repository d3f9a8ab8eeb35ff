(** The symbols the folder takes for booleans hold booleans, in a program without functions. *)
From Coq Require Import ZArith List Bool Lia.
From Verif Require Import FoldModel FoldProofs FoldMain FoldStmtModel FoldStmtProofs.
Import ListNotations.

(** The variables of the Repeat loops. *)
Fixpoint loops_of (st : stmt) : list nat :=
  match st with
  | SIf _ t f => flat_map loops_of t ++ match f with Some b => flat_map loops_of b | None => [] end
  | SWhile _ b => flat_map loops_of b
  | SRepeat x _ b => x :: flat_map loops_of b
  | _ => []
  end.
Definition loop_vars (p : list stmt) : list nat := flat_map loops_of p.
Definition boolean_or_none (o : option value) : Prop := match o with None => True | Some v => exists b, v = VBool b end.

Section B.
Context {W : Type} (P : prims) (items : value -> option (list value)) (ext : nat -> list value -> W -> outcome value * W) (show : value -> W -> W) (fb : list (nat * bool) -> list stmt -> nat -> bool).
Notation state := (state W).
Notation none := (fun _ : nat => @None func).
Notation exec := (exec P items ext show none). Notation exec_stmt ex := (FoldStmtModel.exec_stmt P items ext show ex none). Notation call ex := (FoldStmtModel.call ext ex none).
Context (bs : nat -> bool).
Definition nob (x : nat) : bool := false.
(** Outside functions, the symbols of [bs] hold booleans, now and after leaving any open block. *)
Record inv (s : state) : Prop := {
  inv_frames : frames s = [];
  inv_globals : forall x, bs x = true -> boolean_or_none (globals s x);
  inv_main : forall x, bs x = true -> boolean_or_none (main_block s x);
  inv_saves : forall l x o, In l (saves s) -> In (x, o) l -> bs x = true -> boolean_or_none o }.
Lemma inv_world s w : inv s -> inv (set_world s w).
Proof. intros [F G M S]. split; assumption. Qed.
Lemma inv_look s x v : inv s -> bs x = true -> lookup s x = Some v -> exists b, v = VBool b.
Proof.
  intros I B. unfold lookup, in_function. rewrite (inv_frames s I). pose proof (inv_main s I x B) as M. pose proof (inv_globals s I x B) as G. unfold or_else. destruct (main_block s x) as [u |]; intros E.
  - injection E as <-. exact M.
  - rewrite E in G. exact G.
Qed.
Lemma inv_update (m : vars) x o : (forall y, bs y = true -> boolean_or_none (m y)) -> (bs x = true -> boolean_or_none o) -> forall y, bs y = true -> boolean_or_none (update m x o y).
Proof. intros M O y B. unfold update. destruct (Nat.eqb_spec y x) as [-> | N]; auto. Qed.
Lemma inv_define s x v : inv s -> (bs x = true -> exists b, v = VBool b) -> inv (define s x v).
Proof.
  intros [F G M S] B. unfold define, in_function. rewrite F. destruct (saves s) as [| l r] eqn:E.
  - split; cbn; [exact F | apply inv_update; assumption | exact M | rewrite E; exact S].
  - cbn. rewrite E. split; cbn; [exact F | exact G | apply inv_update; assumption |]. intros k y o [<- | I] J By; [| apply (S k y o (or_intror I) J By)]. destruct J as [J | J]; [injection J as <- <-; apply M, By | apply (S l y o (or_introl eq_refl) J By)].
Qed.
Lemma inv_assign s x v s' : inv s -> (bs x = true -> exists b, v = VBool b) -> assign s x v = Some s' -> inv s'.
Proof.
  intros [F G M S] B. unfold assign, in_function. rewrite F. destruct (main_block s x) as [u |].
  - intros E. injection E as <-. split; cbn; [exact F | exact G | apply inv_update; assumption | exact S].
  - destruct (globals s x) as [u |]; [| discriminate]. intros E. injection E as <-. split; cbn; [exact F | apply inv_update; assumption | exact M | exact S].
Qed.
Lemma inv_push s : inv s -> inv (push_scope s).
Proof. intros [F G M S]. split; cbn; auto. intros l x o [<- | I] J; [destruct J | apply (S l x o I J)]. Qed.
Lemma inv_undo l : forall m, (forall y, bs y = true -> boolean_or_none (m y)) -> (forall x o, In (x, o) l -> bs x = true -> boolean_or_none o) -> forall y, bs y = true -> boolean_or_none (undo l m y).
Proof.
  induction l as [| [x o] l IH]; intros m M L; [exact M |]. cbn [undo fold_left fst snd]. apply IH; [apply inv_update; [exact M | apply (L x o (or_introl eq_refl))] |]. intros y q I. apply L. right. exact I.
Qed.
Lemma inv_pop s : inv s -> inv (pop_scope s).
Proof.
  intros I. pose proof I as [F G M S]. unfold pop_scope, in_function. destruct (saves s) as [| l r] eqn:E; [exact I |]. rewrite F. split; cbn; [exact F | exact G | |].
  - apply inv_undo; [exact M |]. intros x o J. apply (S l x o (or_introl eq_refl) J).
  - intros k x o K J. apply (S k x o (or_intror K) J).
Qed.

Section Step.
Context (ex : list stmt -> state -> outcome flow * state).
Notation ev := (eval P lookup (call ex)).
Lemma bind_state {A B} (r : outcome A * state) (k : A -> state -> outcome B * state) : inv (snd r) -> (forall v s1, r = (Ok v, s1) -> inv (snd (k v s1))) -> inv (snd (bind r k)).
Proof. destruct r as [[v | |] s1]; cbn; intros I K; auto. Qed.
Lemma call_inv t vs s : inv s -> inv (snd (call ex t vs s)).
Proof. intros I. unfold FoldStmtModel.call. destruct (ext t vs (world s)) as [r w]. apply inv_world, I. Qed.
Lemma eval_inv e : forall s, inv s -> inv (snd (ev e s)).
Proof.
  induction e as [l | x | op l r IHl IHr | a IHa | c w IHc IHw | t args IH] using expr_ind2; intros s I; try exact I.
  - assert (K : forall v s1, ev l s = (Ok v, s1) -> inv s1) by (intros v s1 E; pose proof (IHl s I) as J; rewrite E in J; exact J).
    assert (R : forall (f : value -> state -> outcome value * state) s1, (forall v s2, snd (f v s2) = s2) -> inv s1 -> inv (snd (bind (ev r s1) f))).
    { intros f s1 Hf I1. apply bind_state; [apply IHr, I1 |]. intros v s2 E. rewrite Hf. pose proof (IHr s1 I1) as J. rewrite E in J. exact J. }
    destruct op; cbn [eval]; (apply bind_state; [apply IHl, I |]); intros v s1 E; pose proof (K v s1 E) as I1; try (apply R; [reflexivity | exact I1]); destruct (truthy P v); try exact I1; apply R; [reflexivity | exact I1 | reflexivity | exact I1].
  - cbn [eval]. apply bind_state; [apply IHa, I |]. intros v s1 E. pose proof (IHa s I) as J. rewrite E in J. exact J.
  - cbn [eval]. apply bind_state; [apply IHc, I |]. intros v s1 E. pose proof (IHc s I) as J. rewrite E in J. cbn [snd] in J. apply bind_state; [apply IHw, J |]. intros u s2 E2. pose proof (IHw s1 J) as J2. rewrite E2 in J2. exact J2.
  - cbn [eval]. assert (L : inv (snd (eval_list ev args s))).
    { revert s I. induction args as [| e es IHes]; intros s I; [exact I |]. inversion IH as [| ? ? He Hes]; subst. cbn [eval_list]. apply bind_state; [apply He, I |]. intros v s1 E. pose proof (He s I) as J. rewrite E in J. cbn [snd] in J. apply bind_state; [apply IHes; assumption |]. intros vs s2 E2. pose proof (IHes Hes s1 J) as J2. rewrite E2 in J2. exact J2. }
    apply bind_state; [exact L |]. intros vs s1 E. rewrite E in L. apply call_inv, L.
Qed.
Lemma eval_ok_inv e s v s1 : inv s -> ev e s = (Ok v, s1) -> inv s1.
Proof. intros I E. pose proof (eval_inv e s I) as J. rewrite E in J. exact J. Qed.
Lemma list_ok_inv es : forall s vs s1, inv s -> eval_list ev es s = (Ok vs, s1) -> inv s1.
Proof.
  induction es as [| e es IH]; intros s vs s1 I E; [injection E as <- <-; exact I |]. cbn [eval_list] in E. apply bind_ok in E as (v & s2 & E1 & E). apply bind_ok in E as (us & s3 & E2 & E). injection E as <- <-. apply (IH s2 us s3 (eval_ok_inv e s v s2 I E1) E2).
Qed.
Context (c1 c2 : nat -> list value -> state -> Prop) (c12 : forall t vs s, c1 t vs s -> c2 t vs s).
Notation r1 := (regular P lookup (call ex) nob c1). Notation r2 := (regular P lookup (call ex) bs c2).
Lemma regular_bools e : forall s, inv s -> r1 e s -> r2 e s.
Proof.
  induction e as [l | x | op l r IHl IHr | a IHa | c w IHc IHw | t args IH] using expr_ind2; intros s I R; try exact Logic.I.
  - destruct R as (v & E & _). exists v. split; [exact E |]. intros B. apply (inv_look s x v I B E).
  - destruct op; destruct R as [Rl Rr]; (split; [apply IHl; assumption |]); intros v s1 E; pose proof (eval_ok_inv l s v s1 I E) as I1;
      try (intros T; apply IHr; [exact I1 | apply (Rr v s1 E T)]); destruct (Rr v s1 E) as [R1 R2]; (split; [apply IHr; assumption | exact R2]).
  - apply IHa; assumption.
  - destruct R as [Rc Rw]. split; [apply IHc; assumption |]. intros a s1 E. apply IHw; [apply (eval_ok_inv c s a s1 I E) | apply (Rw a s1 E)].
  - destruct R as [Ra Rc]. split; [| intros vs s1 E; apply c12, (Rc vs s1 E)]. clear Rc. revert s I Ra. induction args as [| e es IHes]; intros s I Ra; [exact Logic.I |]. inversion IH as [| ? ? He Hes]; subst. destruct Ra as [Re Res]. split; [apply He; assumption |]. intros v s1 E. apply IHes; [exact Hes | apply (eval_ok_inv e s v s1 I E) | apply (Res v s1 E)].
Qed.
Lemma regular_list_bools es : forall s, inv s -> regular_list P lookup (call ex) r1 es s -> regular_list P lookup (call ex) r2 es s.
Proof. induction es as [| e es IH]; intros s I R; [exact Logic.I |]. destruct R as [Re Res]. split; [apply regular_bools; assumption |]. intros v s1 E. apply IH; [apply (eval_ok_inv e s v s1 I E) | apply (Res v s1 E)]. Qed.
End Step.

Definition fine (p : list stmt) : Prop := (forall x, bs x = true -> justified bs (collect_writes p) x) /\ forall x, bs x = true -> ~ In x (loop_vars p).
Lemma fine_cons st p : fine (st :: p) <-> fine [st] /\ fine p.
Proof.
  unfold fine, justified, collect_writes, loop_vars. cbn [flat_map]. split.
  - intros [J L]. split; (split; [intros x B ann e I; apply (J x B ann e) | intros x B I; apply (L x B)]); rewrite app_nil_r in * || idtac; rewrite ?in_app_iff in *; auto.
  - intros [[J1 L1] [J2 L2]]. split.
    + intros x B ann e I. apply in_app_iff in I as [I | I]; [apply (J1 x B ann e); rewrite app_nil_r; exact I | apply (J2 x B ann e I)].
    + intros x B I. apply in_app_iff in I as [I | I]; [apply (L1 x B); rewrite app_nil_r; exact I | apply (L2 x B I)].
Qed.
Lemma fine_sub p q : (forall w, In w (collect_writes q) -> In w (collect_writes p)) -> (forall x, In x (loop_vars q) -> In x (loop_vars p)) -> fine p -> fine q.
Proof. intros Hw Hl [J L]. split; [intros x B ann e I; apply (J x B ann e), Hw, I | intros x B I; apply (L x B), Hl, I]. Qed.
Lemma fine_then c t f : fine [SIf c t f] -> fine t.
Proof. apply fine_sub; [intros w I | intros x I]; cbn; rewrite app_nil_r, in_app_iff; left; exact I. Qed.
Lemma fine_else c t f : fine [SIf c t (Some f)] -> fine f.
Proof. apply fine_sub; [intros w I | intros x I]; cbn; rewrite app_nil_r, in_app_iff; right; exact I. Qed.
Lemma fine_while c b : fine [SWhile c b] -> fine b.
Proof. apply fine_sub; [intros w I | intros x I]; cbn; rewrite app_nil_r; exact I. Qed.
Lemma fine_repeat x e b : fine [SRepeat x e b] -> fine b /\ bs x = false.
Proof.
  intros H. split; [revert H; apply fine_sub; [intros w I | intros y I]; cbn; rewrite app_nil_r; [exact I | right; exact I] |]. destruct H as [_ L]. destruct (bs x) eqn:B; [| reflexivity]. exfalso. apply (L x B). left. reflexivity.
Qed.

Hypothesis display_text : forall t, display P (VText t) = t.
Notation reg := (reg P items ext show fb none).
Definition keeps (r : outcome flow * state) : Prop := forall fl s1, r = (Ok fl, s1) -> inv s1.
Section Main.
Context (ex : list stmt -> state -> outcome flow * state) (rg : (nat -> bool) -> list stmt -> state -> Prop).
Hypothesis IH : forall p s, inv s -> fine p -> rg nob p s -> rg bs p s /\ keeps (ex p s).
Lemma block_keeps b s : inv s -> fine b -> rg nob b (push_scope s) -> rg bs b (push_scope s) /\ keeps (block ex b s).
Proof.
  intros I Fb R. destruct (IH b (push_scope s) (inv_push s I) Fb R) as [R2 K]. split; [exact R2 |]. intros fl s1 E. unfold block in E. apply bind_ok in E as (g & s2 & E & E2). injection E2 as <- <-. apply inv_pop, (K g s2 E).
Qed.
Lemma iter_keeps x b vs : bs x = false -> fine b -> forall s, inv s -> reg_iter ex rg nob x b vs s -> reg_iter ex rg bs x b vs s /\ keeps (iterate ex x b vs s).
Proof.
  intros Bx Fb. induction vs as [| v vs IHv]; intros s I R; [split; [exact Logic.I | intros fl s1 E; injection E as <- <-; exact I] |].
  destruct R as [R1 R2]. assert (Id : inv (define s x v)) by (apply inv_define; [exact I | rewrite Bx; discriminate]). destruct (block_keeps b (define s x v) Id Fb R1) as [K1 K2]. split.
  - split; [exact K1 |]. intros s1 E. apply IHv; [apply (K2 Next s1 E) | apply (R2 s1 E)].
  - intros fl s1 E. cbn [iterate] in E. apply bind_ok in E as (g & s2 & E & E2). pose proof (K2 g s2 E) as I2. destruct g; [apply (proj2 (IHv s2 I2 (R2 s2 E)) fl s1 E2) | injection E2 as <- <-; exact I2 | injection E2 as <- <-; exact I2].
Qed.
Notation ev := (eval P lookup (call ex)).
Lemma stmt_keeps st s : inv s -> fine [st] -> reg_stmt P items ext fb ex rg none nob st s -> reg_stmt P items ext fb ex rg none bs st s /\ keeps (exec_stmt ex st s).
Proof.
  intros I Fs R.
  assert (T : forall e s, inv s -> regular P lookup (call ex) nob (reg_call fb rg none) e s -> regular P lookup (call ex) bs (reg_call fb rg none) e s) by (intros e s0 I0; apply (regular_bools ex (reg_call fb rg none) (reg_call fb rg none) (fun _ _ _ H => H) e s0 I0)).
  assert (Val : forall e s v s1, inv s -> regular P lookup (call ex) nob (reg_call fb rg none) e s -> expr_is_boolish bs e = true -> ev e s = (Ok v, s1) -> exists b, v = VBool b) by (intros e s0 v s1 I0 R0 B E; apply (boolish_val P lookup (call ex) bs (reg_call fb rg none) e s0 v s1 B (T e s0 I0 R0) E)).
  destruct st as [x ann mut e | x e | c t f | c b | x e b | e | | e | t args]; cbn [reg_stmt FoldStmtModel.exec_stmt] in *.
  - destruct R as [R A]. split; [split; [apply T; assumption | exact A] |]. intros fl s1 E. apply bind_ok in E as (v & s2 & E & E2). injection E2 as <- <-. apply inv_define; [apply (eval_ok_inv ex e s v s2 I E) |]. intros B.
    destruct (proj1 Fs x B ann e (or_introl eq_refl)) as [-> | J]; [apply (A eq_refl v s2 E) | apply (Val e s v s2 I R J E)].
  - split; [apply T; assumption |]. intros fl s1 E. apply bind_ok in E as (v & s2 & E & E2). destruct (assign s2 x v) as [s3 |] eqn:As; [| discriminate]. injection E2 as <- <-. apply (inv_assign s2 x v s3 (eval_ok_inv ex e s v s2 I E)); [| exact As]. intros B.
    destruct (proj1 Fs x B false e (or_introl eq_refl)) as [D | J]; [discriminate | apply (Val e s v s2 I R J E)].
  - destruct R as [Rc Rb]. assert (K : forall v s1, ev c s = (Ok v, s1) -> (if truthy P v then rg bs t (push_scope s1) else match f with Some b => rg bs b (push_scope s1) | None => True end) /\ keeps (if truthy P v then block ex t s1 else match f with Some b => block ex b s1 | None => (Ok Next, s1) end)).
    { intros v s1 E. pose proof (eval_ok_inv ex c s v s1 I E) as I1. specialize (Rb v s1 E). destruct (truthy P v); [apply block_keeps; [exact I1 | apply (fine_then c t f Fs) | exact Rb] |]. destruct f as [f |]; [apply block_keeps; [exact I1 | apply (fine_else c t f Fs) | exact Rb] |]. split; [exact Logic.I |]. intros fl s2 E2. injection E2 as <- <-. exact I1. }
    split; [split; [apply T; assumption | intros v s1 E; apply (K v s1 E)] |]. intros fl s1 E. apply bind_ok in E as (v & s2 & E & E2). apply (proj2 (K v s2 E) fl s1 E2).
  - destruct R as [Rc Rb]. assert (K : forall v s1, ev c s = (Ok v, s1) -> truthy P v = true -> rg bs b (push_scope s1) /\ forall fl s2, block ex b s1 = (Ok fl, s2) -> inv s2 /\ (fl = Next -> rg bs [SWhile c b] s2 /\ keeps (ex [SWhile c b] s2))).
    { intros v s1 E Tr. pose proof (eval_ok_inv ex c s v s1 I E) as I1. destruct (Rb v s1 E Tr) as [R1 R2]. destruct (block_keeps b s1 I1 (fine_while c b Fs) R1) as [K1 K2]. split; [exact K1 |]. intros fl s2 E2. pose proof (K2 fl s2 E2) as I2. split; [exact I2 |]. intros ->. apply IH; [exact I2 | exact Fs | apply (R2 s2 E2)]. }
    split; [split; [apply T; assumption |]; intros v s1 E Tr; destruct (K v s1 E Tr) as [K1 K2]; split; [exact K1 |]; intros s2 E2; apply (K2 Next s2 E2); reflexivity |].
    intros fl s1 E. apply bind_ok in E as (v & s2 & E & E2). pose proof (eval_ok_inv ex c s v s2 I E) as I1. destruct (truthy P v) eqn:Tr; [| injection E2 as <- <-; exact I1]. apply bind_ok in E2 as (g & s3 & E3 & E4). destruct (proj2 (K v s2 E Tr) g s3 E3) as [I3 N]. destruct g; [apply (proj2 (N eq_refl) fl s1 E4) | injection E4 as <- <-; exact I3 | injection E4 as <- <-; exact I3].
  - destruct R as [Rc Rb]. destruct (fine_repeat x e b Fs) as [Fb Bx]. split.
    + split; [apply T; assumption |]. intros v s1 vs E Iv. apply (iter_keeps x b vs Bx Fb); [apply inv_push, (eval_ok_inv ex e s v s1 I E) | apply (Rb v s1 vs E Iv)].
    + intros fl s1 E. apply bind_ok in E as (v & s2 & E & E2). destruct (items v) as [vs |] eqn:Iv; [| discriminate]. apply bind_ok in E2 as (g & s3 & E3 & E4). injection E4 as <- <-. apply inv_pop. apply (proj2 (iter_keeps x b vs Bx Fb (push_scope s2) (inv_push _ (eval_ok_inv ex e s v s2 I E)) (Rb v s2 vs E Iv)) g s3 E3).
  - destruct e as [e |]; [| split; [exact Logic.I |]; intros fl s1 E; injection E as <- <-; exact I]. split; [apply T; assumption |]. intros fl s1 E. apply bind_ok in E as (v & s2 & E & E2). injection E2 as <- <-. apply (eval_ok_inv ex e s v s2 I E).
  - split; [exact Logic.I |]. intros fl s1 E. injection E as <- <-. exact I.
  - split; [apply T; assumption |]. intros fl s1 E. apply bind_ok in E as (v & s2 & E & E2). injection E2 as <- <-. apply inv_world, (eval_ok_inv ex e s v s2 I E).
  - destruct R as [Ra Rc]. split; [split; [apply (regular_list_bools ex (reg_call fb rg none) (reg_call fb rg none) (fun _ _ _ H => H) args s I Ra) | exact Rc] |].
    intros fl s1 E. apply bind_ok in E as (vs & s2 & E & E2). apply bind_ok in E2 as (u & s3 & E3 & E4). injection E4 as <- <-. pose proof (call_inv ex t vs s2 (list_ok_inv ex args s vs s2 I E)) as J. rewrite E3 in J. exact J.
Qed.
End Main.
Lemma main_keeps n : forall p s, inv s -> fine p -> reg n nob p s -> reg n bs p s /\ keeps (exec n p s).
Proof.
  induction n as [| n IH]; intros p s I Fp R; [split; [exact Logic.I | discriminate] |]. destruct p as [| st rest]; [split; [exact Logic.I | intros fl s1 E; injection E as <- <-; exact I] |].
  destruct (proj1 (fine_cons st rest) Fp) as [F1 F2]. destruct R as [R1 R2]. destruct (stmt_keeps (exec n) (reg n) IH st s I F1 R1) as [K1 K2]. split.
  - split; [exact K1 |]. intros s1 E. apply IH; [apply (K2 Next s1 E) | exact F2 | apply (R2 s1 E)].
  - intros fl s1 E. cbn [FoldStmtModel.exec] in E. apply bind_ok in E as (g & s2 & E & E2). pose proof (K2 g s2 E) as I2. destruct g; [apply (proj2 (IH rest s2 I2 F2 (R2 s2 E)) fl s1 E2) | injection E2 as <- <-; exact I2 | injection E2 as <- <-; exact I2].
Qed.
End B.
