(** Constant propagation keeps every regular execution of a program that does not rebind its constants. *)
From Coq Require Import ZArith List Bool Lia.
From Verif Require Import FoldModel FoldProofs FoldMain FoldStmtModel FoldStmtProofs PropModel PropFrame.
Import ListNotations.

(** No Let or Repeat binds a name bound before it in the same block or around it. *)
Fixpoint fresh_stmt (seen : list nat) (st : stmt) : Prop :=
  let nested := (fix go (seen : list nat) (l : list stmt) : Prop := match l with [] => True | st :: r => fresh_stmt seen st /\ go (match st with SLet x _ _ _ => x :: seen | _ => seen end) r end) in
  match st with
  | SLet x _ _ _ => ~ In x seen
  | SIf _ t f => nested seen t /\ match f with Some b => nested seen b | None => True end
  | SWhile _ b => nested seen b
  | SRepeat x _ b => ~ In x seen /\ nested (x :: seen) b
  | _ => True
  end.
Definition no_shadow : list nat -> list stmt -> Prop :=
  fix go (seen : list nat) (l : list stmt) : Prop := match l with [] => True | st :: r => fresh_stmt seen st /\ go (match st with SLet x _ _ _ => x :: seen | _ => seen end) r end.

Definition all_opt (Q : stmt -> Prop) (f : option (list stmt)) : Prop := match f with Some b => Forall Q b | None => True end.
Fixpoint stmt_ind2 (Q : stmt -> Prop) (HL : forall x a m e, Q (SLet x a m e)) (HS : forall x e, Q (SSet x e)) (HI : forall c t f, Forall Q t -> all_opt Q f -> Q (SIf c t f))
  (HW : forall c b, Forall Q b -> Q (SWhile c b)) (HR : forall x e b, Forall Q b -> Q (SRepeat x e b)) (HT : forall e, Q (SReturn e)) (HB : Q SBreak) (HSh : forall e, Q (SShow e)) (HE : forall t a, Q (SEff t a)) (st : stmt) : Q st :=
  let all := (fix go l : Forall Q l := match l with [] => Forall_nil Q | x :: r => Forall_cons x (stmt_ind2 Q HL HS HI HW HR HT HB HSh HE x) (go r) end) in
  match st with
  | SLet x a m e => HL x a m e | SSet x e => HS x e
  | SIf c t f => HI c t f (all t) (match f as f0 return all_opt Q f0 with Some b => all b | None => I end)
  | SWhile c b => HW c b (all b) | SRepeat x e b => HR x e b (all b) | SReturn e => HT e | SBreak => HB | SShow e => HSh e | SEff t a => HE t a
  end.
Lemma fresh_binders st : forall seen x, fresh_stmt seen st -> In x seen -> ~ In x (binders_of st).
Proof.
  induction st as [y a m e | y e | c t f IHt IHf | c b IHb | y e b IHb | e | | e | t a] using stmt_ind2; intros seen x F I; cbn [binders_of]; try (intros Hf; exact Hf).
  - intros [-> | []]. apply F, I.
  - intros H. apply in_app_iff in H as [H | H].
    + destruct F as [F _]. change (no_shadow seen t) in F. clear IHf. revert seen F I. induction IHt as [| st r Hs _ IH]; intros seen F I; [exact H |]. destruct F as [F1 F2]. cbn [flat_map] in H. apply in_app_iff in H as [H | H]; [apply (Hs seen x F1 I H) |]. apply (IH H _ F2). destruct st; try exact I; right; exact I.
    + destruct f as [f |]; [| exact H]. destruct F as [_ F]. change (no_shadow seen f) in F. revert seen F I. induction IHf as [| st r Hs _ IH]; intros seen F I; [exact H |]. destruct F as [F1 F2]. cbn [flat_map] in H. apply in_app_iff in H as [H | H]; [apply (Hs seen x F1 I H) |]. apply (IH H _ F2). destruct st; try exact I; right; exact I.
  - intros H. change (no_shadow seen b) in F. revert seen F I. induction IHb as [| st r Hs _ IH]; intros seen F I; [exact H |]. destruct F as [F1 F2]. cbn [flat_map] in H. apply in_app_iff in H as [H | H]; [apply (Hs seen x F1 I H) |]. apply (IH H _ F2). destruct st; try exact I; right; exact I.
  - intros [-> | H]; [destruct F as [F _]; contradiction |]. destruct F as [_ F]. change (no_shadow (y :: seen) b) in F. assert (I2 : In x (y :: seen)) by (right; exact I). clear I. generalize dependent (y :: seen). clear seen. induction IHb as [| st r Hs _ IH]; intros seen F I; [exact H |]. destruct F as [F1 F2]. cbn [flat_map] in H. apply in_app_iff in H as [H | H]; [apply (Hs seen x F1 I H) |]. apply (IH H _ F2). destruct st; try exact I; right; exact I.
Qed.
Lemma shadow_binders p : forall seen x, no_shadow seen p -> In x seen -> ~ In x (binders p).
Proof.
  induction p as [| st r IH]; intros seen x F I H; [exact H |]. destruct F as [F1 F2]. unfold binders in H. cbn [flat_map] in H. apply in_app_iff in H as [H | H]; [apply (fresh_binders st seen x F1 I H) |]. apply (IH _ x F2); [destruct st; try exact I; right; exact I | exact H].
Qed.

Section Prop_.
Context {W : Type} (P : prims) (items : value -> option (list value)) (ext : nat -> list value -> W -> outcome value * W) (show : value -> W -> W) (sealed : nat -> bool) (opens : nat -> nat -> bool) (F : nat -> option func).
Notation state := (state W).
Hypothesis display_text : forall t, display P (VText t) = t.
Notation plain := (fun (_ : list (nat * bool)) (_ : list stmt) => no_bools).
Notation exec G := (FoldStmtModel.exec P items ext show G). Notation exec_stmt ex G := (FoldStmtModel.exec_stmt P items ext show ex G). Notation call ex G := (FoldStmtModel.call ext ex G).
Notation reg := (reg P items ext show plain F). Notation set_by := (set_by_function F).
Notation prop_stmt := (prop_stmt sealed opens). Notation prop_list := (prop_list sealed opens). Notation sf := (subst_and_fold sealed).
Definition propagated (t : nat) : option func := option_map (propagate_func sealed opens) (F t).
Record holds (m : env) (seen : list nat) (s : state) (x : nat) (l : lit) : Prop := {
  h_seen : In x seen; h_look : lookup s x = Some (lit_val l); h_local : in_function s = true -> upper s x <> None; h_main : in_function s = false -> ~ set_by x }.
Definition inv (m : env) (seen : list nat) (s : state) : Prop := forall x l, m x = Some l -> holds m seen s x l.
Lemma lookup_upper (s : state) x : lookup s x = or_else (upper s x) (globals s x).
Proof. unfold lookup, upper. destruct (in_function s); reflexivity. Qed.
Lemma inv_kept m seen s s1 N : inv m seen s -> kept F N s s1 -> (forall x l, m x = Some l -> ~ In x N) -> inv m seen s1.
Proof.
  intros I [F1 S1 R1 U1 G1 M1] D x l E. destruct (I x l E) as [H1 H2 H3 H4]. pose proof (D x l E) as Nx. pose proof (in_function_frames s s1 F1) as IF. split.
  - exact H1.
  - rewrite lookup_upper in *. rewrite (U1 x Nx). destruct (in_function s) eqn:J.
    + specialize (H3 eq_refl). destruct (upper s x) as [u |]; [exact H2 | contradiction].
    + rewrite (G1 x (H4 eq_refl) (or_intror Nx)). exact H2.
  - rewrite IF, (U1 x Nx). exact H3.
  - rewrite IF. exact H4.
Qed.
Lemma inv_push m seen s : inv m seen s -> inv m seen (push_scope s).
Proof. intros I x l E. destruct (I x l E) as [H1 H2 H3 H4]. split; assumption. Qed.
Lemma inv_seen m seen x s : inv m seen s -> inv m (x :: seen) s.
Proof. intros I y l E. destruct (I y l E) as [H1 H2 H3 H4]. split; try assumption. right. exact H1. Qed.
Lemma inv_none seen s : inv no_env seen s.
Proof. intros x l E. discriminate. Qed.

Section Expr.
Context (ex : list stmt -> state -> outcome flow * state) (rg : (nat -> bool) -> list stmt -> state -> Prop).
Hypothesis EK : forall p s fl s1, (in_function s = true -> forall x, In x (set_targets p) -> set_by x) -> ex p s = (Ok fl, s1) -> kept F (names p) s s1.
Notation rc := (reg_call plain rg F).
Notation ev := (eval P lookup (call ex F)). Notation re := (regular P lookup (call ex F) no_bools rc).
Context (m : env) (seen : list nat).
Lemma eval_inv e s v s1 : inv m seen s -> ev e s = (Ok v, s1) -> inv m seen s1.
Proof. intros I E. apply (inv_kept m seen s s1 [] I); [apply (eval_kept P ext F ex EK e s v s1 E) | intros x l _ []]. Qed.
Lemma subst_ok e : forall s, inv m seen s -> re e s -> re (subst sealed m e) s /\ ev (subst sealed m e) s = ev e s.
Proof.
  induction e as [l | x | op l r IHl IHr | a IHa | c w IHc IHw | t args IH] using expr_ind2; intros s I R.
  - split; [exact R | reflexivity].
  - cbn [subst]. destruct (m x) as [l |] eqn:E; [| split; [exact R | reflexivity]]. split; [exact Logic.I |]. cbn [eval]. rewrite (h_look _ _ _ _ _ (I x l E)). reflexivity.
  - assert (K : forall v s1, ev l s = (Ok v, s1) -> re r s1 -> re (subst sealed m r) s1 /\ ev (subst sealed m r) s1 = ev r s1) by (intros v s1 E; apply IHr, (eval_inv l s v s1 I E)).
    cbn [subst]. destruct op; destruct R as [Rl Rr]; destruct (IHl s I Rl) as [Rl' El]; cbn [regular eval]; rewrite El;
      try (split; [split; [exact Rl' |]; intros v s1 E; destruct (Rr v s1 E) as [R1 R2]; destruct (K v s1 E R1) as [R3 R4]; split; [exact R3 |]; rewrite R4; exact R2 |
        destruct (ev l s) as [[v | |] s1] eqn:E; cbn [bind]; try reflexivity; destruct (Rr v s1 eq_refl) as [R1 R2]; rewrite (proj2 (K v s1 eq_refl R1)); reflexivity]);
      (split; [split; [exact Rl' |]; intros v s1 E T; apply (K v s1 E), (Rr v s1 E T) |]); destruct (ev l s) as [[v | |] s1] eqn:E; cbn [bind]; try reflexivity; destruct (truthy P v) eqn:T; try reflexivity; rewrite (proj2 (K v s1 eq_refl (Rr v s1 eq_refl T))); reflexivity.
  - cbn [subst regular eval]. destruct (IHa s I R) as [Ra Ea]. rewrite Ea. auto.
  - cbn [subst regular eval]. destruct R as [Rc Rw]. destruct (IHc s I Rc) as [R1 E1]. rewrite E1. split.
    + split; [exact R1 |]. intros a s1 E. apply IHw; [apply (eval_inv c s a s1 I E) | apply (Rw a s1 E)].
    + destruct (ev c s) as [[a | |] s1] eqn:E; cbn [bind]; try reflexivity. rewrite (proj2 (IHw s1 (eval_inv c s a s1 I E) (Rw a s1 eq_refl))). reflexivity.
  - cbn [subst]. destruct (sealed t); [split; [exact R | reflexivity] |]. cbn [regular eval]. destruct R as [Ra Rc].
    assert (K : regular_list P lookup (call ex F) re (map (subst sealed m) args) s /\ eval_list ev (map (subst sealed m) args) s = eval_list ev args s).
    { clear Rc. revert s I Ra. induction args as [| e es IHes]; intros s I Ra; [split; [exact Logic.I | reflexivity] |]. inversion IH as [| ? ? He Hes]; subst. destruct Ra as [Re Res]. destruct (He s I Re) as [R1 E1]. cbn [map regular_list eval_list]. rewrite E1. split.
      - split; [exact R1 |]. intros v s1 E. apply (IHes Hes s1 (eval_inv e s v s1 I E)), (Res v s1 E).
      - destruct (ev e s) as [[v | |] s1] eqn:E; cbn [bind]; try reflexivity. destruct (IHes Hes s1 (eval_inv e s v s1 I E) (Res v s1 eq_refl)) as [_ E2]. rewrite E2. reflexivity. }
    destruct K as [K1 K2]. rewrite K2. split; [split; [exact K1 | exact Rc] | reflexivity].
Qed.
Context (other' : nat -> list value -> state -> outcome value * state).
Hypothesis agree : forall t vs s, rc t vs s -> other' t vs s = call ex F t vs s.
Lemma eval_agree e : forall s, re e s -> eval P lookup other' e s = ev e s.
Proof.
  induction e as [l | x | op l r IHl IHr | a IHa | c w IHc IHw | t args IH] using expr_ind2; intros s R; try reflexivity.
  - destruct op; destruct R as [Rl Rr]; cbn [eval]; rewrite (IHl s Rl); destruct (ev l s) as [[v | |] s1] eqn:E; cbn [bind]; try reflexivity;
      try (destruct (Rr v s1 eq_refl) as [R1 R2]; rewrite (IHr s1 R1); reflexivity); destruct (truthy P v) eqn:T; try reflexivity; rewrite (IHr s1 (Rr v s1 eq_refl T)); reflexivity.
  - cbn [eval]. rewrite (IHa s R). reflexivity.
  - cbn [eval]. destruct R as [Rc Rw]. rewrite (IHc s Rc). destruct (ev c s) as [[a | |] s1] eqn:E; cbn [bind]; try reflexivity. rewrite (IHw s1 (Rw a s1 eq_refl)). reflexivity.
  - cbn [eval]. destruct R as [Ra Rc]. assert (K : eval_list (eval P lookup other') args s = eval_list ev args s).
    { clear Rc. revert s Ra. induction args as [| e es IHes]; intros s Ra; [reflexivity |]. inversion IH as [| ? ? He Hes]; subst. destruct Ra as [Re Res]. cbn [eval_list]. rewrite (He s Re). destruct (ev e s) as [[v | |] s1] eqn:E; cbn [bind]; try reflexivity. specialize (IHes Hes s1 (Res v s1 eq_refl)). rewrite IHes. reflexivity. }
    rewrite K. destruct (eval_list ev args s) as [[vs | |] s1] eqn:E; cbn [bind]; try reflexivity. apply agree, (Rc vs s1 eq_refl).
Qed.
Lemma sf_ok e s : inv m seen s -> re e s -> eval P lookup other' (sf m e) s = ev e s.
Proof.
  intros I R. destruct (subst_ok e s I R) as [R1 E1]. unfold subst_and_fold. rewrite <- E1. apply (fold_main P lookup (call ex F) other' no_bools rc display_text agree (subst sealed m e) s R1).
Qed.
Lemma args_ok (f : nat -> bool) args : forall i s, inv m seen s -> regular_list P lookup (call ex F) re args s -> eval_list (eval P lookup other') (mapi (fun i e => if f i then sf m e else e) i args) s = eval_list ev args s.
Proof.
  induction args as [| e es IH]; intros i s I R; [reflexivity |]. destruct R as [Re Res]. cbn [mapi eval_list]. assert (E1 : eval P lookup other' (if f i then sf m e else e) s = ev e s) by (destruct (f i); [apply sf_ok; assumption | apply eval_agree, Re]). rewrite E1. destruct (ev e s) as [[v | |] s1] eqn:E; cbn [bind]; try reflexivity.
  specialize (IH (S i) s1 (eval_inv e s v s1 I E) (Res v s1 eq_refl)). rewrite IH. reflexivity.
Qed.
End Expr.

(** Outside the blocks of the main program, no block variable is defined. *)
Definition rooted (s : state) : Prop := in_function s = false -> saves s = [] -> forall x, main_block s x = None.
Lemma rooted_kept N s s1 : rooted s -> kept F N s s1 -> rooted s1.
Proof.
  intros R [F1 S1 R1 _ _ _] I E x. rewrite (in_function_frames s s1 F1) in I. assert (E0 : saves s = []) by (destruct (saves s) as [| l r]; [reflexivity |]; destruct S1 as (e & S1 & _); congruence).
  destruct (R1 I E0) as [-> | H]; [apply R; assumption |]. apply H, R; assumption.
Qed.
Lemma rooted_push s : rooted (push_scope s).
Proof. intros _ E. discriminate. Qed.
Lemma lookup_define (s : state) x v : rooted s -> lookup (define s x v) x = Some v /\ (in_function s = true -> upper (define s x v) x <> None) /\ in_function (define s x v) = in_function s.
Proof.
  intros R. unfold lookup, upper, define. destruct (in_function s) eqn:I.
  - cbn [set_locals saves]. destruct (saves s) as [| l r]; unfold in_function in *; cbn; rewrite I; unfold update; rewrite Nat.eqb_refl; cbn; repeat split; congruence.
  - destruct (saves s) as [| l r] eqn:E; cbn [set_main saves]; rewrite ?E.
    + pose proof (R I E x) as M. unfold in_function in *; cbn; rewrite I; unfold update; rewrite Nat.eqb_refl; cbn. rewrite M. repeat split; congruence.
    + unfold in_function in *; cbn; rewrite I; unfold update; rewrite Nat.eqb_refl; cbn. repeat split; congruence.
Qed.

Hypothesis functions_fresh : forall t ps body, F t = Some (ps, body) -> no_shadow [] body.
Section Step.
Context (n : nat).
Notation ex := (exec F n). Notation ex' := (exec propagated n). Notation rg := (reg n).
Definition proper (mutated : list nat) (m : env) (seen : list nat) (p : list stmt) (s : state) : Prop :=
  (forall x, In x (set_targets p) -> In x mutated) /\ (forall x l, m x = Some l -> ~ In x mutated) /\ inv m seen s /\ rooted s /\ no_shadow seen p /\
  (in_function s = true -> forall x, In x (set_targets p) -> set_by x) /\ (in_function s = false -> forall x, In x (binders p) -> ~ set_by x).
Hypothesis IH : forall mutated m seen p s, proper mutated m seen p s -> rg no_bools p s -> ex' (prop_list mutated m p) s = ex p s.
Notation rc := (reg_call plain rg F).
Lemma call_agree t vs s : rc t vs s -> call ex' propagated t vs s = call ex F t vs s.
Proof.
  unfold reg_call, FoldStmtModel.call. assert (Pt : propagated t = option_map (propagate_func sealed opens) (F t)) by reflexivity. rewrite Pt. clear Pt. destruct (F t) as [[ps body] |] eqn:E; cbn [option_map]; [| reflexivity]. intros H. unfold propagate_func. cbn [fst snd]. destruct (Nat.eqb_spec (length vs) (length ps)) as [L | L]; cbn [negb]; [| reflexivity].
  unfold propagate_stmts. pose proof (define_all_kept F ps vs (push_frame s)) as K. assert (I : in_function (define_all (push_frame s) ps vs) = true) by (rewrite (in_function_frames _ _ (k_frames _ _ _ _ K)); reflexivity).
  rewrite (IH (set_targets body) no_env [] body (define_all (push_frame s) ps vs)); [reflexivity | | apply (H L)]. split; [auto |]. split; [discriminate |]. split; [apply inv_none |]. split; [intros J; congruence |]. split; [apply (functions_fresh t ps body E) |]. split; [| congruence].
  intros _ x Ix. exists t, ps, body. auto.
Qed.
Notation ev := (eval P lookup (call ex F)). Notation ev' := (eval P lookup (call ex' propagated)).
Lemma EK : forall p s fl s1, (in_function s = true -> forall x, In x (set_targets p) -> set_by x) -> ex p s = (Ok fl, s1) -> kept F (names p) s s1.
Proof. exact (exec_kept P items ext show F n). Qed.
Lemma expr_ok m seen e s : inv m seen s -> regular P lookup (call ex F) no_bools rc e s -> ev' (sf m e) s = ev e s.
Proof. intros I R. apply (sf_ok ex rg EK m seen (call ex' propagated) call_agree e s I R). Qed.
Lemma ev_kept e s v s1 : ev e s = (Ok v, s1) -> kept F [] s s1.
Proof. apply (eval_kept P ext F ex EK). Qed.
(** The conditions hold again later, for a part of the program. *)
Lemma proper_move mutated m seen p s N s1 q : proper mutated m seen p s -> kept F N s s1 -> (forall x l, m x = Some l -> ~ In x N) ->
  (forall x, In x (set_targets q) -> In x (set_targets p)) -> (forall x, In x (binders q) -> In x (binders p)) -> no_shadow seen q -> proper mutated m seen q s1.
Proof.
  intros (P1 & P2 & P3 & P4 & P5 & P6 & P7) K D Hs Hb Fq. split; [auto |]. split; [exact P2 |]. split; [apply (inv_kept m seen s s1 N P3 K D) |]. split; [apply (rooted_kept N s s1 P4 K) |]. split; [exact Fq |]. rewrite (in_function_frames _ _ (k_frames _ _ _ _ K)). split; auto.
Qed.
Lemma proper_push mutated m seen p s : proper mutated m seen p s -> proper mutated m seen p (push_scope s).
Proof. intros (P1 & P2 & P3 & P4 & P5 & P6 & P7). repeat split; auto; try apply (P3 x l H); apply rooted_push. Qed.
Lemma proper_names mutated m seen p s : proper mutated m seen p s -> forall x l, m x = Some l -> ~ In x (names p).
Proof.
  intros (P1 & P2 & P3 & P4 & P5 & P6 & P7) x l E I. apply in_app_iff in I as [I | I]; [apply (shadow_binders p seen x P5 (h_seen _ _ _ _ _ (P3 x l E)) I) | apply (P2 x l E), P1, I].
Qed.
Lemma block_ok mutated m seen b s : proper mutated m seen b s -> rg no_bools b (push_scope s) -> block ex' (prop_list mutated m b) s = block ex b s.
Proof. intros H R. unfold block. rewrite (IH mutated m seen b (push_scope s) (proper_push _ _ _ _ _ H) R). reflexivity. Qed.
Lemma block_keeps b s fl s1 : (in_function s = true -> forall x, In x (set_targets b) -> set_by x) -> block ex b s = (Ok fl, s1) -> kept F (names b) s s1.
Proof. intros B E. apply (block_kept F ex EK b s fl s1 B E). Qed.
Lemma iter_ok mutated m seen x b vs : ~ In x seen -> forall s, proper mutated m (x :: seen) b s -> (forall y l, m y = Some l -> y <> x) -> reg_iter ex rg no_bools x b vs s -> iterate ex' x (prop_list mutated m b) vs s = iterate ex x b vs s.
Proof.
  intros Nx. induction vs as [| v vs IHv]; intros s H D R; [reflexivity |]. destruct R as [R1 R2]. cbn [iterate]. pose proof (kept_define F s x v) as Kd.
  assert (Hd : proper mutated m (x :: seen) b (define s x v)) by (apply (proper_move _ _ _ b s [x]); auto; [intros y l E [-> | []]; apply (D y l E eq_refl) | apply H]).
  rewrite (block_ok mutated m (x :: seen) b (define s x v) Hd R1). destruct (block ex b (define s x v)) as [[fl | |] s1] eqn:E; cbn [bind]; try reflexivity. destruct fl; try reflexivity. apply IHv; [| exact D | apply (R2 s1 eq_refl)].
  apply (proper_move _ _ _ b (define s x v) (names b)); auto; [apply (block_keeps b _ Next s1); [apply Hd | exact E] | apply (proper_names _ _ _ _ _ Hd) | apply H].
Qed.
Definition after (seen : list nat) (st : stmt) : list nat := match st with SLet x _ _ _ => x :: seen | _ => seen end.
Lemma set_targets_one st x : In x (set_targets [st]) <-> In x (targets_of st).
Proof. unfold set_targets. cbn [flat_map]. rewrite app_nil_r. tauto. Qed.
Lemma binders_one st x : In x (binders [st]) <-> In x (binders_of st).
Proof. unfold binders. cbn [flat_map]. rewrite app_nil_r. tauto. Qed.
Lemma propagatable_lit e l : propagatable e = Some l -> e = ELit l.
Proof. destruct e as [[] | | | | |]; cbn; congruence. Qed.
Lemma inv_set m seen s x l : inv m seen s -> (forall y k, m y = Some k -> y <> x -> holds m seen s y k) -> holds m seen s x l -> inv (set_env m x (Some l)) seen s.
Proof. intros I H Hx y k E. unfold set_env in E. destruct (Nat.eqb_spec y x) as [-> | D]; [injection E as <-; destruct Hx; split; assumption | destruct (I y k E); split; assumption]. Qed.
Lemma stmt_ok mutated m seen st s : proper mutated m seen [st] s -> reg_stmt P items ext plain ex rg F no_bools st s ->
  exec_stmt ex' propagated (fst (prop_stmt mutated m st)) s = exec_stmt ex F st s /\
  forall s1, exec_stmt ex F st s = (Ok Next, s1) -> inv (snd (prop_stmt mutated m st)) (after seen st) s1 /\ forall x l, snd (prop_stmt mutated m st) x = Some l -> ~ In x mutated.
Proof.
  intros H R. pose proof H as (P1 & P2 & P3 & P4 & P5 & P6 & P7). destruct P5 as [P5 _].
  assert (Plain : snd (prop_stmt mutated m st) = m -> after seen st = seen -> forall s1, exec_stmt ex F st s = (Ok Next, s1) -> inv (snd (prop_stmt mutated m st)) (after seen st) s1 /\ forall x l, snd (prop_stmt mutated m st) x = Some l -> ~ In x mutated).
  { intros -> -> s1 E. split; [| exact P2]. apply (inv_kept m seen s s1 (names [st]) P3); [apply (stmt_kept P items ext show F ex EK st s Next s1 P6 E) | apply (proper_names _ _ _ _ _ H)]. }
  assert (Mv : forall q s1, kept F [] s s1 -> (forall x, In x (set_targets q) -> In x (targets_of st)) -> (forall x, In x (binders q) -> In x (binders_of st)) -> no_shadow seen q -> proper mutated m seen q s1).
  { intros q s1 K Hs Hb Fq. apply (proper_move mutated m seen [st] s [] s1 q H K); [intros x l _ [] | intros x Ix; apply set_targets_one, Hs, Ix | intros x Ix; apply binders_one, Hb, Ix | exact Fq]. }
  destruct st as [x ann mut e | x e | c t f | c b | x e b | e | | e | t args]; cbn [PropModel.prop_stmt fst snd FoldStmtModel.exec_stmt reg_stmt after] in *.
  - destruct R as [R _]. pose proof (expr_ok m seen e s P3 R) as Ee. rewrite Ee. split; [reflexivity |]. intros s1 E. apply bind_ok in E as (v & s2 & E & E2). injection E2 as <-. pose proof (ev_kept e s v s2 E) as K2.
    assert (I2 : inv m seen s2) by (apply (inv_kept m seen s s2 [] P3 K2); intros y l _ []). pose proof (rooted_kept [] s s2 P4 K2) as R2.
    assert (I3 : inv m (x :: seen) (define s2 x v)) by (apply inv_seen, (inv_kept m seen s2 _ [x] I2); [apply kept_define | intros y l Ey [-> | []]; apply P5, (h_seen _ _ _ _ _ (P3 y l Ey))]).
    destruct (negb mut && negb (member x mutated)) eqn:Q; [| split; [exact I3 | exact P2]]. destruct (propagatable (sf m e)) as [l |] eqn:Pl; [| split; [exact I3 | exact P2]].
    apply propagatable_lit in Pl. rewrite Pl in Ee. cbn [eval] in Ee. rewrite E in Ee. injection Ee as <- <-. destruct (lookup_define s x (lit_val l) R2) as (L1 & L2 & L3). split.
    + apply inv_set; [exact I3 | intros y k Ey _; apply (I3 y k Ey) |]. split; [left; reflexivity | exact L1 | rewrite L3; exact L2 | rewrite L3; intros J; apply (P7 J), binders_one; left; reflexivity].
    + intros y k Ey. unfold set_env in Ey. destruct (Nat.eqb_spec y x) as [-> | D]; [| apply (P2 y k Ey)]. intros J. apply andb_true_iff in Q as [_ Q]. apply negb_true_iff in Q. apply member_spec in J. congruence.
  - rewrite (expr_ok m seen e s P3 R). split; [reflexivity |]. intros s1 E. split.
    + assert (I1 : inv (set_env m x None) seen s) by (intros y l Ey; unfold set_env in Ey; destruct (Nat.eqb y x); [discriminate |]; destruct (P3 y l Ey); split; assumption).
      apply (inv_kept _ seen s s1 (names [SSet x e]) I1); [apply (stmt_kept P items ext show F ex EK (SSet x e) s Next s1 P6 E) |]. intros y l Ey. unfold set_env in Ey. destruct (Nat.eqb_spec y x) as [-> | D]; [discriminate |]. cbn. intros [-> | []]. contradiction.
    + intros y l Ey. unfold set_env in Ey. destruct (Nat.eqb y x); [discriminate | apply (P2 y l Ey)].
  - split; [| apply Plain; reflexivity]. destruct R as [Rc Rb]. rewrite (expr_ok m seen c s P3 Rc). destruct (ev c s) as [[v | |] s1] eqn:E; cbn [bind]; try reflexivity. specialize (Rb v s1 eq_refl). pose proof (ev_kept c s v s1 E) as K. destruct P5 as [Ft Ff]. change (no_shadow seen t) in Ft.
    assert (St : forall y, In y (set_targets t) -> In y (targets_of (SIf c t f))) by (intros y Iy; cbn; apply in_app_iff; left; exact Iy). assert (Bt : forall y, In y (binders t) -> In y (binders_of (SIf c t f))) by (intros y Iy; cbn; apply in_app_iff; left; exact Iy).
    destruct (truthy P v); [apply (block_ok mutated m seen t s1 (Mv t s1 K St Bt Ft) Rb) |]. destruct f as [f |]; [| reflexivity]. change (no_shadow seen f) in Ff. apply (block_ok mutated m seen f s1); [| exact Rb]. apply (Mv f s1 K); [| | exact Ff]; intros y Iy; cbn; apply in_app_iff; right; exact Iy.
  - split; [| apply Plain; reflexivity]. destruct R as [Rc Rb]. rewrite (expr_ok m seen c s P3 Rc). destruct (ev c s) as [[v | |] s1] eqn:E; cbn [bind]; try reflexivity. destruct (truthy P v) eqn:T; [| reflexivity]. destruct (Rb v s1 eq_refl T) as [R1 R2]. pose proof (ev_kept c s v s1 E) as K. change (no_shadow seen b) in P5.
    assert (Hb : proper mutated m seen b s1) by (apply (Mv b s1 K); auto). pose proof (block_ok mutated m seen b s1 Hb R1) as Bo. unfold PropModel.prop_list in Bo. rewrite Bo. destruct (block ex b s1) as [[fl | |] s2] eqn:Eb; cbn [bind]; try reflexivity. destruct fl; try reflexivity.
    apply (IH mutated m seen [SWhile c b] s2); [| apply (R2 s2 eq_refl)]. apply (proper_move mutated m seen [SWhile c b] s (names b) s2); auto; [| intros y l Ey; apply (proper_names _ _ _ _ _ Hb y l Ey) | split; [exact P5 | exact Logic.I]]. apply kept_trans with s1; [apply kept_nil, K |]. apply (block_keeps b s1 Next s2); [apply Hb | exact Eb].
  - split; [| apply Plain; reflexivity]. destruct R as [Rc Rb]. rewrite (expr_ok m seen e s P3 Rc). destruct (ev e s) as [[v | |] s1] eqn:E; cbn [bind]; try reflexivity. destruct (items v) as [vs |] eqn:Iv; [| reflexivity]. specialize (Rb v s1 vs eq_refl Iv). pose proof (ev_kept e s v s1 E) as K. destruct P5 as [Nx Fb]. change (no_shadow (x :: seen) b) in Fb.
    assert (Hb : proper mutated m (x :: seen) b (push_scope s1)).
    { apply proper_push. split; [intros y Iy; apply P1, set_targets_one; exact Iy |]. split; [exact P2 |]. split; [apply inv_seen, (inv_kept m seen s s1 [] P3 K); intros y l _ [] |]. split; [apply (rooted_kept [] s s1 P4 K) |]. split; [exact Fb |]. rewrite (in_function_frames _ _ (k_frames _ _ _ _ K)). split; intros J y Iy; [apply (P6 J), set_targets_one; exact Iy | apply (P7 J), binders_one; right; exact Iy]. }
    assert (D : forall y l, m y = Some l -> y <> x) by (intros y l Ey ->; apply Nx, (h_seen _ _ _ _ _ (P3 x l Ey))).
    pose proof (iter_ok mutated m seen x b vs Nx (push_scope s1) Hb D Rb) as Io. unfold PropModel.prop_list in Io. rewrite Io. reflexivity.
  - split; [| apply Plain; reflexivity]. destruct e as [e |]; [| reflexivity]. cbn [option_map]. rewrite (expr_ok m seen e s P3 R). reflexivity.
  - split; [reflexivity | apply Plain; reflexivity].
  - split; [| apply Plain; reflexivity]. rewrite (expr_ok m seen e s P3 R). reflexivity.
  - split; [| apply Plain; reflexivity]. destruct R as [Ra Rc]. rewrite (args_ok ex rg EK m seen (call ex' propagated) call_agree (opens t) args 0 s P3 Ra). destruct (eval_list ev args s) as [[vs | |] s1] eqn:E; cbn [bind]; try reflexivity. rewrite (call_agree t vs s1 (Rc vs s1 eq_refl)). reflexivity.
Qed.
End Step.
Lemma prop_main n : forall mutated m seen p s, proper mutated m seen p s -> reg n no_bools p s -> exec propagated n (prop_list mutated m p) s = exec F n p s.
Proof.
  induction n as [| n IH]; intros mutated m seen p s H R; [reflexivity |]. destruct p as [| st rest]; [reflexivity |]. destruct R as [R1 R2]. pose proof H as (P1 & P2 & P3 & P4 & P5 & P6 & P7). destruct P5 as [F1 F2].
  assert (H1 : proper mutated m seen [st] s).
  { split; [intros x Ix; apply P1; unfold set_targets in *; cbn [flat_map] in *; rewrite app_nil_r in Ix; apply in_app_iff; left; exact Ix |]. split; [exact P2 |]. split; [exact P3 |]. split; [exact P4 |]. split; [split; [exact F1 | exact Logic.I] |]. split; intros J x Ix; [apply (P6 J) | apply (P7 J)]; unfold set_targets, binders in *; cbn [flat_map] in *; rewrite app_nil_r in Ix; apply in_app_iff; left; exact Ix. }
  destruct (stmt_ok n IH mutated m seen st s H1 R1) as [E1 E2]. change (PropModel.prop_list sealed opens mutated m (st :: rest)) with (let '(st', m') := prop_stmt mutated m st in st' :: prop_list mutated m' rest). destruct (prop_stmt mutated m st) as [st' m'] eqn:Ep. cbn [fst snd] in *. cbn [FoldStmtModel.exec]. rewrite E1. destruct (exec_stmt (exec F n) F st s) as [[fl | |] s1] eqn:E; cbn [bind]; try reflexivity. destruct fl; try reflexivity.
  destruct (E2 s1 eq_refl) as [I1 D1]. pose proof (stmt_kept P items ext show F (exec F n) (EK n) st s Next s1 (proj1 (proj2 (proj2 (proj2 (proj2 (proj2 H1)))))) E) as K.
  apply (IH mutated m' (after seen st) rest s1); [| apply (R2 s1 eq_refl)]. split; [intros x Ix; apply P1; unfold set_targets in *; cbn [flat_map]; apply in_app_iff; right; exact Ix |]. split; [exact D1 |]. split; [exact I1 |]. split; [apply (rooted_kept (names [st]) s s1 P4 K) |]. split; [exact F2 |]. rewrite (in_function_frames _ _ (k_frames _ _ _ _ K)).
  split; intros J x Ix; [apply (P6 J) | apply (P7 J)]; unfold set_targets, binders in *; cbn [flat_map]; apply in_app_iff; right; exact Ix.
Qed.
End Prop_.
