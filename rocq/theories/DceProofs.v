(** Proofs about dead store and branch elimination. *)
From Coq Require Import ZArith List Bool Lia FunctionalExtensionality.
From Verif Require Import FoldModel FoldProofs FoldMain FoldStmtModel DceModel DceExec.
Import ListNotations.
Local Open Scope nat_scope.

Lemma member_in x l : member x l = true <-> In x l.
Proof. unfold member. rewrite existsb_exists. split; [intros (y & I & E); apply Nat.eqb_eq in E; subst; exact I | intros I; exists x; split; [exact I | apply Nat.eqb_refl]]. Qed.
Definition apart (l D : list nat) : Prop := forall x, In x l -> ~ In x D.
Lemma apart_app l l' D : apart (l ++ l') D <-> apart l D /\ apart l' D.
Proof. split; [intros H; split; intros x I; apply H, in_or_app; tauto | intros [H1 H2] x I; apply in_app_or in I as [I | I]; auto]. Qed.

Section Agree.
Context {W : Type}.
Notation state := (state W).
Definition cur (s : state) : vars := if in_function s then locals s else main_block s.
Definition off (s : state) : vars := if in_function s then main_block s else locals s.
(** The two states agree but for the value a lookup of a symbol of [D] finds. *)
Definition near (c1 g1 c2 g2 : option value) : Prop := (c1 = None /\ c2 = None /\ (g1 = None <-> g2 = None)) \/ (c1 <> None /\ c2 <> None /\ g1 = g2).
Record agree (D : list nat) (s1 s2 : state) : Prop := { a_saves : saves s1 = saves s2; a_frames : frames s1 = frames s2; a_world : world s1 = world s2; a_off : forall x, off s1 x = off s2 x;
  a_same : forall x, ~ In x D -> cur s1 x = cur s2 x /\ globals s1 x = globals s2 x; a_near : forall x, In x D -> near (cur s1 x) (globals s1 x) (cur s2 x) (globals s2 x) }.
Lemma agree_function D s1 s2 : agree D s1 s2 -> in_function s1 = in_function s2.
Proof. intros A. unfold in_function. rewrite (a_frames _ _ _ A). reflexivity. Qed.
Lemma agree_refl s : agree [] s s.
Proof. constructor; auto. intros x []. Qed.
Lemma agree_nil s1 s2 : agree [] s1 s2 -> s1 = s2.
Proof.
  intros A. pose proof (agree_function _ _ _ A) as IF. destruct A as [As Af Aw Ao Ae _]. assert (G : globals s1 = globals s2) by (apply functional_extensionality; intros x; apply Ae; intros []).
  assert (C : cur s1 = cur s2) by (apply functional_extensionality; intros x; apply Ae; intros []). assert (O : off s1 = off s2) by (apply functional_extensionality; exact Ao). unfold cur, off in *. rewrite <- IF in *.
  destruct s1, s2. cbn in *. destruct (in_function _); subst; reflexivity.
Qed.
Lemma agree_look D s1 s2 x : agree D s1 s2 -> ~ In x D -> lookup s1 x = lookup s2 x.
Proof.
  intros A N. pose proof (agree_function _ _ _ A) as IF. destruct (a_same _ _ _ A x N) as [C G]. unfold lookup, cur in *. rewrite <- IF in *. rewrite G. destruct (in_function s1); rewrite C; reflexivity.
Qed.
Lemma agree_set_world D s1 s2 w : agree D s1 s2 -> agree D (set_world s1 w) (set_world s2 w).
Proof. intros []. constructor; auto. Qed.
Definition put_cur (s : state) (m : vars) : state := if in_function s then set_locals s m else set_main s m.
Lemma assign_eq (s : state) x v : assign s x v = match cur s x with Some _ => Some (put_cur s (update (cur s) x (Some v))) | None => match globals s x with Some _ => Some (set_globals s (update (globals s) x (Some v))) | None => None end end.
Proof. unfold assign, cur, put_cur. destruct (in_function s); reflexivity. Qed.
Lemma put_cur_cur (s : state) m : cur (put_cur s m) = m.
Proof. unfold cur, put_cur. destruct (in_function s) eqn:I; unfold in_function in *; cbn; rewrite I; reflexivity. Qed.
Lemma put_cur_off (s : state) m : off (put_cur s m) = off s.
Proof. unfold off, put_cur. destruct (in_function s) eqn:I; unfold in_function in *; cbn; rewrite I; reflexivity. Qed.
Lemma put_cur_rest (s : state) m : globals (put_cur s m) = globals s /\ saves (put_cur s m) = saves s /\ frames (put_cur s m) = frames s /\ world (put_cur s m) = world s.
Proof. unfold put_cur. destruct (in_function s); auto. Qed.
Lemma agree_dead D s1 s2 x v s1' : agree D s1 s2 -> assign s1 x v = Some s1' -> agree (x :: D) s1' s2.
Proof.
  intros A E. rewrite assign_eq in E. assert (N : near (cur s1 x) (globals s1 x) (cur s2 x) (globals s2 x)).
  { destruct (in_dec Nat.eq_dec x D) as [I | N]; [apply (a_near _ _ _ A x I) |]. destruct (a_same _ _ _ A x N) as [-> ->]. unfold near. destruct (cur s2 x); [right | left]; repeat split; auto; discriminate. }
  destruct A as [As Af Aw Ao Ae An]. destruct (cur s1 x) as [u |] eqn:C.
  - injection E as <-. destruct (put_cur_rest s1 (update (cur s1) x (Some v))) as (G1 & G2 & G3 & G4). constructor; rewrite ?G2, ?G3, ?G4; auto.
    + intros y. rewrite put_cur_off. apply Ao.
    + intros y Ny. rewrite put_cur_cur, G1. unfold update. destruct (Nat.eqb_spec y x) as [-> | Nx]; [exfalso; apply Ny; left; reflexivity |]. apply Ae. intros I. apply Ny. right. exact I.
    + intros y Iy. rewrite put_cur_cur, G1. unfold update. destruct (Nat.eqb_spec y x) as [-> | Nx].
      * destruct N as [(N & _) | (_ & N2 & N3)]; [discriminate |]. right. repeat split; auto. discriminate.
      * destruct Iy as [-> | Iy]; [contradiction | apply An, Iy].
  - destruct (globals s1 x) as [u |] eqn:G; [| discriminate]. injection E as <-. constructor; auto.
    + intros y Ny. change (cur (set_globals s1 (update (globals s1) x (Some v)))) with (cur s1). cbn [globals set_globals]. unfold update. destruct (Nat.eqb_spec y x) as [-> | Nx]; [exfalso; apply Ny; left; reflexivity |]. apply Ae. intros I. apply Ny. right. exact I.
    + intros y Iy. change (cur (set_globals s1 (update (globals s1) x (Some v)))) with (cur s1). cbn [globals set_globals]. unfold update. destruct (Nat.eqb_spec y x) as [-> | Nx].
      * destruct N as [(_ & N2 & N3) | (N & _)]; [| contradiction]. left. repeat split; auto; [discriminate |]. intros H. apply N3 in H. discriminate.
      * destruct Iy as [-> | Iy]; [contradiction | apply An, Iy].
Qed.
Lemma agree_set D s1 s2 x v s1' : agree D s1 s2 -> assign s1 x v = Some s1' -> exists s2', assign s2 x v = Some s2' /\ agree (remove Nat.eq_dec x D) s1' s2'.
Proof.
  intros A E. rewrite assign_eq in *. assert (N : near (cur s1 x) (globals s1 x) (cur s2 x) (globals s2 x)).
  { destruct (in_dec Nat.eq_dec x D) as [I | N]; [apply (a_near _ _ _ A x I) |]. destruct (a_same _ _ _ A x N) as [-> ->]. unfold near. destruct (cur s2 x); [right | left]; repeat split; auto; discriminate. }
  destruct A as [As Af Aw Ao Ae An]. destruct (cur s1 x) as [u |] eqn:C.
  - injection E as <-. destruct N as [(N & _) | (_ & N2 & N3)]; [discriminate |]. destruct (cur s2 x) as [u2 |]; [| contradiction]. eexists. split; [reflexivity |]. destruct (put_cur_rest s1 (update (cur s1) x (Some v))) as (G1 & G2 & G3 & G4). destruct (put_cur_rest s2 (update (cur s2) x (Some v))) as (H1 & H2 & H3 & H4).
    constructor; rewrite ?G2, ?G3, ?G4, ?H2, ?H3, ?H4; auto.
    + intros y. rewrite !put_cur_off. apply Ao.
    + intros y Ny. rewrite !put_cur_cur, G1, H1. unfold update. destruct (Nat.eqb_spec y x) as [-> | Nx]; [auto |]. apply Ae. intros I. apply Ny, in_in_remove; auto.
    + intros y Iy. apply in_remove in Iy as [Iy Nx]. rewrite !put_cur_cur, G1, H1. unfold update. destruct (Nat.eqb_spec y x) as [-> | _]; [contradiction |]. apply An, Iy.
  - destruct N as [(_ & N2 & N3) | (N & _)]; [| contradiction]. rewrite N2. destruct (globals s1 x) as [u |] eqn:G; [| discriminate]. injection E as <-. destruct (globals s2 x) as [u2 |] eqn:G2; [| exfalso; assert (K : Some u = None) by (apply N3; reflexivity); discriminate]. eexists. split; [reflexivity |]. constructor; auto.
    + intros y Ny. change (cur (set_globals s1 (update (globals s1) x (Some v)))) with (cur s1). change (cur (set_globals s2 (update (globals s2) x (Some v)))) with (cur s2). cbn [globals set_globals]. unfold update. destruct (Nat.eqb_spec y x) as [-> | Nx]; [rewrite C, N2; auto |]. apply Ae. intros I. apply Ny, in_in_remove; auto.
    + intros y Iy. apply in_remove in Iy as [Iy Nx]. change (cur (set_globals s1 (update (globals s1) x (Some v)))) with (cur s1). change (cur (set_globals s2 (update (globals s2) x (Some v)))) with (cur s2). cbn [globals set_globals]. unfold update. destruct (Nat.eqb_spec y x) as [-> | _]; [contradiction |]. apply An, Iy.
Qed.
Lemma define_eq (s : state) x v : define s x v =
  match saves s with
  | [] => if in_function s then put_cur s (update (cur s) x (Some v)) else set_globals s (update (globals s) x (Some v))
  | l :: r => set_saves (put_cur s (update (cur s) x (Some v))) (((x, cur s x) :: l) :: r)
  end.
Proof. unfold define, cur, put_cur. destruct (in_function s); destruct (saves s) as [| l r] eqn:E; cbn [set_locals set_main saves]; rewrite ?E; reflexivity. Qed.
Lemma cur_saves (s : state) l : cur (set_saves s l) = cur s. Proof. reflexivity. Qed.
Lemma off_saves (s : state) l : off (set_saves s l) = off s. Proof. reflexivity. Qed.
Lemma agree_define D s1 s2 x v : agree D s1 s2 -> ~ In x D -> agree D (define s1 x v) (define s2 x v).
Proof.
  intros A N. pose proof (agree_function _ _ _ A) as IF. destruct A as [As Af Aw Ao Ae An]. rewrite !define_eq, <- As, <- IF. destruct (Ae x N) as [Cx Gx].
  destruct (put_cur_rest s1 (update (cur s1) x (Some v))) as (G1 & G2 & G3 & G4). destruct (put_cur_rest s2 (update (cur s2) x (Some v))) as (H1 & H2 & H3 & H4).
  assert (K : forall y, ~ In y D -> update (cur s1) x (Some v) y = update (cur s2) x (Some v) y) by (intros y Ny; unfold update; destruct (Nat.eqb y x); [reflexivity | apply Ae, Ny]).
  assert (K2 : forall y, In y D -> update (cur s1) x (Some v) y = cur s1 y /\ update (cur s2) x (Some v) y = cur s2 y) by (intros y Iy; unfold update; destruct (Nat.eqb_spec y x) as [-> | _]; [contradiction | auto]).
  destruct (saves s1) as [| l r] eqn:S1; [destruct (in_function s1) |].
  - constructor; rewrite ?G2, ?G3, ?G4, ?H2, ?H3, ?H4; auto; intros y; rewrite ?put_cur_off, ?put_cur_cur, ?G1, ?H1; auto; [intros Ny; split; [apply K, Ny | apply Ae, Ny] |]. intros Iy. destruct (K2 y Iy) as [-> ->]. apply An, Iy.
  - constructor; cbn [saves frames world set_globals]; auto; try (rewrite <- As; exact S1); intros y; change (cur (set_globals s1 (update (globals s1) x (Some v)))) with (cur s1); change (cur (set_globals s2 (update (globals s2) x (Some v)))) with (cur s2); cbn [globals set_globals].
    + intros Ny. split; [apply Ae, Ny |]. unfold update. destruct (Nat.eqb y x); [reflexivity | apply Ae, Ny].
    + intros Iy. unfold update. destruct (Nat.eqb_spec y x) as [-> | _]; [contradiction |]. apply An, Iy.
  - constructor; rewrite ?cur_saves, ?off_saves; cbn [saves frames world set_saves globals]; rewrite ?G3, ?G4, ?H3, ?H4, ?Cx; auto; intros y; rewrite ?put_cur_off, ?put_cur_cur, ?G1, ?H1; auto; [intros Ny; split; [apply K, Ny | apply Ae, Ny] |]. intros Iy. destruct (K2 y Iy) as [-> ->]. apply An, Iy.
Qed.
End Agree.

Section Sim.
Context {W : Type} (P : prims) (items : value -> option (list value)) (ext : nat -> list value -> W -> outcome value * W) (show : value -> W -> W).
Context (opaque : nat -> bool) (F F' : nat -> option func).
Notation state := (state W). Notation exec F := (FoldStmtModel.exec P items ext show F). Notation exec_stmt ex F := (FoldStmtModel.exec_stmt P items ext show ex F). Notation call ex F := (FoldStmtModel.call ext ex F).
Notation ev ex F := (eval P lookup (call ex F)). Notation analyzable := (analyzable opaque).
Hypothesis seen : forall t, F t <> None -> opaque t = true.
Hypothesis pure : forall t vs w, opaque t = false -> snd (ext t vs w) = w.

(** ** What the eliminated program is to the original *)
Inductive rels : stmt -> stmt -> Prop :=
  | rels_same st : rels st st
  | rels_if c t t' f f' : relb t t' -> relo f f' -> rels (SIf c t f) (SIf c t' f')
  | rels_while c b b' : relb b b' -> rels (SWhile c b) (SWhile c b')
  | rels_repeat x e b b' : relb b b' -> rels (SRepeat x e b) (SRepeat x e b')
with relo : option (list stmt) -> option (list stmt) -> Prop :=
  | relo_none : relo None None
  | relo_some b b' : relb b b' -> relo (Some b) (Some b')
with relb : list stmt -> list stmt -> Prop :=
  | relb_same b : relb b b
  | relb_rel p q : rel [] p q -> relb p q
  | relb_trunc p q : rel [] p q -> relb p (trunc q)
with rel : list nat -> list stmt -> list stmt -> Prop :=
  | rel_nil : rel [] [] []
  | rel_stmt st st' p q : rels st st' -> rel [] p q -> rel [] (st :: p) (st' :: q)
  | rel_let D x a m e p q : analyzable e = true -> apart (expr_reads e) D -> ~ In x D -> rel D p q -> rel D (SLet x a m e :: p) (SLet x a m e :: q)
  | rel_set D x e p q : analyzable e = true -> apart (expr_reads e) D -> rel (remove Nat.eq_dec x D) p q -> rel D (SSet x e :: p) (SSet x e :: q)
  | rel_dead D x e p q : analyzable e = true -> apart (expr_reads e) D -> rel (x :: D) p q -> rel D (SSet x e :: p) q
  | rel_show D e p q : analyzable e = true -> apart (expr_reads e) D -> rel D p q -> rel D (SShow e :: p) (SShow e :: q)
  | rel_eff D t args p q : F t = None -> forallb analyzable args = true -> apart (flat_map expr_reads args) D -> rel D p q -> rel D (SEff t args :: p) (SEff t args :: q)
  | rel_true t f p q : no_let t -> rel [] p q -> rel [] (SIf (ELit (LBool true)) t f :: p) (t ++ q)
  | rel_false t f p q : no_let f -> rel [] p q -> rel [] (SIf (ELit (LBool false)) t (Some f) :: p) (f ++ q)
  | rel_false_none t p q : rel [] p q -> rel [] (SIf (ELit (LBool false)) t None :: p) q
  | rel_never b p q : rel [] p q -> rel [] (SWhile (ELit (LBool false)) b :: p) q.
Hypothesis HF : forall t, match F t, F' t with None, None => True | Some (ps, b), Some (ps', b') => ps = ps' /\ relb b b' | _, _ => False end.

Lemma rel_refl p : rel [] p p.
Proof. induction p as [| st p IH]; [constructor | apply rel_stmt; [constructor | exact IH]]. Qed.
(** ** Expressions whose reads are all known *)
Section Pure.
Context (ex1 ex2 : list stmt -> state -> outcome flow * state).
Lemma none' t : F t = None -> F' t = None.
Proof. intros E. pose proof (HF t) as H. rewrite E in H. destruct (F' t); [contradiction | reflexivity]. Qed.
Lemma pure_eval e : forall s v s1, analyzable e = true -> ev ex1 F e s = (Ok v, s1) -> s1 = s /\ forall D s2, agree D s s2 -> apart (expr_reads e) D -> ev ex2 F' e s2 = (Ok v, s2).
Proof.
  induction e as [l | x | op l r IHl IHr | a IHa | c w IHc IHw | t args IH] using expr_ind2; intros s v s1 An E.
  - injection E as <- <-. split; reflexivity.
  - cbn [eval] in *. destruct (lookup s x) as [u |] eqn:L; [| discriminate]. injection E as <- <-. split; [reflexivity |]. intros D s2 A Ap. rewrite <- (agree_look D s s2 x A), L; [reflexivity | apply Ap; left; reflexivity].
  - cbn [DceModel.analyzable] in An. apply andb_prop in An as [An1 An2]. cbn [expr_reads].
    destruct op; cbn [eval] in *; apply bind_ok in E as (u & s2 & E1 & E); destruct (IHl _ _ _ An1 E1) as [-> K1];
      try (apply bind_ok in E as (w & s3 & E2 & E); destruct (IHr _ _ _ An2 E2) as [-> K2]; destruct (binary_op P _ u w) as [z |] eqn:Bo; [| discriminate]; cbn [of_option] in E; injection E as <- <-; (split; [reflexivity |]); intros D s2 A Ap; apply apart_app in Ap as [Ap1 Ap2]; rewrite (K1 D s2 A Ap1); cbn [bind]; rewrite (K2 D s2 A Ap2); cbn [bind]; rewrite Bo; reflexivity);
      (destruct (truthy P u) eqn:Tr; [try (injection E as <- <-; (split; [reflexivity |]); intros D s2 A Ap; apply apart_app in Ap as [Ap1 Ap2]; rewrite (K1 D s2 A Ap1); cbn [bind]; rewrite Tr; reflexivity) | try (injection E as <- <-; (split; [reflexivity |]); intros D s2 A Ap; apply apart_app in Ap as [Ap1 Ap2]; rewrite (K1 D s2 A Ap1); cbn [bind]; rewrite Tr; reflexivity)]);
      apply bind_ok in E as (w & s3 & E2 & E); destruct (IHr _ _ _ An2 E2) as [-> K2]; injection E as <- <-; (split; [reflexivity |]); intros D s2 A Ap; apply apart_app in Ap as [Ap1 Ap2]; rewrite (K1 D s2 A Ap1); cbn [bind]; rewrite Tr, (K2 D s2 A Ap2); reflexivity.
  - cbn [eval DceModel.analyzable expr_reads] in *. apply bind_ok in E as (u & s2 & E1 & E). destruct (IHa _ _ _ An E1) as [-> K1]. injection E as <- <-. split; [reflexivity |]. intros D s2 A Ap. rewrite (K1 D s2 A Ap). reflexivity.
  - cbn [eval DceModel.analyzable expr_reads] in *. apply andb_prop in An as [An1 An2]. apply bind_ok in E as (u & s2 & E1 & E). destruct (IHc _ _ _ An1 E1) as [-> K1]. apply bind_ok in E as (w' & s3 & E2 & E). destruct (IHw _ _ _ An2 E2) as [-> K2]. destruct (contains P u w') as [z |] eqn:Co; [| discriminate]. cbn [option_map of_option] in E. injection E as <- <-. split; [reflexivity |].
    intros D s2 A Ap. apply apart_app in Ap as [Ap1 Ap2]. rewrite (K1 D s2 A Ap1). cbn [bind]. rewrite (K2 D s2 A Ap2). cbn [bind]. rewrite Co. reflexivity.
  - cbn [eval DceModel.analyzable expr_reads] in *. apply andb_prop in An as [An1 An2]. apply negb_true_iff in An1. apply bind_ok in E as (vs & s2 & E1 & E).
    assert (L : s2 = s /\ forall D s3, agree D s s3 -> apart (flat_map expr_reads args) D -> eval_list (ev ex2 F') args s3 = (Ok vs, s3)).
    { clear E. revert vs s2 E1. induction args as [| e es IHes]; intros vs s2 E; [injection E as <- <-; split; reflexivity |]. inversion IH as [| ? ? He Hes]; subst. cbn [forallb] in An2. apply andb_prop in An2 as [Ae Aes]. cbn [eval_list flat_map] in *. apply bind_ok in E as (u & s3 & E1 & E). destruct (He _ _ _ Ae E1) as [-> K1]. apply bind_ok in E as (us & s4 & E2 & E). destruct (IHes Hes Aes _ _ E2) as [-> K2]. injection E as <- <-. split; [reflexivity |].
      intros D s3 A Ap. apply apart_app in Ap as [Ap1 Ap2]. rewrite (K1 D s3 A Ap1). cbn [bind]. rewrite (K2 D s3 A Ap2). reflexivity. }
    destruct L as [-> L]. assert (Fn : F t = None) by (destruct (F t) eqn:Ft; [exfalso; assert (K : opaque t = true) by (apply seen; rewrite Ft; discriminate); rewrite K in An1; discriminate | reflexivity]).
    unfold FoldStmtModel.call in *. rewrite Fn in E. pose proof (pure t vs (world s) An1) as Pu. destruct (ext t vs (world s)) as [r w] eqn:Ex. cbn [snd] in Pu. subst w. injection E as -> <-. split; [destruct s; reflexivity |].
    intros D s2 A Ap. rewrite (L D s2 A Ap). cbn [bind]. rewrite (none' t Fn), <- (a_world _ _ _ A), Ex. rewrite (a_world _ _ _ A). destruct s2; reflexivity.
Qed.
Lemma pure_list es : forall s vs s1, forallb analyzable es = true -> eval_list (ev ex1 F) es s = (Ok vs, s1) -> s1 = s /\ forall D s2, agree D s s2 -> apart (flat_map expr_reads es) D -> eval_list (ev ex2 F') es s2 = (Ok vs, s2).
Proof.
  induction es as [| e es IH]; intros s vs s1 An E; [injection E as <- <-; split; reflexivity |]. cbn [forallb eval_list flat_map] in *. apply andb_prop in An as [Ae Aes]. apply bind_ok in E as (u & s3 & E1 & E). destruct (pure_eval _ _ _ _ Ae E1) as [-> K1]. apply bind_ok in E as (us & s4 & E2 & E). destruct (IH _ _ _ Aes E2) as [-> K2]. injection E as <- <-. split; [reflexivity |].
  intros D s3 A Ap. apply apart_app in Ap as [Ap1 Ap2]. rewrite (K1 D s3 A Ap1). cbn [bind]. rewrite (K2 D s3 A Ap2). reflexivity.
Qed.
(** ** Statements that stay *)
Hypothesis B : forall p q s fl s1, relb p q -> ex1 p s = (Ok fl, s1) -> ex2 q s = (Ok fl, s1).
Lemma call_sim t vs s v s1 : call ex1 F t vs s = (Ok v, s1) -> call ex2 F' t vs s = (Ok v, s1).
Proof.
  unfold FoldStmtModel.call. pose proof (HF t) as H. destruct (F t) as [[ps b] |]; destruct (F' t) as [[ps' b'] |]; try contradiction; [| auto]. destruct H as [<- R]. destruct (negb (Nat.eqb (length vs) (length ps))); [auto |]. intros E. apply bind_ok in E as (fl & s2 & E & E2). rewrite (B _ _ _ _ _ R E). exact E2.
Qed.
Lemma eval_sim e s v s1 : ev ex1 F e s = (Ok v, s1) -> ev ex2 F' e s = (Ok v, s1).
Proof. apply eval_transfer. intros t vs s0 v0 s2. apply call_sim. Qed.
Lemma list_sim es s v s1 : eval_list (ev ex1 F) es s = (Ok v, s1) -> eval_list (ev ex2 F') es s = (Ok v, s1).
Proof. apply list_transfer. intros t vs s0 v0 s2. apply call_sim. Qed.
Lemma block_sim b b' s fl s1 : relb b b' -> block ex1 b s = (Ok fl, s1) -> block ex2 b' s = (Ok fl, s1).
Proof. unfold block. intros R E. apply bind_ok in E as (g & s2 & E & E2). rewrite (B _ _ _ _ _ R E). exact E2. Qed.
Lemma iter_sim x b b' vs : relb b b' -> forall s fl s1, iterate ex1 x b vs s = (Ok fl, s1) -> iterate ex2 x b' vs s = (Ok fl, s1).
Proof.
  intros R. induction vs as [| v vs IH]; intros s fl s1 E; [exact E |]. cbn [iterate] in *. apply bind_ok in E as (g & s2 & E & E2). rewrite (block_sim _ _ _ _ _ R E). cbn [bind]. destruct g; auto.
Qed.
Lemma stmt_sim st st' s fl s1 : rels st st' -> exec_stmt ex1 F st s = (Ok fl, s1) -> exec_stmt ex2 F' st' s = (Ok fl, s1).
Proof.
  assert (Sif : forall c t t' f f', relb t t' -> relo f f' -> exec_stmt ex1 F (SIf c t f) s = (Ok fl, s1) -> exec_stmt ex2 F' (SIf c t' f') s = (Ok fl, s1)).
  { intros c t t' f f' Rt Rf E. cbn [FoldStmtModel.exec_stmt] in *. apply bind_ok in E as (v & s2 & E & E2). rewrite (eval_sim _ _ _ _ E). cbn [bind]. destruct (truthy P v); [apply (block_sim _ _ _ _ _ Rt E2) |]. destruct Rf as [| b b' Rf]; [exact E2 | apply (block_sim _ _ _ _ _ Rf E2)]. }
  assert (Swh : forall c b b', relb b b' -> exec_stmt ex1 F (SWhile c b) s = (Ok fl, s1) -> exec_stmt ex2 F' (SWhile c b') s = (Ok fl, s1)).
  { intros c b b' R E. cbn [FoldStmtModel.exec_stmt] in *. apply bind_ok in E as (v & s2 & E & E2). rewrite (eval_sim _ _ _ _ E). cbn [bind]. destruct (truthy P v); [| exact E2]. apply bind_ok in E2 as (g & s3 & E2 & E3). rewrite (block_sim _ _ _ _ _ R E2). cbn [bind]. destruct g; try exact E3. apply (B [SWhile c b]); [apply relb_rel, rel_stmt; [apply rels_while, R | constructor] | exact E3]. }
  assert (Srp : forall x e b b', relb b b' -> exec_stmt ex1 F (SRepeat x e b) s = (Ok fl, s1) -> exec_stmt ex2 F' (SRepeat x e b') s = (Ok fl, s1)).
  { intros x e b b' R E. cbn [FoldStmtModel.exec_stmt] in *. apply bind_ok in E as (v & s2 & E & E2). rewrite (eval_sim _ _ _ _ E). cbn [bind]. destruct (items v); [| exact E2]. apply bind_ok in E2 as (g & s3 & E2 & E3). rewrite (iter_sim _ _ _ _ R _ _ _ E2). exact E3. }
  intros R E. destruct R as [st | c t t' f f' Rt Rf | c b b' R | x e b b' R]; [| apply (Sif _ _ _ _ _ Rt Rf E) | apply (Swh _ _ _ R E) | apply (Srp _ _ _ _ R E)].
  destruct st as [x ann mut e | x e | c t f | c b | x e b | e | | e | t args].
  - cbn [FoldStmtModel.exec_stmt] in *. apply bind_ok in E as (v & s2 & E & E2). rewrite (eval_sim _ _ _ _ E). exact E2.
  - cbn [FoldStmtModel.exec_stmt] in *. apply bind_ok in E as (v & s2 & E & E2). rewrite (eval_sim _ _ _ _ E). exact E2.
  - apply (Sif c t t f f); [constructor | destruct f; [apply relo_some |]; constructor | exact E].
  - apply (Swh c b b); [constructor | exact E].
  - apply (Srp x e b b); [constructor | exact E].
  - cbn [FoldStmtModel.exec_stmt] in *. destruct e as [e |]; [| exact E]. apply bind_ok in E as (v & s2 & E & E2). rewrite (eval_sim _ _ _ _ E). exact E2.
  - exact E.
  - cbn [FoldStmtModel.exec_stmt] in *. apply bind_ok in E as (v & s2 & E & E2). rewrite (eval_sim _ _ _ _ E). exact E2.
  - cbn [FoldStmtModel.exec_stmt] in *. apply bind_ok in E as (vs & s2 & E & E2). rewrite (list_sim _ _ _ _ E). cbn [bind]. apply bind_ok in E2 as (u & s3 & E2 & E3). rewrite (call_sim _ _ _ _ _ E2). exact E3.
Qed.
End Pure.
(** ** Whole runs. Taking a branch in line may need more depth, at most twice as much. *)
Lemma exec_step G m st p s fl s1 s2 g : exec_stmt (exec G m) G st s = (Ok g, s1) -> (g = Next -> exec G m p s1 = (Ok fl, s2)) -> (g <> Next -> fl = g /\ s2 = s1) -> exec G (S m) (st :: p) s = (Ok fl, s2).
Proof. intros E1 E2 E3. cbn [FoldStmtModel.exec]. rewrite E1. cbn [bind]. destruct g; [apply E2; reflexivity | |]; (destruct E3 as [-> ->]; [discriminate | reflexivity]). Qed.
Lemma pow_pos n : 1 <= 2 ^ n.
Proof. induction n; cbn; lia. Qed.
Lemma exec_sim n : forall D p q s1 s2 fl s', rel D p q -> agree D s1 s2 -> exec F n p s1 = (Ok fl, s') -> exec F' (2 ^ n) q s2 = (Ok fl, s').
Proof.
  induction n as [| n IH]; intros D p q s1 s2 fl s' R A E; [discriminate |].
  assert (Up : forall q s, exec F' (S (2 ^ n)) q s = (Ok fl, s') -> exec F' (2 ^ S n) q s = (Ok fl, s')) by (intros q0 s0; apply exec_mono; pose proof (pow_pos n); cbn [Nat.pow]; lia).
  assert (Up1 : forall q s, exec F' (2 ^ n) q s = (Ok fl, s') -> exec F' (2 ^ S n) q s = (Ok fl, s')) by (intros q0 s0; apply exec_mono; cbn [Nat.pow]; lia).
  assert (B : forall p q s fl s1, relb p q -> exec F n p s = (Ok fl, s1) -> exec F' (2 ^ n) q s = (Ok fl, s1)).
  { intros p0 q0 s0 fl0 s3 Rb E0. destruct Rb as [b | p0 q0 R0 | p0 q0 R0].
    - apply (IH [] b b s0 s0); [apply rel_refl | apply agree_refl | exact E0].
    - apply (IH [] p0 q0 s0 s0); [exact R0 | apply agree_refl | exact E0].
    - rewrite exec_trunc. apply (IH [] p0 q0 s0 s0); [exact R0 | apply agree_refl | exact E0]. }
  destruct R as [| st st' p q Rs R | D x a m e p q An Ap Nx R | D x e p q An Ap R | D x e p q An Ap R | D e p q An Ap R | D t args p q Fn An Ap R | t f p q NL R | t f p q NL R | t p q R | b p q R].
  - apply Up. apply agree_nil in A as <-. exact E.
  - apply agree_nil in A as <-. apply Up. cbn [FoldStmtModel.exec] in *. apply bind_ok in E as (g & s3 & E & E2). rewrite (stmt_sim _ _ B _ _ _ _ _ Rs E). cbn [bind]. destruct g; try exact E2. apply (IH [] p q s3 s3 fl s' R (agree_refl _) E2).
  - apply Up. cbn [FoldStmtModel.exec FoldStmtModel.exec_stmt] in *. apply bind_ok in E as (g & s3 & E & E2). apply bind_ok in E as (v & s4 & E & E3). injection E3 as <- <-. destruct (pure_eval _ (exec F' (2 ^ n)) _ _ _ _ An E) as [-> K]. rewrite (K D s2 A Ap). cbn [bind]. apply (IH D p q _ _ fl s' R (agree_define _ _ _ _ _ A Nx) E2).
  - apply Up. cbn [FoldStmtModel.exec FoldStmtModel.exec_stmt] in *. apply bind_ok in E as (g & s3 & E & E2). apply bind_ok in E as (v & s4 & E & E3). destruct (pure_eval _ (exec F' (2 ^ n)) _ _ _ _ An E) as [-> K]. rewrite (K D s2 A Ap). cbn [bind]. destruct (assign s1 x v) as [s5 |] eqn:As; [| discriminate]. injection E3 as <- <-. destruct (agree_set _ _ _ _ _ _ A As) as (s6 & -> & A6). cbn [bind]. apply (IH _ p q _ _ fl s' R A6 E2).
  - apply Up1. cbn [FoldStmtModel.exec FoldStmtModel.exec_stmt] in E. apply bind_ok in E as (g & s3 & E & E2). apply bind_ok in E as (v & s4 & E & E3). destruct (pure_eval _ (exec F' (2 ^ n)) _ _ _ _ An E) as [-> K]. destruct (assign s1 x v) as [s5 |] eqn:As; [| discriminate]. injection E3 as <- <-. apply (IH _ p q _ _ fl s' R (agree_dead _ _ _ _ _ _ A As) E2).
  - apply Up. cbn [FoldStmtModel.exec FoldStmtModel.exec_stmt] in *. apply bind_ok in E as (g & s3 & E & E2). apply bind_ok in E as (v & s4 & E & E3). injection E3 as <- <-. destruct (pure_eval _ (exec F' (2 ^ n)) _ _ _ _ An E) as [-> K]. rewrite (K D s2 A Ap). cbn [bind]. rewrite (a_world _ _ _ A) in *. apply (IH D p q _ _ fl s' R (agree_set_world _ _ _ _ A) E2).
  - apply Up. cbn [FoldStmtModel.exec FoldStmtModel.exec_stmt] in *. apply bind_ok in E as (g & s3 & E & E2). apply bind_ok in E as (vs & s4 & E & E3). destruct (pure_list _ (exec F' (2 ^ n)) _ _ _ _ An E) as [-> K]. rewrite (K D s2 A Ap). cbn [bind]. apply bind_ok in E3 as (u & s5 & E3 & E4). injection E4 as <- <-. unfold FoldStmtModel.call in *. rewrite Fn in E3. rewrite (none' t Fn), <- (a_world _ _ _ A). destruct (ext t vs (world s1)) as [r w]. injection E3 as -> <-. cbn [bind]. apply (IH D p q _ _ fl s' R (agree_set_world _ _ _ _ A) E2).
  - apply agree_nil in A as <-. cbn [FoldStmtModel.exec FoldStmtModel.exec_stmt eval bind lit_val truthy] in E. apply bind_ok in E as (g & s3 & E & E2). apply unscoped in E; [| exact NL]. pose proof (B t t s1 g s3 (relb_same t) E) as E3. replace (2 ^ S n) with (2 ^ n + 2 ^ n) by (cbn [Nat.pow]; lia).
    destruct g; [apply (exec_app P items ext show F' (2 ^ n) t q s1 s3 (2 ^ n) fl s' E3), (IH [] p q s3 s3 fl s' R (agree_refl _) E2) | |]; injection E2 as <- <-; (apply (exec_mono P items ext show F' (2 ^ n)); [lia |]); (apply exec_app_stop; [exact E3 | discriminate]).
  - apply agree_nil in A as <-. cbn [FoldStmtModel.exec FoldStmtModel.exec_stmt eval bind lit_val truthy] in E. apply bind_ok in E as (g & s3 & E & E2). apply unscoped in E; [| exact NL]. pose proof (B f f s1 g s3 (relb_same f) E) as E3. replace (2 ^ S n) with (2 ^ n + 2 ^ n) by (cbn [Nat.pow]; lia).
    destruct g; [apply (exec_app P items ext show F' (2 ^ n) f q s1 s3 (2 ^ n) fl s' E3), (IH [] p q s3 s3 fl s' R (agree_refl _) E2) | |]; injection E2 as <- <-; (apply (exec_mono P items ext show F' (2 ^ n)); [lia |]); (apply exec_app_stop; [exact E3 | discriminate]).
  - apply agree_nil in A as <-. cbn [FoldStmtModel.exec FoldStmtModel.exec_stmt eval bind lit_val truthy] in E. cbn [bind] in E. apply Up1, (IH [] p q s1 s1 fl s' R (agree_refl _) E).
  - apply agree_nil in A as <-. cbn [FoldStmtModel.exec FoldStmtModel.exec_stmt eval bind lit_val truthy] in E. cbn [bind] in E. apply Up1, (IH [] p q s1 s1 fl s' R (agree_refl _) E).
Qed.
End Sim.
