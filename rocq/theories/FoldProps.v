(** C79: folding expressions. *)
From Coq Require Import ZArith QArith String List Bool Lia.
From Flocq Require Import IEEE754.BinarySingleNaN.
From Verif Require Import MachInt FoldModel FoldFloat FoldProofs FoldMain.
Import ListNotations.
Open Scope Z_scope.

(** On every regular evaluation the folded expression has the same value or error and the same effects. *)
Theorem C79_fold {S : Type} P (look : S -> nat -> option value) other bools e s : (forall t, display P (VText t) = t) ->
  regular P look other bools (fun _ _ _ => True) e s -> eval P look other (fold_expr bools e) s = eval P look other e s.
Proof. intros D R. apply (fold_main P look other other bools (fun _ _ _ => True) D); [reflexivity | exact R]. Qed.
(** And folding again changes nothing of it. *)
Theorem C79_fold_again {S : Type} P (look : S -> nat -> option value) other bools e s : (forall t, display P (VText t) = t) ->
  regular P look other bools (fun _ _ _ => True) e s -> eval P look other (fold_expr bools (fold_expr bools e)) s = eval P look other e s.
Proof. intros D R. destruct (fold_main P look other other bools (fun _ _ _ => True) D ltac:(reflexivity) e s R) as [R1 E1]. rewrite C79_fold; [exact E1 | exact D | exact R1]. Qed.

(** Integer expressions need no further assumption: literals in i64, variables holding Ints or BigInts, and + - * /. *)
Fixpoint integer_expr (e : expr) : Prop :=
  match e with
  | ELit (LNum z) => is_i64 z
  | EId _ => True
  | EBin op l r => (op = Add \/ op = Subtract \/ op = Multiply \/ op = Divide) /\ integer_expr l /\ integer_expr r
  | _ => False
  end.
Definition integer (v : value) : Prop := match v with VInt z => is_i64 z | VBig z => ~ is_i64 z | _ => False end.
Lemma integer_int z : integer (int_val z).
Proof. unfold int_val. destruct (in_i64 z) eqn:E; cbn; rewrite <- in_i64_spec, E; [reflexivity | discriminate]. Qed.
Lemma integer_exact v : integer v -> exact v.
Proof. destruct v; cbn; auto; contradiction. Qed.
Lemma integer_op P op v w : op = Add \/ op = Subtract \/ op = Multiply \/ op = Divide -> integer v -> integer w ->
  (forall u, binary_op P op v w = Some u -> integer u) /\ (op <> Divide -> binary_op P op v w <> None) /\ regular_op P op v w.
Proof.
  intros O V W.
  assert (K : (forall u, binary_op P op v w = Some u -> integer u) /\ (op <> Divide -> binary_op P op v w <> None)).
  { destruct v as [a | a | | | | | | |]; try contradiction; destruct w as [b | b | | | | | | |]; try contradiction; destruct O as [-> | [-> | [-> | ->]]];
      cbn [binary_op]; unfold add, subtract, multiply, divide, arith; cbn [is_other orb int_of];
      (split; [intros u H | intros N; try discriminate; try contradiction]); try (injection H as <-; apply integer_int); destruct (b =? 0); try discriminate; injection H as <-; apply integer_int. }
  destruct K as [K1 K2]. split; [exact K1 |]. split; [exact K2 |]. split; [| split; [| split]].
  - intros _. left. split; apply integer_exact; assumption.
  - intros _ [-> _]. contradiction.
  - intros ->. destruct O as [O | [O | [O | O]]]; discriminate.
  - intros N. apply K2. intros ->. apply N. left. reflexivity.
Qed.
Theorem C79_integers {S : Type} P (look : S -> nat -> option value) other bools e s : (forall t, display P (VText t) = t) ->
  integer_expr e -> (forall x, exists v, look s x = Some v /\ integer v) -> (forall x, bools x = false) ->
  eval P look other (fold_expr bools e) s = eval P look other e s.
Proof.
  intros D I L NB. apply C79_fold; [exact D |].
  assert (K : regular P look other bools (fun _ _ _ => True) e s /\ (forall v s', eval P look other e s = (Ok v, s') -> integer v /\ s' = s)).
  { induction e as [l | x | op l r IHl IHr | a _ | c w _ _ | t args _] using expr_ind2; try contradiction.
    - split; [exact Logic.I |]. destruct l; try contradiction. intros v s' E. injection E as <- <-. split; [exact I | reflexivity].
    - destruct (L x) as (v & E & V). split; [exists v; split; [exact E |]; rewrite NB; discriminate |]. intros w s' F. cbn in F. rewrite E in F. injection F as <- <-. auto.
    - destruct I as (O & Il & Ir). destruct (IHl Il) as [Rl Vl]. destruct (IHr Ir) as [Rr Vr]. assert (So : strict op) by (split; intros ->; destruct O as [O | [O | [O | O]]]; discriminate). split.
      + apply regular_strict; [exact So |]. split; [exact Rl |]. intros v s1 E. destruct (Vl v s1 E) as [V ->]. split; [exact Rr |]. intros w s2 F. destruct (Vr w s2 F) as [W ->]. apply integer_op; assumption.
      + intros u s' E. rewrite eval_strict in E by exact So. apply bind_ok in E as (v & s1 & E1 & E). destruct (Vl v s1 E1) as [V ->]. apply bind_ok in E as (w & s2 & E2 & E). destruct (Vr w s2 E2) as [W ->].
        destruct (integer_op P op v w O V W) as [K _]. injection E as E <-. apply of_option_ok in E. split; [apply K, E | reflexivity]. }
  apply K.
Qed.

(** Concrete primitives for the examples. *)
Definition p0 : prims := Prims (fun v => match v with VText t => t | VInt 0 => "0" | _ => "" end%string) (fun _ => fone) (fun _ => fone) (fun a _ => a) (fun a => a) (fun _ _ => true)
  (fun _ _ => None) (fun _ _ _ => None) (fun _ _ _ => None) (fun _ _ => false) (fun _ => true) (fun _ _ => Some true).
Definition st := nat -> option value.
Definition no_other : nat -> list value -> st -> outcome value * st := fun _ _ s => (Err, s).
Definition look0 (m : st) (x : nat) : option value := m x.
Definition run (e : expr) (m : st) : outcome value * st := eval p0 look0 no_other e m.
Definition nob (x : nat) : bool := false.
(** ** What the conditions exclude: folding changes the outcome *)
(** 7 * 1.0 / 2 is a float; folded it is the integer 3. *)
Theorem C79_mixed_refuted : exists e s f, run e s = (Ok (VFloat f), s) /\ run (fold_expr nob e) s = (Ok (VInt 3), s).
Proof. exists (EBin Divide (EBin Multiply (num 7) (flt fone)) (num 2)), (fun _ => None). eexists. split; reflexivity. Qed.
(** "a" + 0 is "a0"; folded it is "a". *)
Theorem C79_text_refuted : exists e s, run e s = (Ok (VText "a0"), s) /\ run (fold_expr nob e) s = (Ok (VText "a"), s).
Proof. exists (EBin Add (ELit (LText "a")) (num 0)), (fun _ => None). split; reflexivity. Qed.
(** A sequence times 0 is empty; folded it is the number 0. *)
Theorem C79_sequence_refuted : exists e s, run e s = (Ok (VList []), s) /\ run (fold_expr nob e) s = (Ok (VInt 0), s).
Proof. exists (EBin Multiply (EId 0) (num 0)), (fun _ => Some (VList [VInt 5])). split; reflexivity. Qed.
(** NaN times 0 is NaN; folded it is 0. *)
Theorem C79_nan_refuted : exists e s, run e s = (Ok (VFloat B754_nan), s) /\ run (fold_expr nob e) s = (Ok (VInt 0), s).
Proof. exists (EBin Multiply (EId 0) (num 0)), (fun _ => Some (VFloat B754_nan)). split; reflexivity. Qed.
(** (1 // 0) * 0 is an error; folded it is 0. *)
Theorem C79_floor_refuted : exists e s, run e s = (Err, s) /\ run (fold_expr nob e) s = (Ok (VInt 0), s).
Proof. exists (EBin Multiply (EBin FloorDivide (num 1) (num 0)) (num 0)), (fun _ => None). split; reflexivity. Qed.
(** x % 2 == 0 for a large even x is true; folded it is an error. *)
Theorem C79_big_refuted : exists e s, run e s = (Ok (VBool true), s) /\ run (fold_expr nob e) s = (Err, s).
Proof. exists (EBin Eq (EBin Modulo (EId 0) (num 2)) (num 0)), (fun _ => Some (VBig (2 ^ 64))). split; reflexivity. Qed.
(** An undefined variable times 0 is an error; folded it is 0. *)
Theorem C79_undefined_refuted : exists e s, run e s = (Err, s) /\ run (fold_expr nob e) s = (Ok (VInt 0), s).
Proof. exists (EBin Multiply (EId 0) (num 0)), (fun _ => None). split; reflexivity. Qed.
(** x - -0.0 is +0.0 for x = -0.0; folded it is -0.0. *)
Theorem C79_negative_zero_refuted : exists e s, run e s = (Ok (VFloat (fzero false)), s) /\ run (fold_expr nob e) s = (Ok (VFloat (fzero true)), s).
Proof. exists (EBin Subtract (EId 0) (flt (fzero true))), (fun _ => Some (VFloat (fzero true))). split; reflexivity. Qed.

(** not not ((x % 8 == 0) and true) or y * 1 + 0 > 2 + 3, with x = 20 and y = 2^70. *)
Definition ex_fold : expr :=
  EBin Or (ENot (ENot (EBin And (EBin Eq (EBin Modulo (EId 0) (num 8)) (num 0)) (boolean true)))) (EBin Gt (EBin Add (EBin Multiply (EId 1) (num 1)) (num 0)) (EBin Add (num 2) (num 3))).
Definition ex_state (x : nat) : option value := match x with 0%nat => Some (VInt 20) | 1%nat => Some (VBig (2 ^ 70)) | _ => None end.
Example C79_example : fold_expr nob ex_fold = EBin Or (EBin Eq (EBin BitAnd (EId 0) (num 7)) (num 0)) (EBin Gt (EId 1) (num 5)) /\
  regular p0 look0 no_other nob (fun _ _ _ => True) ex_fold ex_state /\ run ex_fold ex_state = (Ok (VBool true), ex_state) /\ (forall t, display p0 (VText t) = t).
Proof.
  split; [reflexivity |]. split; [| split; reflexivity].
  assert (R8 : regular_op p0 Modulo (VInt 20) (VInt 8)) by (split; [intros [] |]; split; [discriminate |]; split; [intros _ k _ _; exists 20; reflexivity | intros _; discriminate]).
  assert (RE : forall v w, regular_op p0 Eq v w) by (intros v w; split; [intros [] |]; split; [discriminate |]; split; [discriminate | discriminate]).
  cbn [ex_fold regular]. split.
  - split; [| intros; exact Logic.I]. split; [| intros v s1 _; split; [exact Logic.I |]; intros w s2 _; apply RE]. split; [eexists; split; [reflexivity | discriminate] |]. intros v s1 E. split; [exact Logic.I |]. intros w s2 F. cbn in E, F. injection E as <- <-. injection F as <- <-. exact R8.
  - intros v s1 E _. assert (Es : s1 = ex_state) by (cbn in E; injection E; auto). subst s1. split.
    + split; [split; [eexists; split; [reflexivity | discriminate] |] |].
      * intros a s1 A. cbn in A. injection A as <- <-. split; [exact Logic.I |]. intros b s2 B. injection B as <- <-. split; [intros _; left; split; [cbn; unfold is_i64; lia | cbn; unfold is_i64; lia] |]. split; [discriminate |]. split; [discriminate |]. intros _. discriminate.
      * intros a s1 A. cbn in A. injection A as <- <-. split; [exact Logic.I |]. intros b s2 B. injection B as <- <-. split; [intros _; left; split; [cbn; unfold is_i64; lia | cbn; unfold is_i64; lia] |]. split; [discriminate |]. split; [discriminate |]. intros _. discriminate.
    + intros a s1 A. cbn in A. injection A as <- <-. split.
      * split; [exact Logic.I |]. intros b s2 B. injection B as <- <-. split; [exact Logic.I |]. intros c s3 C. injection C as <- <-. split; [intros _; left; split; cbn; unfold is_i64; lia |]. split; [discriminate |]. split; [discriminate |]. intros _. discriminate.
      * intros b s2 B. cbn in B. injection B as <- <-. split; [intros [] |]. split; [discriminate |]. split; [discriminate |]. intros _. discriminate.
Qed.
Example C79_integers_example : integer_expr (EBin Multiply (EBin Divide (EId 0) (num 0)) (num 0)) /\ fold_expr nob (EBin Multiply (EBin Divide (EId 0) (num 0)) (num 0)) = EBin Multiply (EBin Divide (EId 0) (num 0)) (num 0) /\
  fold_expr nob (EBin Multiply (EBin Add (EId 0) (num 7)) (num 0)) = num 0.
Proof. split; [| split; reflexivity]. cbn. unfold is_i64. split; [auto |]. split; [split; [auto |] |]; split; auto; lia. Qed.
