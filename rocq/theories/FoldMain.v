(** The main lemma on folding expressions. *)
From Coq Require Import ZArith QArith String List Bool Lia.
From Flocq Require Import IEEE754.BinarySingleNaN.
From Verif Require Import MachInt FoldModel FoldFloat FoldProofs.
Import ListNotations.
Open Scope Z_scope.

Lemma bind_ok {A B S : Type} (r : outcome A * S) (k : A -> S -> outcome B * S) v s' : bind r k = (Ok v, s') -> exists a s1, r = (Ok a, s1) /\ k a s1 = (Ok v, s').
Proof. destruct r as [[a | |] s1]; cbn; intros H; try discriminate. exists a, s1. auto. Qed.
Lemma bind_absorb {A S : Type} (r : outcome A * S) (f : A -> option A) : (forall v s1, r = (Ok v, s1) -> f v = Some v) -> bind r (fun v s1 => (of_option (f v), s1)) = r.
Proof. intros H. destruct r as [[v | |] s1]; cbn; try reflexivity. rewrite (H v s1 eq_refl). reflexivity. Qed.
Lemma of_option_ok {A} (o : option A) v : of_option o = Ok v -> o = Some v.
Proof. destruct o; cbn; intros H; [injection H as ->; reflexivity | discriminate]. Qed.

Section One.
Context {S : Type} (P : prims) (look : S -> nat -> option value) (other : nat -> list value -> S -> outcome value * S) (bools : nat -> bool) (calls : nat -> list value -> S -> Prop).
Hypothesis display_text : forall s, display P (VText s) = s.
Notation ev := (eval P look other).
Notation reg := (regular P look other bools calls).
Definition strict (op : binop) : Prop := op <> And /\ op <> Or.
Lemma strict_dec op : op = And \/ op = Or \/ strict op.
Proof. unfold strict. destruct op; auto; right; right; split; discriminate. Qed.
Lemma eval_strict op l r s : strict op -> ev (EBin op l r) s = bind (ev l s) (fun v s1 => bind (ev r s1) (fun w s2 => (of_option (binary_op P op v w), s2))).
Proof. intros [H1 H2]. destruct op; try reflexivity; contradiction. Qed.
Lemma regular_strict op l r s : strict op -> reg (EBin op l r) s <-> (reg l s /\ forall v s1, ev l s = (Ok v, s1) -> reg r s1 /\ forall w s2, ev r s1 = (Ok w, s2) -> regular_op P op v w).
Proof. intros [H1 H2]. destruct op; try reflexivity; contradiction. Qed.
Lemma eval_lits op a b s : ev (EBin op (ELit a) (ELit b)) s = (of_option (binary_op P op (lit_val a) (lit_val b)), s).
Proof. destruct op; try reflexivity; cbn; destruct (truthy P (lit_val a)), (truthy P (lit_val b)); reflexivity. Qed.
Lemma boolish_val e s v s' : expr_is_boolish bools e = true -> reg e s -> ev e s = (Ok v, s') -> exists b, v = VBool b.
Proof.
  destruct e as [l | x | op l r | a | c w | t args]; cbn [expr_is_boolish]; intros B R E; try discriminate.
  - destruct l; try discriminate. injection E as <- <-. eexists; reflexivity.
  - destruct R as (u & Lu & K). cbn in E. rewrite Lu in E. cbn in E. injection E as <- <-. apply K, B.
  - destruct op; try discriminate;
      try (cbn [eval] in E; apply bind_ok in E as (a & s1 & _ & E); apply bind_ok in E as (b & s2 & _ & E); apply (f_equal fst) in E; cbn [fst] in E; apply of_option_ok in E; cbn [binary_op] in E);
      try (injection E as <-; eexists; reflexivity); try (destruct (compare P _ a b) as [c |]; cbn in E; [injection E as <-; eexists; reflexivity | discriminate]).
    + cbn [eval] in E. apply bind_ok in E as (a & s1 & _ & E). destruct (truthy P a); [apply bind_ok in E as (b & s2 & _ & E) |]; injection E as <- _; eexists; reflexivity.
    + cbn [eval] in E. apply bind_ok in E as (a & s1 & _ & E). destruct (truthy P a); [| apply bind_ok in E as (b & s2 & _ & E)]; injection E as <- _; eexists; reflexivity.
    + destruct (num_f64 P a), (num_f64 P b); try discriminate. injection E as <-. eexists; reflexivity.
  - cbn [eval] in E. apply bind_ok in E as (b & s1 & _ & E). injection E as <- _. eexists; reflexivity.
  - cbn [eval] in E. apply bind_ok in E as (a & s1 & _ & E). apply bind_ok in E as (b & s2 & _ & E). apply (f_equal fst) in E. cbn [fst] in E. apply of_option_ok in E. destruct (contains P a b); cbn in E; [injection E as <-; eexists; reflexivity | discriminate].
Qed.
Lemma truthy_bool b : truthy P (VBool b) = b.
Proof. reflexivity. Qed.
Lemma total_ok e : forall s, expr_is_total e = true -> reg e s -> exists v, ev e s = (Ok v, s).
Proof.
  induction e as [l | x | op l r IHl IHr | a IHa | c w _ _ | t args _] using expr_ind2; intros s T R; try discriminate.
  - exists (lit_val l). reflexivity.
  - destruct R as (v & Lv & _). exists v. cbn. rewrite Lv. reflexivity.
  - cbn [expr_is_total] in T. apply andb_true_iff in T as [T Tr]. apply andb_true_iff in T as [To Tl]. destruct (strict_dec op) as [-> | [-> | So]].
    + destruct R as [Rl Rr]. destruct (IHl s Tl Rl) as (v & E). cbn [eval]. rewrite E. cbn [bind]. destruct (truthy P v) eqn:Tv; [| eexists; reflexivity]. destruct (IHr s Tr (Rr v s E Tv)) as (w & F). rewrite F. eexists; reflexivity.
    + destruct R as [Rl Rr]. destruct (IHl s Tl Rl) as (v & E). cbn [eval]. rewrite E. cbn [bind]. destruct (truthy P v) eqn:Tv; [eexists; reflexivity |]. destruct (IHr s Tr (Rr v s E Tv)) as (w & F). rewrite F. eexists; reflexivity.
    + apply (regular_strict _ _ _ _ So) in R as [Rl Rr]. destruct (IHl s Tl Rl) as (v & E). destruct (Rr v s E) as [Rr1 Rop]. destruct (IHr s Tr Rr1) as (w & F). rewrite (eval_strict _ _ _ _ So), E. cbn [bind]. rewrite F. cbn [bind].
      destruct (Rop w s F) as (_ & _ & _ & K). destruct (binary_op P op v w) as [u |] eqn:Eu; [exists u; reflexivity |]. exfalso. apply K; [| reflexivity]. intros [-> | [-> | ->]]; discriminate.
  - cbn [expr_is_total] in T. destruct (IHa s T R) as (v & E). cbn [eval]. rewrite E. eexists; reflexivity.
Qed.
Lemma is_int_spec n e : is_int n e = true -> e = num n.
Proof. destruct e as [[] | | | | |]; cbn; try discriminate. intros H. apply Z.eqb_eq in H as ->. reflexivity. Qed.
Lemma is_bool_spec b e : is_bool b e = true -> e = boolean b.
Proof. destruct e as [[] | | | | |]; cbn; try discriminate. intros H. apply Bool.eqb_prop in H as ->. reflexivity. Qed.
Lemma is_float_zero_spec e : is_float_zero e = true -> exists b, e = flt (fzero b).
Proof. destruct e as [[] | | | | |]; cbn; try discriminate. intros H. apply is_zero_f_spec in H as (b & ->). exists b. reflexivity. Qed.
Lemma is_float_one_spec e : is_float_one e = true -> e = flt fone.
Proof. destruct e as [[] | | | | |]; cbn; try discriminate. intros H. apply is_one_spec in H as ->. reflexivity. Qed.
Lemma one_expr e : is_int 1 e || is_float_one e = true -> exists l, e = ELit l /\ one (lit_val l).
Proof. intros H. apply orb_true_iff in H as [H | H]; [apply is_int_spec in H as -> | apply is_float_one_spec in H as ->]; eexists; (split; [reflexivity |]); [left | right]; reflexivity. Qed.
(** A literal on the right, or on the left. *)
Lemma lit_right op l b s : strict op -> ev (EBin op l (ELit b)) s = bind (ev l s) (fun v s1 => (of_option (binary_op P op v (lit_val b)), s1)).
Proof. intros So. rewrite (eval_strict _ _ _ _ So). reflexivity. Qed.
Lemma lit_left op a r s : strict op -> ev (EBin op (ELit a) r) s = bind (ev r s) (fun w s1 => (of_option (binary_op P op (lit_val a) w), s1)).
Proof. intros So. rewrite (eval_strict _ _ _ _ So). reflexivity. Qed.
Lemma reg_right op l b s : strict op -> reg (EBin op l (ELit b)) s -> reg l s /\ forall v s1, ev l s = (Ok v, s1) -> regular_op P op v (lit_val b).
Proof. intros So R. apply (regular_strict _ _ _ _ So) in R as [Rl Rr]. split; [exact Rl |]. intros v s1 E. apply (Rr v s1 E) with (s2 := s1). reflexivity. Qed.
Lemma reg_left op a r s : strict op -> reg (EBin op (ELit a) r) s -> reg r s /\ forall w s1, ev r s = (Ok w, s1) -> regular_op P op (lit_val a) w.
Proof. intros So R. apply (regular_strict _ _ _ _ So) in R as [_ Rr]. apply (Rr (lit_val a) s eq_refl). Qed.
Lemma keep_left op l b s : strict op -> (forall v, regular_op P op v (lit_val b) -> binary_op P op v (lit_val b) = Some v) -> reg (EBin op l (ELit b)) s -> reg l s /\ ev l s = ev (EBin op l (ELit b)) s.
Proof. intros So H R. apply (reg_right _ _ _ _ So) in R as [Rl Rr]. split; [exact Rl |]. rewrite (lit_right _ _ _ _ So), bind_absorb; [reflexivity |]. intros v s1 E. apply H, (Rr v s1 E). Qed.
Lemma keep_right op a r s : strict op -> (forall w, regular_op P op (lit_val a) w -> binary_op P op (lit_val a) w = Some w) -> reg (EBin op (ELit a) r) s -> reg r s /\ ev r s = ev (EBin op (ELit a) r) s.
Proof. intros So H R. apply (reg_left _ _ _ _ So) in R as [Rl Rr]. split; [exact Rl |]. rewrite (lit_left _ _ _ _ So), bind_absorb; [reflexivity |]. intros v s1 E. apply H, (Rr v s1 E). Qed.
Lemma mask_spec e m : mask_of e = Some m -> exists x k, 0 < k /\ e = EBin Modulo x (num (2 ^ k)) /\ m = EBin BitAnd x (num (2 ^ k - 1)).
Proof.
  destruct e as [| | op x d | | |]; try discriminate. destruct op; try discriminate. destruct d as [[d | | | | |] | | | | |]; try discriminate. cbn. destruct (is_power_of_two d) eqn:E; [| discriminate]. intros H. injection H as <-.
  apply power_of_two_spec in E as [E L]. exists x, (Z.log2 d). rewrite <- E. auto.
Qed.
(** The masked operand is regular, and an outcome of it corresponds to one of the remainder that is zero alike. *)
Lemma mask_ok x k s : 0 < k -> reg (EBin Modulo x (num (2 ^ k))) s -> reg (EBin BitAnd x (num (2 ^ k - 1))) s /\
  forall B (g : bool -> B), bind (ev (EBin BitAnd x (num (2 ^ k - 1))) s) (fun v s1 => (Ok (g (values_equal P v (VInt 0))), s1)) = bind (ev (EBin Modulo x (num (2 ^ k))) s) (fun v s1 => (Ok (g (values_equal P v (VInt 0))), s1)) /\
  bind (ev (EBin BitAnd x (num (2 ^ k - 1))) s) (fun v s1 => (Ok (g (values_equal P (VInt 0) v)), s1)) = bind (ev (EBin Modulo x (num (2 ^ k))) s) (fun v s1 => (Ok (g (values_equal P (VInt 0) v)), s1)).
Proof.
  intros K R. assert (Sm : strict Modulo) by (split; discriminate). assert (Sb : strict BitAnd) by (split; discriminate). apply (reg_right _ _ _ _ Sm) in R as [Rx Ro].
  assert (I : forall v s1, ev x s = (Ok v, s1) -> exists z, v = VInt z) by (intros v s1 E; apply (Ro v s1 E) with (k := k); auto).
  assert (P2 : 2 ^ k <> 0) by (apply Z.pow_nonzero; lia). split.
  - apply (regular_strict _ _ _ _ Sb). split; [exact Rx |]. intros v s1 E. split; [exact Logic.I |]. intros w s2 F. injection F as <- <-. destruct (I v s1 E) as (z & ->). split; [intros [] |]. split; [discriminate |]. split; [discriminate |]. intros _. discriminate.
  - intros B g. unfold num. rewrite !(lit_right BitAnd _ _ _ Sb), !(lit_right Modulo _ _ _ Sm). destruct (ev x s) as [[v | |] s1] eqn:E; cbn [bind]; auto. destruct (I v s1 eq_refl) as (z & ->). cbn [binary_op lit_val]. unfold bitop, modulo. cbn [is_other orb].
    destruct (Z.eqb_spec (2 ^ k) 0) as [Z0 | _]; [contradiction |]. cbn [of_option bind values_equal]. rewrite (mask_zero z k K). rewrite !(Z.eqb_sym 0). rewrite (mask_zero z k K). auto.
Qed.
Lemma simplify_ok op l r s x : try_simplify bools op l r = Some x -> reg (EBin op l r) s -> reg x s /\ ev x s = ev (EBin op l r) s.
Proof.
  intros H R. destruct op; cbn [try_simplify] in H; try discriminate.
  - (* Add *) assert (So : strict Add) by (split; discriminate). destruct (is_int 0 r) eqn:Ir; [apply is_int_spec in Ir as ->; injection H as <- | destruct (is_int 0 l) eqn:Il; [apply is_int_spec in Il as ->; injection H as <- | discriminate]].
    + apply keep_left; [exact So | | exact R]. intros v (K & _). apply add_zero_r, K. right. reflexivity.
    + apply keep_right; [exact So | | exact R]. intros v (K & _). apply add_zero_l, K. left. reflexivity.
  - (* Subtract *) assert (So : strict Subtract) by (split; discriminate). destruct (is_int 0 r || is_float_zero r) eqn:Ir; [| discriminate]. injection H as <-. apply orb_true_iff in Ir as [Ir | Ir].
    + apply is_int_spec in Ir as ->. apply keep_left; [exact So | | exact R]. intros v (K & _). apply sub_zero, K. left. reflexivity.
    + apply is_float_zero_spec in Ir as (b & ->). apply keep_left; [exact So | | exact R]. intros v (K & N & _). apply sub_zero_float; [apply K; right; exists b; reflexivity | apply N; reflexivity].
  - (* Multiply *) assert (So : strict Multiply) by (split; discriminate). destruct (is_int 1 r || is_float_one r) eqn:Or; [| destruct (is_int 1 l || is_float_one l) eqn:Ol; [| destruct (is_int 0 r && expr_is_total l) eqn:Zr; [| destruct (is_int 0 l && expr_is_total r) eqn:Zl; [| discriminate]]]]; injection H as <-.
    + apply one_expr in Or as (b & -> & U). apply keep_left; [exact So | | exact R]. intros v (K & _). apply (mul_one_r P v _ U), K. right. left. exact U.
    + apply one_expr in Ol as (b & -> & U). apply keep_right; [exact So | | exact R]. intros v (K & _). apply (mul_one_l P v _ U), K. left. exact U.
    + apply andb_true_iff in Zr as [Zr T]. apply is_int_spec in Zr as ->. split; [exact Logic.I |]. apply (reg_right _ _ _ _ So) in R as [Rl Ro]. destruct (total_ok l s T Rl) as (v & E). unfold num. rewrite (lit_right _ _ _ _ So), E. cbn [bind binary_op lit_val].
      destruct (Ro v s E) as (K & _). rewrite mul_zero_r; [reflexivity |]. apply K. cbn. auto.
    + apply andb_true_iff in Zl as [Zl T]. apply is_int_spec in Zl as ->. split; [exact Logic.I |]. apply (reg_left _ _ _ _ So) in R as [Rl Ro]. destruct (total_ok r s T Rl) as (v & E). unfold num. rewrite (lit_left _ _ _ _ So), E. cbn [bind binary_op lit_val].
      destruct (Ro v s E) as (K & _). rewrite mul_zero_l; [reflexivity |]. apply K. cbn. auto.
  - (* Divide *) assert (So : strict Divide) by (split; discriminate). destruct (is_int 1 r || is_float_one r) eqn:Or; [| discriminate]. injection H as <-. apply one_expr in Or as (b & -> & U). apply keep_left; [exact So | | exact R]. intros v (K & _). apply (div_one P v _ U), K. exact U.
  - (* Eq *) assert (So : strict Eq) by (split; discriminate). destruct (if is_int 0 r then mask_of l else None) as [m |] eqn:M; [| destruct (if is_int 0 l then mask_of r else None) as [m |] eqn:M'; [| discriminate]]; injection H as <-.
    + destruct (is_int 0 r) eqn:Ir; [| discriminate]. apply is_int_spec in Ir as ->. apply mask_spec in M as (y & k & K & -> & ->). apply (reg_right _ _ _ _ So) in R as [Rl _]. destruct (mask_ok y k s K Rl) as [Rm Em]. split.
      * apply (regular_strict _ _ _ _ So). split; [exact Rm |]. intros v s1 _. split; [exact Logic.I |]. intros w s2 _. split; [intros [] |]. split; [discriminate |]. split; [discriminate |]. discriminate.
      * unfold num at 1 4. rewrite !(lit_right Eq _ _ _ So). cbn [binary_op lit_val of_option]. apply (Em value VBool).
    + destruct (is_int 0 l) eqn:Ir; [| discriminate]. apply is_int_spec in Ir as ->. apply mask_spec in M' as (y & k & K & -> & ->). apply (reg_left _ _ _ _ So) in R as [Rl _]. destruct (mask_ok y k s K Rl) as [Rm Em]. split.
      * apply (regular_strict _ _ _ _ So). split; [exact Logic.I |]. intros v s1 E. injection E as <- <-. split; [exact Rm |]. intros w s2 _. split; [intros [] |]. split; [discriminate |]. split; [discriminate |]. discriminate.
      * unfold num at 1 3. rewrite !(lit_left Eq _ _ _ So). cbn [binary_op lit_val of_option]. apply (Em value VBool).
  - (* NotEq *) assert (So : strict NotEq) by (split; discriminate). destruct (if is_int 0 r then mask_of l else None) as [m |] eqn:M; [| destruct (if is_int 0 l then mask_of r else None) as [m |] eqn:M'; [| discriminate]]; injection H as <-.
    + destruct (is_int 0 r) eqn:Ir; [| discriminate]. apply is_int_spec in Ir as ->. apply mask_spec in M as (y & k & K & -> & ->). apply (reg_right _ _ _ _ So) in R as [Rl _]. destruct (mask_ok y k s K Rl) as [Rm Em]. split.
      * apply (regular_strict _ _ _ _ So). split; [exact Rm |]. intros v s1 _. split; [exact Logic.I |]. intros w s2 _. split; [intros [] |]. split; [discriminate |]. split; [discriminate |]. discriminate.
      * unfold num at 1 4. rewrite !(lit_right NotEq _ _ _ So). cbn [binary_op lit_val of_option]. apply (Em value (fun b => VBool (negb b))).
    + destruct (is_int 0 l) eqn:Ir; [| discriminate]. apply is_int_spec in Ir as ->. apply mask_spec in M' as (y & k & K & -> & ->). apply (reg_left _ _ _ _ So) in R as [Rl _]. destruct (mask_ok y k s K Rl) as [Rm Em]. split.
      * apply (regular_strict _ _ _ _ So). split; [exact Logic.I |]. intros v s1 E. injection E as <- <-. split; [exact Rm |]. intros w s2 _. split; [intros [] |]. split; [discriminate |]. split; [discriminate |]. discriminate.
      * unfold num at 1 3. rewrite !(lit_left NotEq _ _ _ So). cbn [binary_op lit_val of_option]. apply (Em value (fun b => VBool (negb b))).
  - (* And *) destruct (is_bool true r && expr_is_boolish bools l) eqn:C1; [| destruct (is_bool true l && expr_is_boolish bools r) eqn:C2; [| destruct (is_bool false r && expr_is_total l) eqn:C3; [| destruct (is_bool false l) eqn:C4; [| discriminate]]]]; injection H as <-.
    + apply andb_true_iff in C1 as [I B]. apply is_bool_spec in I as ->. destruct R as [Rl _]. split; [exact Rl |]. cbn [eval]. destruct (ev l s) as [[v | |] s1] eqn:E; cbn [bind]; try reflexivity. destruct (boolish_val l s v s1 B Rl E) as (b & ->). destruct b; reflexivity.
    + apply andb_true_iff in C2 as [I B]. apply is_bool_spec in I as ->. destruct R as [_ Rr]. specialize (Rr (VBool true) s eq_refl eq_refl). split; [exact Rr |]. cbn [eval boolean lit_val bind truthy]. destruct (ev r s) as [[v | |] s1] eqn:E; cbn [bind]; try reflexivity. destruct (boolish_val r s v s1 B Rr E) as (b & ->). reflexivity.
    + apply andb_true_iff in C3 as [I T]. apply is_bool_spec in I as ->. destruct R as [Rl _]. split; [exact Logic.I |]. destruct (total_ok l s T Rl) as (v & E). cbn [eval]. rewrite E. cbn. destruct (truthy P v); reflexivity.
    + apply is_bool_spec in C4 as ->. split; [exact Logic.I | reflexivity].
  - (* Or *) destruct (is_bool true r && expr_is_total l) eqn:C1; [| destruct (is_bool true l) eqn:C2; [| destruct (is_bool false r && expr_is_boolish bools l) eqn:C3; [| destruct (is_bool false l && expr_is_boolish bools r) eqn:C4; [| discriminate]]]]; injection H as <-.
    + apply andb_true_iff in C1 as [I T]. apply is_bool_spec in I as ->. destruct R as [Rl _]. split; [exact Logic.I |]. destruct (total_ok l s T Rl) as (v & E). cbn [eval]. rewrite E. cbn. destruct (truthy P v); reflexivity.
    + apply is_bool_spec in C2 as ->. split; [exact Logic.I | reflexivity].
    + apply andb_true_iff in C3 as [I B]. apply is_bool_spec in I as ->. destruct R as [Rl _]. split; [exact Rl |]. cbn [eval]. destruct (ev l s) as [[v | |] s1] eqn:E; cbn [bind]; try reflexivity. destruct (boolish_val l s v s1 B Rl E) as (b & ->). destruct b; reflexivity.
    + apply andb_true_iff in C4 as [I B]. apply is_bool_spec in I as ->. destruct R as [_ Rr]. specialize (Rr (VBool false) s eq_refl eq_refl). split; [exact Rr |]. cbn [eval boolean lit_val bind truthy]. destruct (ev r s) as [[v | |] s1] eqn:E; cbn [bind]; try reflexivity. destruct (boolish_val r s v s1 B Rr E) as (b & ->). reflexivity.
Qed.
End One.

(** Two treatments of the other forms that agree where [calls] holds. *)
Section Two.
Context {S : Type} (P : prims) (look : S -> nat -> option value) (other other' : nat -> list value -> S -> outcome value * S) (bools : nat -> bool) (calls : nat -> list value -> S -> Prop).
Hypothesis display_text : forall s, display P (VText s) = s.
Hypothesis agree : forall t vs s, calls t vs s -> other' t vs s = other t vs s.
Notation ev := (eval P look other). Notation ev' := (eval P look other').
Notation reg := (regular P look other bools calls). Notation reg' := (regular P look other' bools calls).
Lemma congruence op l r l' r' s : reg (EBin op l r) s ->
  (reg' l' s /\ ev' l' s = ev l s) -> (forall v s1, ev l s = (Ok v, s1) -> reg r s1 -> reg' r' s1 /\ ev' r' s1 = ev r s1) -> reg' (EBin op l' r') s /\ ev' (EBin op l' r') s = ev (EBin op l r) s.
Proof.
  intros R [Rl El] Hr. destruct (strict_dec op) as [-> | [-> | So]].
  - destruct R as [_ Rr]. split.
    + split; [exact Rl |]. rewrite El. intros v s1 E T. apply (Hr v s1 E), (Rr v s1 E T).
    + cbn [eval]. rewrite El. destruct (ev l s) as [[v | |] s1] eqn:E; cbn [bind]; try reflexivity. destruct (truthy P v) eqn:T; [| reflexivity]. rewrite (proj2 (Hr v s1 eq_refl (Rr v s1 eq_refl T))). reflexivity.
  - destruct R as [_ Rr]. split.
    + split; [exact Rl |]. rewrite El. intros v s1 E T. apply (Hr v s1 E), (Rr v s1 E T).
    + cbn [eval]. rewrite El. destruct (ev l s) as [[v | |] s1] eqn:E; cbn [bind]; try reflexivity. destruct (truthy P v) eqn:T; [reflexivity |]. rewrite (proj2 (Hr v s1 eq_refl (Rr v s1 eq_refl T))). reflexivity.
  - apply (regular_strict _ _ _ _ _ _ _ _ _ So) in R as [_ Rr]. split.
    + apply (regular_strict _ _ _ _ _ _ _ _ _ So). split; [exact Rl |]. rewrite El. intros v s1 E. destruct (Rr v s1 E) as [Rr1 Ro]. destruct (Hr v s1 E Rr1) as [Rr' Er]. split; [exact Rr' |]. rewrite Er. exact Ro.
    + rewrite !(eval_strict _ _ _ _ _ _ _ So), El. destruct (ev l s) as [[v | |] s1] eqn:E; cbn [bind]; try reflexivity. rewrite (proj2 (Hr v s1 eq_refl (proj1 (Rr v s1 eq_refl)))). reflexivity.
Qed.
Lemma fold_main e : forall s, reg e s -> reg' (fold_expr bools e) s /\ ev' (fold_expr bools e) s = ev e s.
Proof.
  induction e as [l | x | op l r IHl IHr | a IHa | c w IHc IHw | t args IHargs] using expr_ind2; intros s R.
  - split; [exact R | reflexivity].
  - split; [exact R | reflexivity].
  - cbn [fold_expr]. assert (Rl : reg l s) by (destruct (strict_dec op) as [-> | [-> | So]]; [apply R | apply R | apply (regular_strict _ _ _ _ _ _ _ _ _ So) in R; apply R]).
    destruct (congruence op l r (fold_expr bools l) (fold_expr bools r) s R (IHl s Rl) (fun v s1 _ Rr => IHr s1 Rr)) as [Rc Ec].
    destruct (try_fold_binary op (fold_expr bools l) (fold_expr bools r)) as [x |] eqn:Ef.
    + destruct (fold_binary_lit _ _ _ _ Ef) as ((a & Ea) & (b & Eb) & (d & ->)). rewrite Ea, Eb in Ef. apply (fold_binary_val P display_text) in Ef. split; [exact Logic.I |]. rewrite <- Ec, Ea, Eb, eval_lits, Ef. reflexivity.
    + destruct (try_simplify bools op (fold_expr bools l) (fold_expr bools r)) as [x |] eqn:Es.
      * apply (simplify_ok P look other' bools calls _ _ _ _ _ Es) in Rc as [Rx Ex]. split; [exact Rx |]. rewrite Ex. exact Ec.
      * split; [exact Rc | exact Ec].
  - cbn [fold_expr]. destruct (IHa s R) as [Ra Ea]. assert (K : reg' (ENot (fold_expr bools a)) s /\ ev' (ENot (fold_expr bools a)) s = ev (ENot a) s) by (split; [exact Ra | cbn [eval]; rewrite Ea; reflexivity]).
    destruct (fold_expr bools a) as [l | x | op l r | i | c v | t args] eqn:F; try exact K.
    + destruct l as [z | f | b | st | | n]; try exact K; (split; [exact Logic.I |]); rewrite <- (proj2 K); cbn; try (rewrite negb_involutive); reflexivity.
    + destruct (expr_is_boolish bools i) eqn:B; [| exact K]. split; [exact Ra |]. rewrite <- (proj2 K). cbn [eval]. destruct (ev' i s) as [[v | |] s1] eqn:E; cbn [bind]; try reflexivity. destruct (boolish_val P look other' bools calls i s v s1 B Ra E) as (b & ->). cbn. rewrite negb_involutive. reflexivity.
  - cbn [fold_expr]. destruct R as [Rc Rw]. destruct (IHc s Rc) as [Rc' Ec]. split.
    + split; [exact Rc' |]. rewrite Ec. intros v s1 E. apply IHw, (Rw v s1 E).
    + cbn [eval]. rewrite Ec. destruct (ev c s) as [[v | |] s1] eqn:E; cbn [bind]; try reflexivity. rewrite (proj2 (IHw s1 (Rw v s1 eq_refl))). reflexivity.
  - cbn [fold_expr]. destruct R as [Ra Rt].
    assert (L : forall s, regular_list P look other reg args s -> regular_list P look other' reg' (map (fold_expr bools) args) s /\ eval_list ev' (map (fold_expr bools) args) s = eval_list ev args s).
    { clear -IHargs. induction IHargs as [| e es He _ IH]; intros s R; [split; [exact Logic.I | reflexivity] |]. destruct R as [Re Rs]. destruct (He s Re) as [Re' Ee]. split.
      - split; [exact Re' |]. rewrite Ee. intros v s1 E. apply IH, (Rs v s1 E).
      - cbn [map eval_list]. rewrite Ee. destruct (ev e s) as [[v | |] s1] eqn:E; cbn [bind]; try reflexivity. rewrite (proj2 (IH s1 (Rs v s1 eq_refl))). reflexivity. }
    destruct (L s Ra) as [L1 L2]. split.
    + split; [exact L1 |]. rewrite L2. exact Rt.
    + cbn [eval]. rewrite L2. destruct (eval_list ev args s) as [[vs | |] s1] eqn:E; cbn [bind]; try reflexivity. apply agree, (Rt vs s1 eq_refl).
Qed.
End Two.
