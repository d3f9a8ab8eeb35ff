(** Folding an expression keeps its value, its errors and its effects on every regular evaluation. *)
From Coq Require Import ZArith QArith Qround String List Bool Lia.
From Flocq Require Import IEEE754.BinarySingleNaN.
From Verif Require Import MachInt FoldModel FoldFloat.
Import ListNotations.
Open Scope Z_scope.

(** Numbers as the interpreter keeps them: small ones as Int, large ones as BigInt, fractions in lowest terms. *)
Definition canonical (v : value) : Prop :=
  match v with VInt z => is_i64 z | VBig z => ~ is_i64 z | VRat q => Qred q = q /\ Qden q <> 1%positive | _ => True end.
Definition exact (v : value) : Prop := match v with VInt _ | VBig _ | VRat _ => canonical v | _ => False end.
Definition same_kind (l r : value) : Prop := (exact l /\ exact r) \/ (exists f g, l = VFloat f /\ r = VFloat g).
Definition one (v : value) : Prop := v = VInt 1 \/ v = VFloat fone.
Definition zero_float (v : value) : Prop := exists b, v = VFloat (fzero b).
(** The operand pairs the folder treats as x + 0, x - 0, x * 1, x * 0, x / 1. *)
Definition neutral (op : binop) (l r : value) : Prop :=
  match op with
  | Add => l = VInt 0 \/ r = VInt 0
  | Subtract => r = VInt 0 \/ zero_float r
  | Multiply => one l \/ one r \/ l = VInt 0 \/ r = VInt 0
  | Divide => one r
  | _ => False
  end.
Definition division (op : binop) : Prop := op = Divide \/ op = ExactDivide \/ op = Modulo.
(** An operation is regular when such a pair is of one kind, is not -0.0 - -0.0, a remainder by a power of two is of an
    Int, and no operation but a division fails. *)
Definition regular_op (P : prims) (op : binop) (l r : value) : Prop :=
  (neutral op l r -> same_kind l r) /\
  (op = Subtract -> ~ (l = VFloat (fzero true) /\ r = VFloat (fzero true))) /\
  (op = Modulo -> forall k, 0 < k -> r = VInt (2 ^ k) -> exists z, l = VInt z) /\
  (~ division op -> binary_op P op l r <> None).
(** Evaluating the expression performs only regular operations, reads only variables that are defined, and booleans
    from those in [bools]; [calls] restricts the other forms. *)
Section Regular.
Context {S : Type} (P : prims) (look : S -> nat -> option value) (other : nat -> list value -> S -> outcome value * S) (bools : nat -> bool) (calls : nat -> list value -> S -> Prop).
Definition regular_list (reg : expr -> S -> Prop) : list expr -> S -> Prop :=
  fix go es s := match es with [] => True | e :: r => reg e s /\ forall v s1, eval P look other e s = (Ok v, s1) -> go r s1 end.
Fixpoint regular (e : expr) (s : S) : Prop :=
  match e with
  | ELit _ => True
  | EId x => exists v, look s x = Some v /\ (bools x = true -> exists b, v = VBool b)
  | EBin And l r => regular l s /\ forall v s1, eval P look other l s = (Ok v, s1) -> truthy P v = true -> regular r s1
  | EBin Or l r => regular l s /\ forall v s1, eval P look other l s = (Ok v, s1) -> truthy P v = false -> regular r s1
  | EBin op l r => regular l s /\ forall v s1, eval P look other l s = (Ok v, s1) -> regular r s1 /\ forall w s2, eval P look other r s1 = (Ok w, s2) -> regular_op P op v w
  | ENot a => regular a s
  | EContains c v => regular c s /\ forall a s1, eval P look other c s = (Ok a, s1) -> regular v s1
  | EOther t args => regular_list regular args s /\ forall vs s1, eval_list (eval P look other) args s = (Ok vs, s1) -> calls t vs s1
  end.
End Regular.

Fixpoint expr_ind2 (Q : expr -> Prop) (HL : forall l, Q (ELit l)) (HI : forall x, Q (EId x)) (HB : forall op l r, Q l -> Q r -> Q (EBin op l r))
  (HN : forall a, Q a -> Q (ENot a)) (HC : forall c v, Q c -> Q v -> Q (EContains c v)) (HO : forall t args, Forall Q args -> Q (EOther t args)) (e : expr) : Q e :=
  match e with
  | ELit l => HL l
  | EId x => HI x
  | EBin op l r => HB op l r (expr_ind2 Q HL HI HB HN HC HO l) (expr_ind2 Q HL HI HB HN HC HO r)
  | ENot a => HN a (expr_ind2 Q HL HI HB HN HC HO a)
  | EContains c v => HC c v (expr_ind2 Q HL HI HB HN HC HO c) (expr_ind2 Q HL HI HB HN HC HO v)
  | EOther t args => HO t args ((fix go l : Forall Q l := match l with [] => Forall_nil Q | x :: r => Forall_cons x (expr_ind2 Q HL HI HB HN HC HO x) (go r) end) args)
  end.

(** ** Powers of two *)
Lemma power_of_two_spec n : is_power_of_two n = true -> n = 2 ^ Z.log2 n /\ 0 < Z.log2 n.
Proof.
  unfold is_power_of_two. intros H. apply andb_true_iff in H as [H1 H2]. apply Z.ltb_lt in H1. apply Z.eqb_eq in H2. pose proof (Z.log2_spec n ltac:(lia)) as [L1 L2]. assert (Lp : 0 < Z.log2 n) by (apply Z.log2_pos; exact H1). split; [| exact Lp].
  destruct (Z.eq_dec n (2 ^ Z.log2 n)) as [E | E]; [exact E |]. exfalso. assert (Lm : Z.log2 (n - 1) = Z.log2 n) by (apply Z.log2_unique; lia).
  assert (B : Z.testbit (Z.land n (n - 1)) (Z.log2 n) = true).
  { rewrite Z.land_spec. rewrite Z.bit_log2 by lia. cbn [andb]. rewrite <- Lm. apply Z.bit_log2. assert (2 <= 2 ^ Z.log2 n) by (change 2 with (2 ^ 1) at 1; apply Z.pow_le_mono_r; lia). lia. }
  rewrite H2, Z.bits_0 in B. discriminate.
Qed.
Lemma mask_zero x k : 0 < k -> (Z.land x (2 ^ k - 1) =? 0) = (Z.rem x (2 ^ k) =? 0).
Proof.
  intros K. assert (P2 : 0 < 2 ^ k) by (apply Z.pow_pos_nonneg; lia). replace (2 ^ k - 1) with (Z.ones k) by (rewrite Z.ones_equiv; lia). rewrite Z.land_ones by lia.
  apply eq_true_iff_eq. rewrite !Z.eqb_eq. rewrite Z.rem_divide by lia. rewrite Z.mod_divide by lia. reflexivity.
Qed.

(** ** Arithmetic with a neutral operand *)
Section Neutral.
Context (P : prims).
Lemma int_val_int z : is_i64 z -> int_val z = VInt z.
Proof. intros H. unfold int_val. apply in_i64_spec in H. rewrite H. reflexivity. Qed.
Lemma int_val_big z : ~ is_i64 z -> int_val z = VBig z.
Proof. intros H. unfold int_val. destruct (in_i64 z) eqn:E; [| reflexivity]. apply in_i64_spec in E. contradiction. Qed.
Lemma int_val_canonical v z : exact v -> int_of v = Some z -> int_val z = v.
Proof. destruct v; cbn; intros E H; try discriminate; injection H as <-; [apply int_val_int, E | apply int_val_big, E]. Qed.
Lemma rat_val_canonical q p : Qred q = q -> Qden q <> 1%positive -> Qeq p q -> rat_val p = VRat q.
Proof.
  intros R D E. unfold rat_val. rewrite (Qred_complete _ _ E), R. destruct (Z.eqb_spec (Zpos (Qden q)) 1) as [K | K]; [| reflexivity]. exfalso. apply D. injection K as K. exact K.
Qed.
Lemma zero_f_false : is_zero_f fone = false.
Proof. reflexivity. Qed.
Lemma add_zero_r v : same_kind v (VInt 0) -> add P v (VInt 0) = Some v.
Proof.
  intros [[E _] | (f & g & _ & F)]; [| discriminate]. unfold add. destruct v; cbn in E; try contradiction; cbn [is_other orb]; unfold arith; cbn [int_of rat_of].
  - rewrite Z.add_0_r, int_val_int; [reflexivity | exact E].
  - rewrite Z.add_0_r, int_val_big; [reflexivity | exact E].
  - rewrite (rat_val_canonical q); [reflexivity | apply E | apply E | ring].
Qed.
Lemma add_zero_l v : same_kind (VInt 0) v -> add P (VInt 0) v = Some v.
Proof.
  intros [[_ E] | (f & g & F & _)]; [| discriminate]. unfold add. destruct v; cbn in E; try contradiction; cbn [is_other orb]; unfold arith; cbn [int_of rat_of].
  - rewrite Z.add_0_l, int_val_int; [reflexivity | exact E].
  - rewrite Z.add_0_l, int_val_big; [reflexivity | exact E].
  - rewrite (rat_val_canonical q); [reflexivity | apply E | apply E | ring].
Qed.
Lemma sub_zero v : same_kind v (VInt 0) -> subtract P v (VInt 0) = Some v.
Proof.
  intros [[E _] | (f & g & _ & F)]; [| discriminate]. unfold subtract. destruct v; cbn in E; try contradiction; cbn [is_other orb]; unfold arith; cbn [int_of rat_of].
  - rewrite Z.sub_0_r, int_val_int; [reflexivity | exact E].
  - rewrite Z.sub_0_r, int_val_big; [reflexivity | exact E].
  - rewrite (rat_val_canonical q); [reflexivity | apply E | apply E | ring].
Qed.
Lemma sub_zero_float v b : same_kind v (VFloat (fzero b)) -> ~ (v = VFloat (fzero true) /\ VFloat (fzero b) = VFloat (fzero true)) -> subtract P v (VFloat (fzero b)) = Some v.
Proof.
  intros [[_ E] | (f & g & -> & F)] N; [contradiction |]. unfold subtract. cbn. unfold arith. cbn. rewrite fsub_zero; [reflexivity |]. intros [-> ->]. apply N. auto.
Qed.
Lemma mul_one_r v u : one u -> same_kind v u -> multiply P v u = Some v.
Proof.
  intros [-> | ->].
  - intros [[E _] | (f & g & _ & F)]; [| discriminate]. unfold multiply. destruct v; cbn in E; try contradiction; cbn [is_other orb]; unfold arith; cbn [int_of rat_of].
    + rewrite Z.mul_1_r, int_val_int; [reflexivity | exact E].
    + rewrite Z.mul_1_r, int_val_big; [reflexivity | exact E].
    + rewrite (rat_val_canonical q); [reflexivity | apply E | apply E | ring].
  - intros [[_ E] | (f & g & -> & F)]; [contradiction |]. unfold multiply, arith. cbn [is_other orb int_of rat_of num_f64]. rewrite fmul_one_r. reflexivity.
Qed.
Lemma mul_one_l v u : one u -> same_kind u v -> multiply P u v = Some v.
Proof.
  intros [-> | ->].
  - intros [[_ E] | (f & g & F & _)]; [| discriminate]. unfold multiply. destruct v; cbn in E; try contradiction; cbn [is_other orb]; unfold arith; cbn [int_of rat_of].
    + rewrite Z.mul_1_l, int_val_int; [reflexivity | exact E].
    + rewrite Z.mul_1_l, int_val_big; [reflexivity | exact E].
    + rewrite (rat_val_canonical q); [reflexivity | apply E | apply E | ring].
  - intros [[E _] | (f & g & F & ->)]; [contradiction |]. unfold multiply, arith. cbn [is_other orb int_of rat_of num_f64]. rewrite fmul_one_l. reflexivity.
Qed.
Lemma mul_zero_r v : same_kind v (VInt 0) -> multiply P v (VInt 0) = Some (VInt 0).
Proof.
  intros [[E _] | (f & g & _ & F)]; [| discriminate]. unfold multiply. destruct v; cbn in E; try contradiction; cbn [is_other orb]; unfold arith; cbn [int_of rat_of].
  - rewrite Z.mul_0_r. reflexivity.
  - rewrite Z.mul_0_r. reflexivity.
  - unfold rat_val. rewrite (Qred_complete (q * inject_Z 0) 0) by ring. reflexivity.
Qed.
Lemma mul_zero_l v : same_kind (VInt 0) v -> multiply P (VInt 0) v = Some (VInt 0).
Proof.
  intros [[_ E] | (f & g & F & _)]; [| discriminate]. unfold multiply. destruct v; cbn in E; try contradiction; cbn [is_other orb]; unfold arith; cbn [int_of rat_of].
  - reflexivity.
  - reflexivity.
  - unfold rat_val. rewrite (Qred_complete (inject_Z 0 * q) 0) by ring. reflexivity.
Qed.
Lemma div_one v u : one u -> same_kind v u -> divide P v u = Some v.
Proof.
  intros [-> | ->].
  - intros [[E _] | (f & g & _ & F)]; [| discriminate]. unfold divide. destruct v; cbn in E; try contradiction; cbn [is_other orb int_of rat_of Z.eqb].
    + rewrite Z.quot_1_r, int_val_int; [reflexivity | exact E].
    + rewrite Z.quot_1_r, int_val_big; [reflexivity | exact E].
    + replace (Qeq_bool (inject_Z 1) 0) with false by reflexivity. rewrite (rat_val_canonical q); [reflexivity | apply E | apply E | field].
  - intros [[_ E] | (f & g & -> & F)]; [contradiction |]. unfold divide. cbn [is_other orb int_of rat_of num_f64]. rewrite zero_f_false, fdiv_one. reflexivity.
Qed.

(** ** Folding literals *)
Definition is_lit (e : expr) : Prop := exists l, e = ELit l.
Lemma checked_val z e : option_map num (checked_i64 z) = Some e -> e = num z /\ in_i64 z = true.
Proof. unfold checked_i64. destruct (in_i64 z); cbn; intros H; [injection H as <-; auto | discriminate]. Qed.
Lemma rel_lt a b : rel Lt (Some (a ?= b)) = (a <? b).
Proof. unfold Z.ltb. destruct (a ?= b); reflexivity. Qed.
Lemma rel_gt a b : rel Gt (Some (a ?= b)) = (b <? a).
Proof. unfold Z.ltb. rewrite (Z.compare_antisym a b). destruct (a ?= b); reflexivity. Qed.
Lemma rel_le a b : rel LtEq (Some (a ?= b)) = (a <=? b).
Proof. unfold Z.leb. destruct (a ?= b); reflexivity. Qed.
Lemma rel_ge a b : rel GtEq (Some (a ?= b)) = (b <=? a).
Proof. unfold Z.leb. rewrite (Z.compare_antisym a b). destruct (a ?= b); reflexivity. Qed.
Lemma rel_flt a b : rel Lt (Bcompare a b) = @Bltb 53 1024 a b.
Proof. unfold Bltb, Bcompare, SpecFloat.SFltb. destruct (SpecFloat.SFcompare _ _) as [[] |]; reflexivity. Qed.
Lemma rel_fle a b : rel LtEq (Bcompare a b) = @Bleb 53 1024 a b.
Proof. unfold Bleb, Bcompare, SpecFloat.SFleb. destruct (SpecFloat.SFcompare _ _) as [[] |]; reflexivity. Qed.
Lemma rel_fgt a b : rel Gt (Bcompare a b) = @Bltb 53 1024 b a.
Proof. rewrite <- rel_flt, (Bcompare_swap 53 1024 a b). destruct (Bcompare a b) as [[] |]; reflexivity. Qed.
Lemma rel_fge a b : rel GtEq (Bcompare a b) = @Bleb 53 1024 b a.
Proof. rewrite <- rel_fle, (Bcompare_swap 53 1024 a b). destruct (Bcompare a b) as [[] |]; reflexivity. Qed.
Lemma fold_binary_lit op l r x : try_fold_binary op l r = Some x -> is_lit l /\ is_lit r /\ is_lit x.
Proof.
  intros H. destruct l as [a | | | | |]; try discriminate. destruct a; try discriminate; destruct r as [c | | | | |]; try discriminate; destruct c; try discriminate; cbn in H; (split; [eexists; reflexivity |]); (split; [eexists; reflexivity |]).
  - destruct op; cbn in H; try discriminate; repeat match type of H with context [if ?c then _ else _] => destruct c end; try discriminate; try (injection H as <-; eexists; reflexivity); apply checked_val in H as [-> _]; eexists; reflexivity.
  - destruct op; cbn in H; try discriminate; repeat match type of H with context [if ?c then _ else _] => destruct c end; try discriminate; injection H as <-; eexists; reflexivity.
  - destruct op; cbn in H; try discriminate; injection H as <-; eexists; reflexivity.
  - destruct op; cbn in H; try discriminate; injection H as <-; eexists; reflexivity.
Qed.
Hypothesis display_text : forall s, display P (VText s) = s.
Lemma fold_binary_val op l r x : try_fold_binary op (ELit l) (ELit r) = Some (ELit x) -> binary_op P op (lit_val l) (lit_val r) = Some (lit_val x).
Proof.
  intros H. destruct l as [a | a | a | a | |]; try discriminate; destruct r as [b | b | b | b | |]; try discriminate; cbn in H; cbn [lit_val].
  - destruct op; cbn in H; try discriminate.
    + apply checked_val in H as [E I]. injection E as ->. cbn. unfold add, arith. cbn. unfold int_val. rewrite I. reflexivity.
    + apply checked_val in H as [E I]. injection E as ->. cbn. unfold subtract, arith. cbn. unfold int_val. rewrite I. reflexivity.
    + apply checked_val in H as [E I]. injection E as ->. cbn. unfold multiply, arith. cbn. unfold int_val. rewrite I. reflexivity.
    + destruct (Z.eqb_spec b 0) as [Z0 | Z0]; [discriminate |]. apply checked_val in H as [E I]. injection E as ->. cbn. unfold divide. cbn. destruct (Z.eqb_spec b 0) as [Z1 | Z1]; [contradiction |]. unfold int_val. rewrite I. reflexivity.
    + destruct (Z.eqb_spec b 0) as [Z0 | Z0]; cbn in H; [discriminate |]. destruct (_ && _)%bool; [discriminate |]. injection H as <-. cbn. unfold modulo. cbn. destruct (Z.eqb_spec b 0) as [Z1 | Z1]; [contradiction |]. reflexivity.
    + injection H as <-. reflexivity.
    + injection H as <-. reflexivity.
    + injection H as <-. cbn [binary_op]. unfold compare. cbn [is_other orb int_of option_map lit_val]. rewrite rel_lt. reflexivity.
    + injection H as <-. cbn [binary_op]. unfold compare. cbn [is_other orb int_of option_map lit_val]. rewrite rel_gt. reflexivity.
    + injection H as <-. cbn [binary_op]. unfold compare. cbn [is_other orb int_of option_map lit_val]. rewrite rel_le. reflexivity.
    + injection H as <-. cbn [binary_op]. unfold compare. cbn [is_other orb int_of option_map lit_val]. rewrite rel_ge. reflexivity.
    + injection H as <-. reflexivity.
    + injection H as <-. reflexivity.
    + injection H as <-. reflexivity.
    + injection H as <-. reflexivity.
    + injection H as <-. reflexivity.
    + destruct (0 <=? b) eqn:B0; cbn [andb] in H; [| discriminate]. destruct (b <? 64) eqn:B1; [| discriminate]. injection H as <-. cbn. unfold shift. cbn. rewrite (Z.mod_small b 64); [reflexivity |]. apply Z.leb_le in B0. apply Z.ltb_lt in B1. lia.
    + destruct (0 <=? b) eqn:B0; cbn [andb] in H; [| discriminate]. destruct (b <? 64) eqn:B1; [| discriminate]. injection H as <-. cbn [binary_op]. unfold shift. cbn [is_other orb]. rewrite (Z.mod_small b 64); [reflexivity |]. apply Z.leb_le in B0. apply Z.ltb_lt in B1. lia.
  - destruct op; cbn in H; try discriminate.
    + injection H as <-. reflexivity.
    + injection H as <-. reflexivity.
    + injection H as <-. reflexivity.
    + destruct (is_zero_f b) eqn:Z0; [discriminate |]. injection H as <-. cbn. unfold divide. cbn. rewrite Z0. reflexivity.
    + injection H as <-. reflexivity.
    + injection H as <-. reflexivity.
    + injection H as <-. cbn [binary_op]. unfold compare. cbn [is_other orb int_of rat_of option_map lit_val]. rewrite rel_flt. reflexivity.
    + injection H as <-. cbn [binary_op]. unfold compare. cbn [is_other orb int_of rat_of option_map lit_val]. rewrite rel_fgt. reflexivity.
    + injection H as <-. cbn [binary_op]. unfold compare. cbn [is_other orb int_of rat_of option_map lit_val]. rewrite rel_fle. reflexivity.
    + injection H as <-. cbn [binary_op]. unfold compare. cbn [is_other orb int_of rat_of option_map lit_val]. rewrite rel_fge. reflexivity.
  - destruct op; cbn in H; try discriminate; injection H as <-; reflexivity.
  - destruct op; cbn in H; try discriminate; injection H as <-; try reflexivity. cbn [binary_op lit_val]. rewrite !display_text. reflexivity.
Qed.
End Neutral.
