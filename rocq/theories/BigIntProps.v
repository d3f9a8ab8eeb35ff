(** C26, C27: big integers are exact, and every number has one representation. *)
From Coq Require Import ZArith List Lia.
From stdpp Require Import list.
From Verif Require Import MachInt BitLemmas WireModel WireProofs BigIntModel BigIntProofs BigIntZ BigIntText.
Open Scope Z_scope.

(** Rewrite canonical arguments to numbers. *)
Local Ltac canonize := repeat match goal with H : canon ?x |- _ => rewrite <- (of_Z_bval x H) in *; clear H; generalize dependent (bval x); clear x; intros end.

(** ** The numbers programs can hold
    Everything built by the public constructors and operations, from any arguments. *)
Inductive built : bigint -> Prop :=
  | built_zero : built bi_zero
  | built_i64 x : is_i64 x -> built (bi_from_i64 x)
  | built_u64 x : is_u64 x -> built (bi_from_u64 x)
  | built_parse s b : bi_parse_decimal s = Some b -> built b
  | built_bytes neg bs : bytes_ok bs -> built (bi_from_le_bytes neg bs)
  | built_abs x : built x -> built (bi_abs x)
  | built_neg x : built x -> built (bi_negated x)
  | built_add x y : built x -> built y -> built (bi_add x y)
  | built_sub x y : built x -> built y -> built (bi_sub x y)
  | built_mul x y : built x -> built y -> built (bi_mul x y)
  | built_quot x y q r : built x -> built y -> bi_div_rem x y = Some (q, r) -> built q
  | built_rem x y q r : built x -> built y -> bi_div_rem x y = Some (q, r) -> built r
  | built_pow x e : built x -> 0 <= e < 2 ^ 32 -> built (bi_pow x e).

(** All of them are canonical: no high zero limb, single limbs inline, the sign Zero exactly for
    zero. *)
Theorem C27_canonical b : built b -> canon b.
Proof.
  induction 1 as [|x H|x H|s b H|neg bs H|x H IH|x H IH|x y Hx IHx Hy IHy|x y Hx IHx Hy IHy|x y Hx IHx Hy IHy|x y q r Hx IHx Hy IHy E|x y q r Hx IHx Hy IHy E|x e Hx IH He].
  - rewrite zero_of_Z. apply canon_of_Z.
  - rewrite from_i64_of_Z by done. apply canon_of_Z.
  - rewrite from_u64_of_Z by done. apply canon_of_Z.
  - rewrite parse_decimal_of in H. destruct (split_sign s) as [neg ds]. destruct (digits_dec ds); [|done]. destruct ds; [done|]. injection H as <-. apply canon_of_Z.
  - rewrite from_le_bytes_of_Z by done. apply canon_of_Z.
  - rewrite <- (of_Z_bval x IH), abs_of_Z. apply canon_of_Z.
  - rewrite <- (of_Z_bval x IH), negated_of_Z. apply canon_of_Z.
  - rewrite <- (of_Z_bval x IHx), <- (of_Z_bval y IHy), add_of_Z. apply canon_of_Z.
  - rewrite <- (of_Z_bval x IHx), <- (of_Z_bval y IHy), sub_of_Z. apply canon_of_Z.
  - rewrite <- (of_Z_bval x IHx), <- (of_Z_bval y IHy), mul_of_Z. apply canon_of_Z.
  - rewrite <- (of_Z_bval x IHx), <- (of_Z_bval y IHy), div_rem_of_Z in E. destruct (bval y =? 0); [done|]. injection E as <- <-. apply canon_of_Z.
  - rewrite <- (of_Z_bval x IHx), <- (of_Z_bval y IHy), div_rem_of_Z in E. destruct (bval y =? 0); [done|]. injection E as <- <-. apply canon_of_Z.
  - rewrite <- (of_Z_bval x IH), pow_of_Z by done. apply canon_of_Z.
Qed.
(** And every canonical representation, hence every integer, can be built. *)
Theorem C27_every_integer z : exists b, built b /\ bval b = z.
Proof.
  exists (of_Z z). split; [|apply bval_of_Z]. destruct (to_le_bytes_of_Z z) as (bs & _ & V & K).
  replace (of_Z z) with (bi_from_le_bytes (z <? 0) bs); [now constructor|]. rewrite from_le_bytes_of_Z, V by done. f_equal. destruct (Z.ltb_spec z 0); lia.
Qed.

(** ** C26: arithmetic *)
Theorem C26_constants x : bval bi_zero = 0 /\ (is_i64 x -> bval (bi_from_i64 x) = x) /\ (is_u64 x -> bval (bi_from_u64 x) = x).
Proof. split; [done|]. split; intros H; [rewrite from_i64_of_Z by done|rewrite from_u64_of_Z by done]; apply bval_of_Z. Qed.
Theorem C26_ring x y : built x -> built y ->
  bval (bi_add x y) = bval x + bval y /\ bval (bi_sub x y) = bval x - bval y /\ bval (bi_mul x y) = bval x * bval y.
Proof. intros Hx%C27_canonical Hy%C27_canonical. rewrite <- (of_Z_bval x Hx), <- (of_Z_bval y Hy). rewrite add_of_Z, sub_of_Z, mul_of_Z, !bval_of_Z. done. Qed.
(** Division truncates towards zero, and is refused for a zero divisor only. *)
Theorem C26_div_rem x y : built x -> built y -> bval y <> 0 ->
  exists q r, bi_div_rem x y = Some (q, r) /\ bval x = bval q * bval y + bval r /\ Z.abs (bval r) < Z.abs (bval y) /\ 0 <= bval r * bval x.
Proof.
  intros Hx%C27_canonical Hy%C27_canonical N. rewrite <- (of_Z_bval x Hx), <- (of_Z_bval y Hy), div_rem_of_Z. destruct (Z.eqb_spec (bval y) 0) as [?|_]; [done|].
  eexists _, _. split; [reflexivity|]. rewrite !bval_of_Z. split; [rewrite (Z.quot_rem (bval x) (bval y) N) at 1; lia|]. split; [now apply Z.rem_bound_abs|]. now apply Z.rem_sign_mul.
Qed.
Theorem C26_div_by_zero x y : built x -> built y -> bi_div_rem x y = None <-> bval y = 0.
Proof.
  intros Hx%C27_canonical Hy%C27_canonical. rewrite <- (of_Z_bval x Hx), <- (of_Z_bval y Hy), div_rem_of_Z, bval_of_Z. destruct (Z.eqb_spec (bval y) 0); split; done.
Qed.
Theorem C26_pow x e : built x -> 0 <= e < 2 ^ 32 -> bval (bi_pow x e) = bval x ^ e.
Proof. intros Hx%C27_canonical He. rewrite <- (of_Z_bval x Hx), pow_of_Z, !bval_of_Z by done. done. Qed.
Theorem C26_order x y : built x -> built y -> bi_cmp x y = (bval x ?= bval y).
Proof. intros Hx%C27_canonical Hy%C27_canonical. rewrite <- (of_Z_bval x Hx), <- (of_Z_bval y Hy), cmp_of_Z, !bval_of_Z. done. Qed.
Theorem C26_signs x : built x ->
  bval (bi_abs x) = Z.abs (bval x) /\ bval (bi_negated x) = - bval x /\ bi_is_zero x = (bval x =? 0) /\
  bi_is_negative x = (bval x <? 0) /\ bi_is_positive x = (0 <? bval x) /\ bi_is_odd x = Z.odd (bval x).
Proof.
  intros Hx%C27_canonical. rewrite <- (of_Z_bval x Hx). rewrite abs_of_Z, negated_of_Z, is_zero_of_Z, is_negative_of_Z, is_positive_of_Z, is_odd_of_Z, !bval_of_Z. done.
Qed.

(** ** C27: one representation *)
(** The derived (structural) equality is equality of numbers, and equal numbers are the same value. *)
Theorem C27_equality x y : built x -> built y -> (bi_eqb x y = true <-> bval x = bval y) /\ (x = y <-> bval x = bval y).
Proof.
  intros Hx%C27_canonical Hy%C27_canonical. rewrite bi_eqb_iff. split; (split; [now intros ->|now apply canon_inj]).
Qed.
(** The comparison says "equal" exactly for structurally equal numbers (Eq and Ord agree). *)
Theorem C27_eq_ord x y : built x -> built y -> bi_cmp x y = Eq <-> bi_eqb x y = true.
Proof. intros Hx Hy. rewrite C26_order by done. rewrite Z.compare_eq_iff. symmetry. now apply C27_equality. Qed.
Theorem C27_to_i64 x n : built x -> bi_to_i64 x = Some n <-> bval x = n /\ is_i64 n.
Proof.
  intros Hx%C27_canonical. rewrite <- (of_Z_bval x Hx), to_i64_of_Z, bval_of_Z. unfold is_i64. destruct (Z.leb_spec (- 2 ^ 63) (bval x)), (Z.ltb_spec (bval x) (2 ^ 63)); cbn [andb].
  - split; [intros [= <-]; lia|intros [-> _]; done].
  - split; [done|]. intros [<- [? ?]]. lia.
  - split; [done|]. intros [<- [? ?]]. lia.
  - split; [done|]. intros [<- [? ?]]. lia.
Qed.
Theorem C27_i64_roundtrip n : is_i64 n -> bi_to_i64 (bi_from_i64 n) = Some n.
Proof. intros H. apply C27_to_i64; [now constructor|]. split; [now apply C26_constants|done]. Qed.
(** Byte serialization: the sign and the magnitude, little-endian. *)
Theorem C27_bytes x : built x -> exists bs, bi_to_le_bytes x = (bval x <? 0, bs) /\ bytes_ok bs /\ from_le bs = Z.abs (bval x) /\ bi_from_le_bytes (bval x <? 0) bs = x.
Proof.
  intros Hx%C27_canonical. destruct (to_le_bytes_of_Z (bval x)) as (bs & E & V & K). rewrite of_Z_bval in E by done. exists bs. split; [done|]. split; [done|]. split; [done|].
  rewrite from_le_bytes_of_Z, V by done. transitivity (of_Z (bval x)); [|now apply of_Z_bval]. f_equal. destruct (Z.ltb_spec (bval x) 0); lia.
Qed.
(** Any bytes at all read as the number they spell, whatever the padding. *)
Theorem C27_from_bytes neg bs : bytes_ok bs -> bval (bi_from_le_bytes neg bs) = if neg then - from_le bs else from_le bs.
Proof. intros H. rewrite from_le_bytes_of_Z by done. apply bval_of_Z. Qed.
(** Display: an optional minus and the decimal digits without superfluous zeros; it never panics. *)
Theorem C27_show x : built x -> exists ds, bi_show x = Some ((if bval x <? 0 then [45] else []) ++ ds) /\ plain_digits ds /\ dec_value ds = Z.abs (bval x).
Proof. intros Hx%C27_canonical. destruct (show_of_Z (bval x)) as (ds & E & P & V). rewrite of_Z_bval in E by done. exists ds. done. Qed.
(** Parsing accepts exactly an optional sign and one or more ASCII digits, and reads their value. *)
Theorem C27_parse s b : bi_parse_decimal s = Some b <->
  exists sg ds, s = sg ++ ds /\ (sg = [] \/ sg = [43] \/ sg = [45]) /\ ds <> [] /\ Forall is_digit ds /\ canon b /\ bval b = (if bool_decide (sg = [45]) then - dec_value ds else dec_value ds).
Proof.
  rewrite parse_decimal_of. split.
  - destruct (split_sign s) as [neg ds] eqn:E. destruct (digits_dec ds) as [F|]; [|done]. intros H. assert (N : ds <> []) by (destruct ds; done).
    assert (H' : of_Z (if neg then - dec_value ds else dec_value ds) = b) by (destruct ds; [done|congruence]). clear H. subst b.
    unfold split_sign in E. destruct s as [|c s]; [injection E as <- <-; done|]. destruct (Z.eqb_spec c 45) as [->|N1]; [|destruct (Z.eqb_spec c 43) as [->|N2]].
    + injection E as <- <-. exists [45], s. split; [done|]. split; [tauto|]. split; [done|]. split; [done|]. split; [apply canon_of_Z|apply bval_of_Z].
    + injection E as <- <-. exists [43], s. split; [done|]. split; [tauto|]. split; [done|]. split; [done|]. split; [apply canon_of_Z|apply bval_of_Z].
    + injection E as <- <-. exists [], (c :: s). split; [done|]. split; [tauto|]. split; [done|]. split; [done|]. split; [apply canon_of_Z|apply bval_of_Z].
  - intros (sg & ds & -> & Hs & N & F & C & V). assert (Sp : split_sign (sg ++ ds) = (bool_decide (sg = [45]), ds)).
    { destruct Hs as [-> |[-> | ->]]; [|done|done]. destruct ds as [|d ds]; [done|]. inversion F as [|? ? Hd _]; subst. unfold is_digit in Hd. cbn. destruct (Z.eqb_spec d 45); [lia|]. destruct (Z.eqb_spec d 43); [lia|]. done. }
    rewrite Sp. destruct (digits_dec ds); [|done]. destruct ds as [|d ds]; [done|]. f_equal. rewrite <- V. now apply of_Z_bval.
Qed.
(** The text of a number parses back to it, so different numbers have different texts. *)
Theorem C27_text_roundtrip x : built x -> exists s, bi_show x = Some s /\ bi_parse_decimal s = Some x.
Proof.
  intros Hx. destruct (C27_show x Hx) as (ds & E & (F & N & Z0) & V). eexists. split; [exact E|]. apply C27_parse. exists (if bval x <? 0 then [45] else []), ds. split; [done|].
  split; [destruct (bval x <? 0); tauto|]. split; [done|]. split; [done|]. split; [now apply C27_canonical|]. rewrite V. destruct (Z.ltb_spec (bval x) 0).
  - rewrite bool_decide_eq_true_2 by done. lia.
  - rewrite bool_decide_eq_false_2 by done. lia.
Qed.
(** The text is determined by the number alone: there is one plain digit string per magnitude. *)
Theorem C27_text_unique a b : plain_digits a -> plain_digits b -> dec_value a = dec_value b -> a = b.
Proof. apply plain_inj. Qed.

(** ** Examples: numbers of several limbs *)
Definition two200 : bigint := bi_pow (bi_from_i64 2) 200.
Example ex_built : built two200 /\ bval two200 = 2 ^ 200.
Proof.
  assert (H : built (bi_from_i64 2)) by (apply built_i64; unfold is_i64; lia). assert (E : 0 <= 200 < 2 ^ 32) by lia. split; [exact (built_pow _ _ H E)|].
  unfold two200. rewrite (C26_pow _ _ H E). destruct (C26_constants 2) as (_ & -> & _); [done|unfold is_i64; lia].
Qed.
Example ex_limbs : two200 = BigInt Pos (Heap [0; 0; 0; 256]). Proof. vm_compute. reflexivity. Qed.
Example ex_cancel : bi_sub (bi_add two200 (bi_from_i64 5)) two200 = bi_from_i64 5. Proof. vm_compute. reflexivity. Qed.
Example ex_square : bi_mul two200 (bi_negated two200) = bi_negated (bi_pow (bi_from_i64 2) 400). Proof. vm_compute. reflexivity. Qed.
Example ex_divrem : bi_div_rem (bi_negated (bi_add (bi_mul two200 two200) (bi_from_i64 7))) two200 = Some (bi_negated two200, bi_from_i64 (-7)). Proof. vm_compute. reflexivity. Qed.
Example ex_div_zero : bi_div_rem two200 (bi_sub two200 two200) = None. Proof. vm_compute. reflexivity. Qed.
Example ex_i64_min : bi_to_i64 (bi_from_i64 (- 2 ^ 63)) = Some (- 2 ^ 63) /\ bi_to_i64 (bi_negated (bi_from_i64 (- 2 ^ 63))) = None. Proof. vm_compute. done. Qed.
Example ex_show : bi_show (bi_pow (bi_from_i64 (-10)) 41) = Some (45 :: 49 :: repeat 48 41). Proof. vm_compute. reflexivity. Qed.
Example ex_parse : bi_parse_decimal (45 :: 48 :: 49 :: repeat 48 41) = Some (bi_pow (bi_from_i64 (-10)) 41). Proof. vm_compute. reflexivity. Qed.
Example ex_parse_bad : bi_parse_decimal [45] = None /\ bi_parse_decimal [45; 45; 49] = None /\ bi_parse_decimal [49; 95; 48] = None. Proof. vm_compute. done. Qed.
