(** Lemmas about linear algebra over GF(p). *)
From Coq Require Import List ZArith Znumtheory Zdiv Zpow_facts Bool Lia Setoid Morphisms.
From Verif Require Import ModpModel ModpFermat.
Import ListNotations.
Open Scope Z_scope.

Fixpoint zsum (n : nat) (f : nat -> Z) : Z := match n with O => 0 | S n => zsum n f + f n end.
Lemma zsum_ext n f g : (forall i, (i < n)%nat -> f i = g i) -> zsum n f = zsum n g.
Proof. induction n as [| n IH]; intros H; cbn [zsum]; [reflexivity |]. rewrite IH by (intros i Hi; apply H; lia). rewrite H by lia. reflexivity. Qed.
Lemma zsum_zero n f : (forall i, (i < n)%nat -> f i = 0) -> zsum n f = 0.
Proof. induction n as [| n IH]; intros H; cbn [zsum]; [reflexivity |]. rewrite IH by (intros i Hi; apply H; lia). rewrite H by lia. reflexivity. Qed.
Lemma zsum_add n f g : zsum n (fun i => f i + g i) = zsum n f + zsum n g.
Proof. induction n as [| n IH]; cbn [zsum]; lia. Qed.
Lemma zsum_scal n k f : zsum n (fun i => k * f i) = k * zsum n f.
Proof. induction n as [| n IH]; cbn [zsum]; lia. Qed.
Lemma zsum_single n f i : (i < n)%nat -> (forall j, (j < n)%nat -> j <> i -> f j = 0) -> zsum n f = f i.
Proof.
  induction n as [| n IH]; intros L H; [lia |]. cbn [zsum]. destruct (Nat.eq_dec i n) as [-> | N]; [rewrite zsum_zero; [lia |]; intros j Hj; apply H; lia |].
  rewrite IH, (H n) by (try intros j Hj; try apply H; lia). lia.
Qed.
Lemma zsum_swap n m f : zsum n (fun i => zsum m (fun j => f i j)) = zsum m (fun j => zsum n (fun i => f i j)).
Proof. induction n as [| n IH]; cbn [zsum]; [symmetry; apply zsum_zero; reflexivity |]. rewrite IH, <- zsum_add. reflexivity. Qed.

Lemma get_set l i x j : get (set l i x) j = if Nat.eqb i j && Nat.ltb i (length l) then x else get l j.
Proof.
  unfold get. revert i j. induction l as [| y l IH]; intros [| i] [| j]; cbn [set nth length]; try reflexivity; try (rewrite andb_false_r; reflexivity).
  rewrite IH. cbn [Nat.eqb]. change (Nat.ltb (S i) (S (length l))) with (Nat.ltb i (length l)). reflexivity.
Qed.
Lemma set_length l i x : length (set l i x) = length l.
Proof. revert i. induction l as [| y l IH]; intros [| i]; cbn [set length]; auto. Qed.
Lemma get_repeat n i : get (repeat 0 n) i = 0.
Proof. unfold get. revert i. induction n as [| n IH]; intros [| i]; cbn [repeat nth]; auto. Qed.
Lemma get_map_seq g n i : get (map g (seq 0 n)) i = if Nat.ltb i n then g i else 0.
Proof.
  unfold get. destruct (Nat.ltb_spec i n) as [L | L].
  - rewrite nth_indep with (d' := g 0%nat) by (rewrite map_length, seq_length; exact L). rewrite map_nth, seq_nth by exact L. reflexivity.
  - apply nth_overflow. rewrite map_length, seq_length. exact L.
Qed.
Lemma nth_map_seq {A} (g : nat -> A) n i d : (i < n)%nat -> nth i (map g (seq 0 n)) d = g i.
Proof. intros L. rewrite nth_indep with (d' := g 0%nat) by (rewrite map_length, seq_length; exact L). rewrite map_nth, seq_nth by exact L. reflexivity. Qed.
Lemma get_ext a b : length a = length b -> (forall i, (i < length a)%nat -> get a i = get b i) -> a = b.
Proof. intros L H. apply (nth_ext _ _ 0 0 L). exact H. Qed.

Definition cong (p a b : Z) : Prop := (p | a - b).
Global Instance cong_equiv p : Equivalence (cong p).
Proof.
  unfold cong. split; [intros a; exists 0; lia | intros a b [k K]; exists (- k); lia | intros a b c [k K] [l L]; exists (k + l); lia].
Qed.
Global Instance cong_add p : Proper (cong p ==> cong p ==> cong p) Z.add.
Proof. intros a b [k K] c d [l L]. exists (k + l). lia. Qed.
Global Instance cong_sub p : Proper (cong p ==> cong p ==> cong p) Z.sub.
Proof. intros a b [k K] c d [l L]. exists (k - l). lia. Qed.
Global Instance cong_mul p : Proper (cong p ==> cong p ==> cong p) Z.mul.
Proof. intros a b [k K] c d [l L]. exists (k * c + l * b). replace (a * c - b * d) with ((a - b) * c + (c - d) * b) by lia. rewrite K, L. lia. Qed.
Lemma cong_mod p a : cong p (a mod p) a.
Proof.
  destruct (Z.eq_dec p 0) as [-> | N]; [rewrite Zmod_0_r; reflexivity |]. exists (- (a / p)). pose proof (Z.div_mod a p N). lia.
Qed.
Lemma cong_pow p a b n : cong p a b -> cong p (a ^ Z.of_nat n) (b ^ Z.of_nat n).
Proof.
  intros H. induction n as [| n IH]; [reflexivity |]. rewrite Nat2Z.inj_succ, !Z.pow_succ_r by lia. apply cong_mul; assumption.
Qed.
Lemma cong_iff p a b : 0 < p -> cong p a b <-> a mod p = b mod p.
Proof.
  intros P. split.
  - intros [k K]. replace a with (b + k * p) by lia. apply Z_mod_plus_full.
  - intros E. rewrite <- (cong_mod p a), E, cong_mod. reflexivity.
Qed.

Section field.
Variable p : Z.
Notation "a == b" := (cong p a b) (at level 70).
Lemma zsum_eqm n f g : (forall i, (i < n)%nat -> f i == g i) -> zsum n f == zsum n g.
Proof. induction n as [| n IH]; intros H; cbn [zsum]; [reflexivity |]. apply cong_add; [apply IH; intros i Hi; apply H; lia | apply H; lia]. Qed.
Lemma madd_c a b : madd a b p == a + b.
Proof. apply cong_mod. Qed.
Lemma msub_c a b : msub a b p == a - b.
Proof. unfold msub. rewrite cong_mod, cong_mod. exists 1. lia. Qed.
Lemma mmul_c a b : mmul a b p == a * b.
Proof. unfold mmul. rewrite !cong_mod. reflexivity. Qed.
Lemma eqm_small a b : 0 <= a < p -> 0 <= b < p -> a == b -> a = b.
Proof. intros A B H. apply cong_iff in H; [| lia]. rewrite !Z.mod_small in H by assumption. exact H. Qed.

Hypothesis Hp : prime p.
Lemma p2 : 2 <= p. Proof. apply prime_ge_2, Hp. Qed.
Lemma mod_rng a : 0 <= a mod p < p.
Proof. apply Z.mod_pos_bound. pose proof p2. lia. Qed.
Lemma madd_rng a b : 0 <= madd a b p < p. Proof. apply mod_rng. Qed.
Lemma msub_rng a b : 0 <= msub a b p < p. Proof. apply mod_rng. Qed.
Lemma mmul_rng a b : 0 <= mmul a b p < p. Proof. apply mod_rng. Qed.

Lemma cong_pow' a b e : a == b -> a ^ Zpos e == b ^ Zpos e.
Proof. intros H. rewrite <- (positive_nat_Z e). apply cong_pow, H. Qed.
Lemma pow_bits_c e : forall r a, pow_bits e r a p == r * a ^ Zpos e.
Proof.
  induction e as [e IH | e IH |]; intros r a; cbn [pow_bits].
  - rewrite IH. replace (a ^ Z.pos e~1) with (a * (a * a) ^ Z.pos e) by (rewrite Pos2Z.inj_xI, Z.pow_add_r, Z.pow_twice_r, Z.pow_mul_l by lia; lia). rewrite Z.mul_assoc. apply cong_mul; [apply mmul_c | apply cong_pow', mmul_c].
  - rewrite IH. replace (a ^ Z.pos e~0) with ((a * a) ^ Z.pos e) by (rewrite Pos2Z.inj_xO, Z.pow_twice_r, Z.pow_mul_l by lia; lia). apply cong_mul; [reflexivity | apply cong_pow', mmul_c].
  - rewrite mmul_c, Z.pow_1_r. reflexivity.
Qed.
Lemma powm_c a e : 0 <= e -> powm a e p == a ^ e.
Proof.
  intros He. unfold powm. destruct e as [| e | e]; [apply cong_mod | | lia]. rewrite pow_bits_c, (cong_mod p 1), Z.mul_1_l. apply cong_pow', cong_mod.
Qed.
Lemma inv_c a : 0 < a < p -> a * inv a p == 1.
Proof.
  intros Ha. pose proof p2 as P. unfold inv. rewrite powm_c by lia. apply cong_iff; [lia |]. rewrite (fermat_inverse p a Hp Ha). symmetry. apply Z.mod_1_l. lia.
Qed.

(** ** Rows *)
Variables nv m : nat.
Inductive cell := CV (v : nat) | CR | CP (k : nat).
Definition at_ (r : row) (c : cell) : Z := match c with CV v => get (rc r) v | CR => rr r | CP k => get (rp r) k end.
Definition wf (r : row) : Prop := length (rc r) = nv /\ length (rp r) = m /\ forall c, 0 <= at_ r c < p.
Lemma get_over l i : (length l <= i)%nat -> get l i = 0.
Proof. apply nth_overflow. Qed.
Lemma scale_at f r c : wf r -> at_ (scale f nv m p r) c == at_ r c * f.
Proof.
  intros (L1 & L2 & _). destruct c as [v | | k]; cbn [at_ scale rc rr rp]; [| apply mmul_c |]; rewrite get_map_seq.
  - destruct (Nat.ltb_spec v nv); [apply mmul_c |]. rewrite (get_over (rc r)) by lia. reflexivity.
  - destruct (Nat.ltb_spec k m); [apply mmul_c |]. rewrite (get_over (rp r)) by lia. reflexivity.
Qed.
Lemma zero_rng : 0 <= 0 < p. Proof. pose proof p2. lia. Qed.
Lemma scale_wf f r : wf (scale f nv m p r).
Proof.
  unfold wf. cbn [scale rc rp]. rewrite !map_length, !seq_length. split; [reflexivity |]. split; [reflexivity |].
  intros [v | | k]; cbn [at_ scale rc rr rp]; [| apply mmul_rng |]; rewrite get_map_seq; destruct (Nat.ltb _ _); try apply mmul_rng; apply zero_rng.
Qed.
Lemma reduce_at f piv r c : wf piv -> wf r -> at_ (reduce f nv m p piv r) c == at_ r c - f * at_ piv c.
Proof.
  intros (K1 & K2 & _) (L1 & L2 & _). assert (G : forall a b, msub a (mmul f b p) p == a - f * b) by (intros a b; rewrite msub_c, mmul_c; reflexivity).
  destruct c as [v | | k]; cbn [at_ reduce rc rr rp]; [| apply G |]; rewrite get_map_seq.
  - destruct (Nat.ltb_spec v nv); [apply G |]. rewrite (get_over (rc r)), (get_over (rc piv)) by lia. replace (0 - f * 0) with 0 by lia. reflexivity.
  - destruct (Nat.ltb_spec k m); [apply G |]. rewrite (get_over (rp r)), (get_over (rp piv)) by lia. replace (0 - f * 0) with 0 by lia. reflexivity.
Qed.
Lemma reduce_wf f piv r : wf (reduce f nv m p piv r).
Proof.
  unfold wf. cbn [reduce rc rp]. rewrite !map_length, !seq_length. split; [reflexivity |]. split; [reflexivity |].
  intros [v | | k]; cbn [at_ reduce rc rr rp]; [| apply msub_rng |]; rewrite get_map_seq; destruct (Nat.ltb _ _); try apply msub_rng; apply zero_rng.
Qed.
(** The residue of a row under an assignment. *)
Definition resid (x : nat -> Z) (r : row) : Z := zsum nv (fun v => at_ r (CV v) * x v) - at_ r CR.
Lemma resid_scale x f r : wf r -> resid x (scale f nv m p r) == f * resid x r.
Proof.
  intros W. unfold resid. rewrite Z.mul_sub_distr_l, <- zsum_scal. apply cong_sub; [| rewrite scale_at by exact W; rewrite Z.mul_comm; reflexivity].
  apply zsum_eqm. intros v _. rewrite scale_at by exact W. replace (f * (at_ r (CV v) * x v)) with (at_ r (CV v) * f * x v) by lia. reflexivity.
Qed.
Lemma resid_reduce x f piv r : wf piv -> wf r -> resid x (reduce f nv m p piv r) == resid x r - f * resid x piv.
Proof.
  intros Wp W. unfold resid. transitivity (zsum nv (fun v => at_ r (CV v) * x v + - f * (at_ piv (CV v) * x v)) - (at_ r CR - f * at_ piv CR)).
  - apply cong_sub; [| apply reduce_at; assumption]. apply zsum_eqm. intros v _. rewrite reduce_at by assumption. replace (at_ r (CV v) * x v + - f * (at_ piv (CV v) * x v)) with ((at_ r (CV v) - f * at_ piv (CV v)) * x v) by lia. reflexivity.
  - rewrite zsum_add, zsum_scal. match goal with |- ?a == ?b => replace a with b by lia end. reflexivity.
Qed.

(** ** The elimination *)
Notation rowat rows i := (nth i rows dflt).
Lemma swap_len rows a b : length (swap rows a b) = length rows.
Proof. unfold swap. rewrite map_length, seq_length. reflexivity. Qed.
Definition sw (a b i : nat) : nat := if Nat.eqb i a then b else if Nat.eqb i b then a else i.
Lemma swap_at rows a b i : (i < length rows)%nat -> rowat (swap rows a b) i = rowat rows (sw a b i).
Proof. intros L. unfold swap. rewrite nth_map_seq by exact L. reflexivity. Qed.
Lemma sw_lt a b i n : (a < n)%nat -> (b < n)%nat -> (i < n)%nat -> (sw a b i < n)%nat.
Proof. unfold sw. destruct (Nat.eqb i a), (Nat.eqb i b); lia. Qed.
Lemma sw_inv a b i : sw a b (sw a b i) = i.
Proof. unfold sw. destruct (Nat.eqb_spec i a), (Nat.eqb_spec i b); repeat match goal with |- context [Nat.eqb ?x ?y] => destruct (Nat.eqb_spec x y) end; congruence. Qed.
Lemma clear_len rows r col : length (clear rows r col nv m p) = length rows.
Proof. unfold clear. rewrite map_length, seq_length. reflexivity. Qed.
Definition pivrow (rows : list row) (r col : nat) : row := scale (inv (get (rc (rowat rows r)) col) p) nv m p (rowat rows r).
Lemma clear_at rows r col i : (i < length rows)%nat -> rowat (clear rows r col nv m p) i =
  if Nat.eqb i r then pivrow rows r col else if Z.eqb (get (rc (rowat rows i)) col) 0 then rowat rows i else reduce (get (rc (rowat rows i)) col) nv m p (pivrow rows r col) (rowat rows i).
Proof. intros L. unfold clear. rewrite nth_map_seq by exact L. reflexivity. Qed.
Definition all_rows (P : row -> Prop) (rows : list row) : Prop := forall i, (i < length rows)%nat -> P (rowat rows i).
Lemma swap_all P rows a b : (a < length rows)%nat -> (b < length rows)%nat -> all_rows P (swap rows a b) <-> all_rows P rows.
Proof.
  intros La Lb. unfold all_rows. rewrite swap_len. split; intros H i Hi.
  - specialize (H (sw a b i) (sw_lt a b i _ La Lb Hi)). rewrite swap_at, sw_inv in H by (apply sw_lt; assumption). exact H.
  - rewrite swap_at by exact Hi. apply H, sw_lt; assumption.
Qed.
Definition closed (P : row -> Prop) : Prop := (forall f r, wf r -> P r -> P (scale f nv m p r)) /\ (forall f a r, wf a -> wf r -> P a -> P r -> P (reduce f nv m p a r)).
Lemma clear_all P rows r col : closed P -> (r < length rows)%nat -> all_rows wf rows -> all_rows P rows -> all_rows P (clear rows r col nv m p).
Proof.
  intros [C1 C2] L W H i Hi. rewrite clear_len in Hi. rewrite clear_at by exact Hi. assert (P (pivrow rows r col)) as Pp by (apply C1; [apply W, L | apply H, L]).
  destruct (Nat.eqb i r); [exact Pp |]. destruct (Z.eqb _ 0); [apply H, Hi |]. apply C2; [apply scale_wf | apply W, Hi | exact Pp | apply H, Hi].
Qed.
Lemma clear_wf rows r col : (r < length rows)%nat -> all_rows wf rows -> all_rows wf (clear rows r col nv m p).
Proof. intros L W. apply clear_all; [split; intros; [apply scale_wf | apply reduce_wf] | exact L | exact W | exact W]. Qed.
Definition rsolves (x : nat -> Z) (r : row) : Prop := resid x r == 0.
Lemma rsolves_closed x : closed (rsolves x).
Proof.
  unfold rsolves. split.
  - intros f r W H. rewrite resid_scale by exact W. rewrite H. rewrite Z.mul_0_r. reflexivity.
  - intros f a r Wa W Ha H. rewrite resid_reduce by assumption. rewrite H, Ha. replace (0 - f * 0) with 0 by lia. reflexivity.
Qed.
Lemma clear_back x rows r col : (r < length rows)%nat -> all_rows wf rows -> 0 < get (rc (rowat rows r)) col < p -> all_rows (rsolves x) (clear rows r col nv m p) -> all_rows (rsolves x) rows.
Proof.
  intros L W Piv H. assert (rsolves x (pivrow rows r col)) as Hp'.
  { specialize (H r). rewrite clear_len, clear_at, Nat.eqb_refl in H by exact L. apply H, L. }
  unfold rsolves in *. assert (resid x (rowat rows r) == 0) as Hr.
  { pose proof (resid_scale x (inv (get (rc (rowat rows r)) col) p) (rowat rows r) (W r L)) as E. fold (pivrow rows r col) in E. rewrite Hp' in E.
    transitivity (get (rc (rowat rows r)) col * inv (get (rc (rowat rows r)) col) p * resid x (rowat rows r)); [rewrite inv_c by exact Piv; rewrite Z.mul_1_l; reflexivity |].
    rewrite <- Z.mul_assoc, <- E, Z.mul_0_r. reflexivity. }
  intros i Hi. destruct (Nat.eq_dec i r) as [-> | N]; [exact Hr |]. specialize (H i). rewrite clear_len, clear_at in H by exact Hi. specialize (H Hi). apply Nat.eqb_neq in N. rewrite N in H. destruct (Z.eqb _ 0); [exact H |].
  rewrite resid_reduce in H by (try apply scale_wf; apply W, Hi). rewrite Hp' in H. rewrite Z.mul_0_r, Z.sub_0_r in H. exact H.
Qed.

Record ech (rows : list row) (pivots : list nat) (col : nat) : Prop := {
  e_len : (length pivots <= length rows)%nat;
  e_col : forall j, (j < length pivots)%nat -> (nth j pivots 0 < col)%nat;
  e_piv : forall i j, (i < length rows)%nat -> (j < length pivots)%nat -> at_ (rowat rows i) (CV (nth j pivots 0%nat)) = if Nat.eqb i j then 1 else 0;
  e_zero : forall i v, (length pivots <= i < length rows)%nat -> (v < col)%nat -> at_ (rowat rows i) (CV v) = 0 }.
Lemma find_spec {A} (f : A -> bool) l : match find f l with Some x => In x l /\ f x = true | None => forall x, In x l -> f x = false end.
Proof. destruct (find f l) as [x |] eqn:E; [apply find_some; exact E | apply find_none; exact E]. Qed.
Lemma eqm_eq r1 r2 c : wf r1 -> wf r2 -> at_ r1 c == at_ r2 c -> at_ r1 c = at_ r2 c.
Proof. intros (_ & _ & A) (_ & _ & B). apply eqm_small; auto. Qed.

Lemma step_ech rows pivots col sel : all_rows wf rows -> ech rows pivots col -> find_pivot rows (length pivots) col = Some sel ->
  let rows' := clear (swap rows (length pivots) sel) (length pivots) col nv m p in
  length rows' = length rows /\ all_rows wf rows' /\ ech rows' (pivots ++ [col]) (S col) /\ (forall x, all_rows (rsolves x) rows' <-> all_rows (rsolves x) rows) /\
  (forall P, closed P -> all_rows P rows -> all_rows P rows').
Proof.
  intros W [El Ec Ep Ez] F. unfold find_pivot in F. pose proof (find_spec (fun i => negb (Z.eqb (get (rc (nth i rows dflt)) col) 0)) (seq (length pivots) (length rows - length pivots))) as S. rewrite F in S. destruct S as [S1 S2].
  apply in_seq in S1. apply negb_true_iff, Z.eqb_neq in S2. set (r := length pivots) in *. assert (r < length rows)%nat as Lr by lia. assert (sel < length rows)%nat as Ls by lia.
  set (sr := swap rows r sel). assert (length sr = length rows) as Lsr by apply swap_len. assert (all_rows wf sr) as Ws by (apply swap_all; assumption).
  assert (0 < get (rc (rowat sr r)) col < p) as Piv.
  { assert (rowat sr r = rowat rows sel) as ->. { unfold sr. rewrite swap_at by exact Lr. unfold sw. rewrite Nat.eqb_refl. reflexivity. } destruct (W sel Ls) as (_ & _ & R). specialize (R (CV col)). cbn [at_] in R. lia. }
  cbv zeta. split; [rewrite clear_len; exact Lsr |]. split; [apply clear_wf; [lia | exact Ws] |].
  assert (PW : wf (pivrow sr r col)) by apply scale_wf.
  assert (Psol : at_ (pivrow sr r col) (CV col) = 1).
  { apply eqm_small; [apply PW | pose proof p2; lia |]. unfold pivrow. rewrite scale_at by (apply Ws; lia). apply inv_c. exact Piv. }
  (* cells of the swapped rows in the earlier pivot columns and, below, in the earlier columns *)
  assert (Sp : forall i j, (i < length rows)%nat -> (j < r)%nat -> at_ (rowat sr i) (CV (nth j pivots 0%nat)) = if Nat.eqb i j then 1 else 0).
  { intros i j Hi Hj. unfold sr. rewrite swap_at by exact Hi. rewrite Ep by (try apply sw_lt; assumption). unfold sw. destruct (Nat.eqb_spec i r) as [-> |]; [destruct (Nat.eqb_spec sel j), (Nat.eqb_spec r j); try lia; reflexivity |].
    destruct (Nat.eqb_spec i sel) as [-> |]; [destruct (Nat.eqb_spec r j), (Nat.eqb_spec sel j); try lia; reflexivity | reflexivity]. }
  assert (Sz : forall i v, (r <= i < length rows)%nat -> (v < col)%nat -> at_ (rowat sr i) (CV v) = 0).
  { intros i v Hi Hv. unfold sr. rewrite swap_at by lia. apply Ez; [| exact Hv]. unfold sw. destruct (Nat.eqb i r), (Nat.eqb i sel); lia. }
  assert (Pz : forall v, (v < col)%nat -> at_ (pivrow sr r col) (CV v) = 0).
  { intros v Hv. apply eqm_small; [apply PW | apply zero_rng |]. unfold pivrow. rewrite scale_at by (apply Ws; lia). rewrite Sz by lia. reflexivity. }
  assert (Keep : forall i v, (i < length rows)%nat -> i <> r -> (v < col)%nat -> at_ (rowat (clear sr r col nv m p) i) (CV v) = at_ (rowat sr i) (CV v)).
  { intros i v Hi N Hv. rewrite clear_at by lia. apply Nat.eqb_neq in N. rewrite N. destruct (Z.eqb _ 0); [reflexivity |]. apply eqm_eq; [apply reduce_wf | apply Ws; lia |].
    rewrite reduce_at by (try exact PW; apply Ws; lia). rewrite Pz by exact Hv. rewrite Z.mul_0_r, Z.sub_0_r. reflexivity. }
  assert (Gone : forall i, (i < length rows)%nat -> i <> r -> at_ (rowat (clear sr r col nv m p) i) (CV col) = 0).
  { intros i Hi N. rewrite clear_at by lia. apply Nat.eqb_neq in N. rewrite N. destruct (Z.eqb_spec (get (rc (rowat sr i)) col) 0) as [E | E]; [exact E |]. apply eqm_small; [apply reduce_wf | apply zero_rng |].
    rewrite reduce_at by (try exact PW; apply Ws; lia). rewrite Psol. cbn [at_]. rewrite Z.mul_1_r, Z.sub_diag. reflexivity. }
  assert (Prow : rowat (clear sr r col nv m p) r = pivrow sr r col) by (rewrite clear_at, Nat.eqb_refl by lia; reflexivity).
  split; [| split].
  - constructor; rewrite ?clear_len, ?Lsr, ?app_length; cbn [length]; fold r.
    + lia.
    + intros j Hj. destruct (Nat.eq_dec j r) as [-> | N]; [unfold r; rewrite app_nth2, Nat.sub_diag by lia; cbn; lia |]. rewrite app_nth1 by lia. specialize (Ec j ltac:(lia)). lia.
    + intros i j Hi Hj. destruct (Nat.eq_dec j r) as [-> | N].
      * assert (nth r (pivots ++ [col]) 0%nat = col) as -> by (unfold r; rewrite app_nth2, Nat.sub_diag by lia; reflexivity). destruct (Nat.eqb_spec i r) as [-> | Ni]; [rewrite Prow; exact Psol | apply Gone; assumption].
      * rewrite app_nth1 by (fold r; lia). assert (nth j pivots 0 < col)%nat as Lc by (apply Ec; lia). destruct (Nat.eq_dec i r) as [-> | Ni].
        -- rewrite Prow, Pz by exact Lc. destruct (Nat.eqb_spec r j); [lia | reflexivity].
        -- rewrite Keep by assumption. apply Sp; lia.
    + intros i v Hi Hv. destruct (Nat.eq_dec v col) as [-> | N]; [apply Gone; lia |]. rewrite Keep by lia. apply Sz; lia.
  - intros x. split; intros H.
    + apply (swap_all _ rows r sel); [exact Lr | exact Ls |]. apply (clear_back x sr r col); [lia | exact Ws | exact Piv | exact H].
    + apply clear_all; [apply rsolves_closed | lia | exact Ws |]. apply swap_all; assumption.
  - intros P C H. apply clear_all; [exact C | lia | exact Ws |]. apply swap_all; assumption.
Qed.
Lemma eliminate_spec k : forall rows pivots col rows' pivots', all_rows wf rows -> ech rows pivots col -> eliminate (seq col k) rows pivots nv m p = (rows', pivots') ->
  length rows' = length rows /\ all_rows wf rows' /\ ech rows' pivots' (col + k) /\ (forall x, all_rows (rsolves x) rows' <-> all_rows (rsolves x) rows) /\
  (forall P, closed P -> all_rows P rows -> all_rows P rows').
Proof.
  induction k as [| k IH]; intros rows pivots col rows' pivots' W E; cbn [seq eliminate].
  - intros [= <- <-]. rewrite Nat.add_0_r. split; [reflexivity |]. split; [exact W |]. split; [exact E |]. split; [intros x; reflexivity | auto].
  - destruct (find_pivot rows (length pivots) col) as [sel |] eqn:F.
    + destruct (step_ech rows pivots col sel W E F) as (L1 & W1 & E1 & S1 & C1). intros H. destruct (IH _ _ _ _ _ W1 E1 H) as (L2 & W2 & E2 & S2 & C2).
      split; [congruence |]. split; [exact W2 |]. split; [replace (col + S k)%nat with (S col + k)%nat by lia; exact E2 |]. split; [intros x; rewrite S2; apply S1 |]. intros P C A. apply C2; [exact C |]. apply C1; assumption.
    + intros H. assert (ech rows pivots (S col)) as E1.
      { destruct E as [El Ec Ep Ez]. constructor; [exact El | intros j Hj; specialize (Ec j Hj); lia | exact Ep |]. intros i v Hi Hv. destruct (Nat.eq_dec v col) as [-> | N]; [| apply Ez; lia].
        unfold find_pivot in F. pose proof (find_none _ _ F i) as N. cbv beta in N. rewrite in_seq in N. specialize (N ltac:(lia)). apply negb_false_iff, Z.eqb_eq in N. exact N. }
      destruct (IH _ _ _ _ _ W E1 H) as (L2 & W2 & E2 & S2 & C2). split; [exact L2 |]. split; [exact W2 |]. split; [replace (col + S k)%nat with (S col + k)%nat by lia; exact E2 |]. split; assumption.
Qed.
End field.
