(* Proofs about the Boolean-function transforms *)
From Coq Require Import ZArith List Lia Bool Arith.
Import ListNotations.
From Verif Require Import BoolFnModel.

(* ---- arrays ---- *)

Lemma upd_length {A} (l : list A) i v : length (upd l i v) = length l.
Proof. revert i. induction l as [|x l IH]; intros [|i]; cbn; auto. Qed.
Lemma nth_upd {A} (dflt : A) l i v k : (i < length l)%nat ->
  nth k (upd l i v) dflt = if (k =? i)%nat then v else nth k l dflt.
Proof.
  revert i k. induction l as [|x l IH]; intros i k Hi; cbn [length] in Hi; [lia|].
  destruct i as [|i], k as [|k]; cbn [upd nth Nat.eqb]; try reflexivity. apply IH. lia.
Qed.

(* ---- one stage of butterflies, for any pair of operations ---- *)
Section stage.
  Context {A : Type} (dflt : A) (f g : A -> A -> A).
  Variable pair : nat -> list A -> nat -> list A.
  Hypothesis pair_length : forall len a j, length (pair len a j) = length a.
  Hypothesis pair_nth : forall len a j k, (0 < len)%nat -> (j + len < length a)%nat ->
    nth k (pair len a j) dflt =
      if (k =? j)%nat then f (nth j a dflt) (nth (j + len) a dflt)
      else if (k =? j + len)%nat then g (nth j a dflt) (nth (j + len) a dflt) else nth k a dflt.

  Lemma inner_length len t a i : length (fold_left (pair len) (seq i t) a) = length a.
  Proof using pair_length.
    revert a i. induction t as [|t IH]; intros a i; cbn [seq fold_left]; [reflexivity|].
    rewrite IH. apply pair_length.
  Qed.

  Lemma inner_nth len t a i k : (t <= len)%nat -> (i + len + t <= length a)%nat ->
    nth k (fold_left (pair len) (seq i t) a) dflt =
      if (i <=? k)%nat && (k <? i + t)%nat then f (nth k a dflt) (nth (k + len) a dflt)
      else if (i + len <=? k)%nat && (k <? i + len + t)%nat then g (nth (k - len) a dflt) (nth k a dflt)
      else nth k a dflt.
  Proof using pair_length pair_nth.
    induction t as [|t IH]; intros Ht Hl.
    { cbn [seq fold_left].
      destruct (Nat.leb_spec i k), (Nat.ltb_spec k (i + 0)); try lia; cbn [andb];
      destruct (Nat.leb_spec (i + len) k), (Nat.ltb_spec k (i + len + 0)); try lia; reflexivity. }
    rewrite seq_S, fold_left_app. cbn [fold_left].
    rewrite pair_nth; [|lia|rewrite inner_length; lia].
    assert (P : forall m, (m < i + t -> i <= m -> False)%nat -> (i + len <= m -> m < i + len + t -> False)%nat ->
        nth m (fold_left (pair len) (seq i t) a) dflt = nth m a dflt).
    { intros m H1 H2. induction t as [|t' IHt] in H1, H2, Ht, Hl |- *; [reflexivity|].
      rewrite seq_S, fold_left_app. cbn [fold_left]. rewrite pair_nth; [|lia|rewrite inner_length; lia].
      destruct (Nat.eqb_spec m (i + t')); [lia|]. destruct (Nat.eqb_spec m (i + t' + len)); [lia|].
      apply IHt; lia. }
    rewrite (P (i + t)%nat) by lia. rewrite (P (i + t + len)%nat) by lia.
    rewrite IH by lia.
    destruct (Nat.eqb_spec k (i + t)) as [->|N1].
    { destruct (Nat.leb_spec i (i + t)), (Nat.ltb_spec (i + t) (i + S t)); try lia; reflexivity. }
    destruct (Nat.eqb_spec k (i + t + len)) as [->|N2].
    { destruct (Nat.leb_spec i (i + t + len)), (Nat.ltb_spec (i + t + len) (i + S t)); try lia; cbn [andb];
      destruct (Nat.leb_spec (i + len) (i + t + len)), (Nat.ltb_spec (i + t + len) (i + len + S t)); try lia; cbn [andb].
      f_equal. f_equal. lia. }
    destruct (Nat.leb_spec i k), (Nat.ltb_spec k (i + t)), (Nat.ltb_spec k (i + S t)); try lia; cbn [andb]; try reflexivity;
    destruct (Nat.leb_spec (i + len) k), (Nat.ltb_spec k (i + len + t)), (Nat.ltb_spec k (i + len + S t)); try lia; cbn [andb]; reflexivity.
  Qed.

  Variable blocks : nat -> nat -> nat -> list A -> list A.
  Hypothesis blocks_0 : forall len i a, blocks 0 len i a = a.
  Hypothesis blocks_S : forall n len i a, blocks (S n) len i a =
    if (i <? length a)%nat then blocks n len (i + 2 * len) (fold_left (pair len) (seq i len) a) else a.

  Definition stage_at (len : nat) (a : list A) (k : nat) : A :=
    if (k mod (2 * len) <? len)%nat then f (nth k a dflt) (nth (k + len) a dflt)
    else g (nth (k - len) a dflt) (nth k a dflt).

  Lemma blocks_length fuel len i a : length (blocks fuel len i a) = length a.
  Proof using pair_length blocks_0 blocks_S.
    revert i a. induction fuel as [|n IH]; intros i a; [rewrite blocks_0; reflexivity|]. rewrite blocks_S.
    destruct (i <? length a)%nat; [|reflexivity]. rewrite IH. apply inner_length.
  Qed.

  Lemma blocks_nth fuel len m a M k :
    (0 < len)%nat -> length a = (2 * len * M)%nat -> (m <= M)%nat -> (M - m <= fuel)%nat -> (k < length a)%nat ->
    nth k (blocks fuel len (2 * len * m) a) dflt =
      if (2 * len * m <=? k)%nat then stage_at len a k else nth k a dflt.
  Proof using pair_length pair_nth blocks_0 blocks_S.
    intros Hlen. revert m a. induction fuel as [|n IH]; intros m a La Hm Hf Hk.
    { rewrite blocks_0. assert (m = M) as -> by lia. destruct (Nat.leb_spec (2 * len * M) k); [lia|reflexivity]. }
    rewrite blocks_S. destruct (Nat.ltb_spec (2 * len * m) (length a)) as [Hlt|Hge].
    2:{ destruct (Nat.leb_spec (2 * len * m) k); [lia|reflexivity]. }
    assert (Hm' : (m + 1 <= M)%nat) by nia.
    assert (Hb : (2 * len * (m + 1) <= 2 * len * M)%nat) by (apply Nat.mul_le_mono_l; exact Hm').
    replace (2 * len * m + 2 * len)%nat with (2 * len * (m + 1))%nat by lia.
    rewrite IH; [|rewrite inner_length; exact La|lia|lia|rewrite inner_length; exact Hk].
    destruct (Nat.leb_spec (2 * len * (m + 1)) k) as [Hb2|Hb2].
    - destruct (Nat.leb_spec (2 * len * m) k); [|lia].
      (* the next blocks do not see this one *)
      unfold stage_at. rewrite !inner_nth by lia.
      destruct (Nat.ltb_spec (k mod (2 * len)) len) as [Hmod|Hmod].
      + repeat match goal with |- context [Nat.leb ?x ?y] => destruct (Nat.leb_spec x y); try lia
                             | |- context [Nat.ltb ?x ?y] => destruct (Nat.ltb_spec x y); try lia end; reflexivity.
      + assert (2 * len * (m + 1) <= k - len)%nat.
        { pose proof (Nat.div_mod k (2 * len) ltac:(lia)) as E.
          assert (m + 1 <= k / (2 * len))%nat by (apply Nat.div_le_lower_bound; lia).
          assert (2 * len * (m + 1) <= 2 * len * (k / (2 * len)))%nat by (apply Nat.mul_le_mono_l; assumption). lia. }
        repeat match goal with |- context [Nat.leb ?x ?y] => destruct (Nat.leb_spec x y); try lia
                             | |- context [Nat.ltb ?x ?y] => destruct (Nat.ltb_spec x y); try lia end; reflexivity.
    - rewrite inner_nth by lia.
      destruct (Nat.leb_spec (2 * len * m) k) as [Hb3|Hb3].
      + assert (Emod : (k mod (2 * len) = k - 2 * len * m)%nat).
        { symmetry. apply Nat.mod_unique with m; lia. }
        unfold stage_at. rewrite Emod.
        destruct (Nat.ltb_spec (k - 2 * len * m) len);
        repeat match goal with |- context [Nat.leb ?x ?y] => destruct (Nat.leb_spec x y); try lia
                             | |- context [Nat.ltb ?x ?y] => destruct (Nat.ltb_spec x y); try lia end; reflexivity.
      + repeat match goal with |- context [Nat.leb ?x ?y] => destruct (Nat.leb_spec x y); try lia
                             | |- context [Nat.ltb ?x ?y] => destruct (Nat.ltb_spec x y); try lia end; reflexivity.
  Qed.
End stage.

(* ---- bits of an index ---- *)

Lemma testbit_div k s : Nat.testbit k s = Nat.odd (k / 2 ^ s).
Proof. rewrite Nat.testbit_odd, Nat.shiftr_div_pow2. reflexivity. Qed.

Lemma pow2_pos s : (0 < 2 ^ s)%nat.
Proof. pose proof (Nat.pow_nonzero 2 s ltac:(lia)). lia. Qed.

Lemma testbit_low k s : Nat.testbit k s = negb (k mod (2 * 2 ^ s) <? 2 ^ s)%nat.
Proof.
  pose proof (pow2_pos s) as P. rewrite testbit_div.
  rewrite (Nat.mul_comm 2). rewrite Nat.mod_mul_r by lia.
  rewrite <- Nat.bit0_odd, Nat.bit0_eqb.
  pose proof (Nat.mod_upper_bound k (2 ^ s) ltac:(lia)). pose proof (Nat.mod_upper_bound (k / 2 ^ s) 2 ltac:(lia)).
  destruct (Nat.eqb_spec ((k / 2 ^ s) mod 2) 1) as [E|E].
  - rewrite E. destruct (Nat.ltb_spec (k mod 2 ^ s + 2 ^ s * 1) (2 ^ s)); [lia|reflexivity].
  - replace ((k / 2 ^ s) mod 2)%nat with 0%nat by lia.
    destruct (Nat.ltb_spec (k mod 2 ^ s + 2 ^ s * 0) (2 ^ s)); [reflexivity|lia].
Qed.

(* an index below the bits under [s], the bit [s] and those above *)
Definition high (s w : nat) : nat := (2 ^ s * (w / 2 ^ s))%nat.

Lemma testbit_add_low s h x i : (x < 2 ^ s)%nat -> (i < s)%nat -> Nat.testbit (2 ^ s * h + x) i = Nat.testbit x i.
Proof.
  intros Hx Hi. rewrite <- (Nat.mod_pow2_bits_low (2 ^ s * h + x) s i) by exact Hi. f_equal.
  rewrite Nat.add_comm, Nat.mul_comm, Nat.mod_add by (pose proof (pow2_pos s); lia). apply Nat.mod_small. exact Hx.
Qed.
Lemma testbit_add_high s h x i : (x < 2 ^ s)%nat -> (s <= i)%nat -> Nat.testbit (2 ^ s * h + x) i = Nat.testbit h (i - s).
Proof.
  intros Hx Hi. pose proof (pow2_pos s).
  replace i with (i - s + s)%nat at 1 by lia. rewrite <- Nat.div_pow2_bits. f_equal.
  rewrite Nat.mul_comm, Nat.div_add_l by lia. rewrite Nat.div_small by exact Hx. lia.
Qed.

Lemma testbit_pow_add s x i : (x < 2 ^ s)%nat -> (i <= s)%nat ->
  Nat.testbit (2 ^ s + x) i = if (i =? s)%nat then true else Nat.testbit x i.
Proof.
  intros Hx Hi. replace (2 ^ s + x)%nat with (2 ^ s * 1 + x)%nat by lia.
  destruct (Nat.eqb_spec i s) as [->|N].
  - rewrite testbit_add_high by (auto; lia). rewrite Nat.sub_diag. reflexivity.
  - apply testbit_add_low; lia.
Qed.
Lemma testbit_plus s w i : (i < s)%nat -> Nat.testbit (w + 2 ^ s) i = Nat.testbit w i.
Proof.
  intros Hi. pose proof (pow2_pos s) as P.
  rewrite <- (Nat.mod_pow2_bits_low (w + 2 ^ s) s i) by exact Hi.
  rewrite <- (Nat.mod_pow2_bits_low w s i) by exact Hi. f_equal.
  replace (w + 2 ^ s)%nat with (w + 1 * 2 ^ s)%nat by lia. apply Nat.mod_add. lia.
Qed.
Lemma testbit_small x n : (x < 2 ^ n)%nat -> Nat.testbit x n = false.
Proof. intros Hx. rewrite testbit_div, Nat.div_small by exact Hx. reflexivity. Qed.

Lemma bits_inj n x y : (x < 2 ^ n)%nat -> (y < 2 ^ n)%nat ->
  (forall i, (i < n)%nat -> Nat.testbit x i = Nat.testbit y i) -> x = y.
Proof.
  intros Hx Hy E. apply Nat.bits_inj. intros i. destruct (Nat.lt_ge_cases i n) as [Hi|Hi]; [apply E; exact Hi|].
  assert (2 ^ n <= 2 ^ i)%nat by (apply Nat.pow_le_mono_r; lia).
  rewrite !testbit_small by lia. reflexivity.
Qed.

(* ---- the general transform: Σ_x kern(w, x) a(x) ---- *)
Section transform.
  Context {R : Type} (zero one : R) (add mul sub : R -> R -> R) (opp : R -> R).
  Hypothesis RT : ring_theory zero one add mul sub opp eq.
  Add Ring rring : RT.
  Variable K : bool -> bool -> R.

  Fixpoint sum (n : nat) (h : nat -> R) : R := match n with O => zero | S n => add (sum n h) (h n) end.
  Fixpoint kern (n w x : nat) : R :=
    match n with O => one | S n => mul (K (Nat.testbit w n) (Nat.testbit x n)) (kern n w x) end.

  Lemma sum_ext n h h' : (forall i, (i < n)%nat -> h i = h' i) -> sum n h = sum n h'.
  Proof using. induction n as [|n IH]; intros E; cbn [sum]; [reflexivity|]. rewrite IH by auto. rewrite E by lia. reflexivity. Qed.
  Lemma sum_app n m h : sum (n + m) h = add (sum n h) (sum m (fun i => h (n + i)%nat)).
  Proof using RT.
    induction m as [|m IH]; cbn [sum].
    - rewrite Nat.add_0_r. ring.
    - rewrite <- plus_n_Sm. cbn [sum]. rewrite IH. ring.
  Qed.
  Lemma sum_double n h : sum (2 ^ S n) h = add (sum (2 ^ n) h) (sum (2 ^ n) (fun i => h (2 ^ n + i)%nat)).
  Proof using RT. replace (2 ^ S n)%nat with (2 ^ n + 2 ^ n)%nat by (cbn; lia). apply sum_app. Qed.
  Lemma sum_mul n c h : mul c (sum n h) = sum n (fun i => mul c (h i)).
  Proof using RT. induction n as [|n IH]; cbn [sum]; [ring|]. rewrite <- IH. ring. Qed.
  Lemma sum_add n h h' : add (sum n h) (sum n h') = sum n (fun i => add (h i) (h' i)).
  Proof using RT. induction n as [|n IH]; cbn [sum]; [ring|]. rewrite <- IH. ring. Qed.
  Lemma sum_zero n : sum n (fun _ => zero) = zero.
  Proof using RT. induction n as [|n IH]; cbn [sum]; [ring|]. rewrite IH. ring. Qed.
  Lemma sum_swap n m h : sum n (fun i => sum m (h i)) = sum m (fun j => sum n (fun i => h i j)).
  Proof using RT.
    induction n as [|n IH]; cbn [sum]; [rewrite sum_zero; reflexivity|].
    rewrite IH, sum_add. reflexivity.
  Qed.
  Lemma sum_single n k h : (k < n)%nat -> (forall i, (i < n)%nat -> i <> k -> h i = zero) -> sum n h = h k.
  Proof using RT.
    induction n as [|n IH]; intros Hk E; [lia|]. cbn [sum].
    destruct (Nat.eq_dec k n) as [->|N].
    - rewrite (sum_ext n h (fun _ => zero)) by (intros; apply E; lia). rewrite sum_zero. ring.
    - rewrite IH by (try lia; intros; apply E; lia). rewrite (E n) by lia. ring.
  Qed.

  Lemma kern_ext n w x w' x' :
    (forall i, (i < n)%nat -> Nat.testbit w i = Nat.testbit w' i) ->
    (forall i, (i < n)%nat -> Nat.testbit x i = Nat.testbit x' i) -> kern n w x = kern n w' x'.
  Proof using.
    induction n as [|n IH]; intros E1 E2; cbn [kern]; [reflexivity|].
    rewrite (E1 n), (E2 n) by lia. rewrite IH by auto. reflexivity.
  Qed.

  Definition stage (s : nat) (a : nat -> R) (w : nat) : R :=
    if Nat.testbit w s then add (mul (K true false) (a (w - 2 ^ s)%nat)) (mul (K true true) (a w))
    else add (mul (K false false) (a w)) (mul (K false true) (a (w + 2 ^ s)%nat)).
  Fixpoint stages (n : nat) (a : nat -> R) : nat -> R :=
    match n with O => a | S n => stage n (stages n a) end.

  Lemma stages_spec n a w : stages n a w = sum (2 ^ n) (fun x => mul (kern n w x) (a (high n w + x)%nat)).
  Proof using RT.
    revert w. induction n as [|n IH]; intros w.
    { cbn [stages Nat.pow sum kern]. unfold high. rewrite Nat.div_1_r, Nat.add_0_r, Nat.mul_1_l. ring. }
    cbn [stages]. unfold stage. rewrite !IH. rewrite sum_double.
    pose proof (pow2_pos n) as P. set (p := (2 ^ n)%nat) in *.
    assert (Eh : (high (S n) w = 2 * p * (w / p / 2))%nat).
    { unfold high. change (2 ^ S n)%nat with (2 * 2 ^ n)%nat. fold p. rewrite (Nat.mul_comm 2 p), Nat.div_div by lia. reflexivity. }
    pose proof (Nat.div_mod w p ltac:(lia)) as Ew. pose proof (Nat.mod_upper_bound w p ltac:(lia)) as Er.
    pose proof (Nat.div_mod (w / p) 2 ltac:(lia)) as Eo.
    rewrite testbit_div. fold p.
    assert (KL : forall x, (x < p)%nat -> kern (S n) w x = mul (K (Nat.testbit w n) false) (kern n w x)).
    { intros x Hx. cbn [kern]. rewrite (testbit_small x n) by exact Hx. reflexivity. }
    assert (KH : forall x, (x < p)%nat -> kern (S n) w (p + x) = mul (K (Nat.testbit w n) true) (kern n w x)).
    { intros x Hx. cbn [kern]. unfold p in *. rewrite testbit_pow_add by lia. rewrite Nat.eqb_refl. f_equal.
      apply kern_ext; [reflexivity|]. intros i Hi. rewrite testbit_pow_add by lia.
      destruct (Nat.eqb_spec i n); [lia|reflexivity]. }
    assert (Ebit : Nat.testbit w n = Nat.odd (w / p)) by (unfold p; apply testbit_div).
    rewrite Ebit in KL, KH.
    rewrite !sum_mul.
    destruct (Nat.odd (w / p)) eqn:Eodd.
    - assert (E1 : (w / p = 2 * (w / p / 2) + 1)%nat).
      { apply Nat.odd_spec in Eodd as [m Em]. rewrite Em. replace (2 * m + 1)%nat with (1 + m * 2)%nat by lia.
        rewrite Nat.div_add by lia. change (1 / 2)%nat with 0%nat. lia. }
      assert (E2 : ((w - p) / p = 2 * (w / p / 2))%nat).
      { symmetry. apply Nat.div_unique with (w mod p)%nat; [lia|]. nia. }
      f_equal; apply sum_ext; intros x Hx.
      + rewrite KL by exact Hx. rewrite (kern_ext n (w - p) x w x).
        * unfold high at 1. fold p. rewrite E2, Eh. replace (p * (2 * (w / p / 2)))%nat with (2 * p * (w / p / 2))%nat by lia. ring.
        * intros i Hi. rewrite <- (testbit_plus n (w - p) i Hi). f_equal. fold p. nia.
        * reflexivity.
      + rewrite KH by exact Hx. unfold high at 1. fold p. rewrite Eh.
        replace (p * (w / p) + x)%nat with (2 * p * (w / p / 2) + (p + x))%nat by lia. ring.
    - assert (E1 : (w / p = 2 * (w / p / 2))%nat).
      { assert (Ev : Nat.even (w / p) = true) by (rewrite <- Nat.negb_odd, Eodd; reflexivity).
        apply Nat.even_spec in Ev as [m Em]. rewrite Em. rewrite (Nat.mul_comm 2 m), Nat.div_mul by lia. lia. }
      assert (E2 : ((w + p) / p = 2 * (w / p / 2) + 1)%nat).
      { symmetry. apply Nat.div_unique with (w mod p)%nat; [lia|]. nia. }
      f_equal; apply sum_ext; intros x Hx.
      + rewrite KL by exact Hx. unfold high at 1. fold p. rewrite Eh.
        replace (p * (w / p) + x)%nat with (2 * p * (w / p / 2) + x)%nat by lia. ring.
      + rewrite KH by exact Hx. rewrite (kern_ext n (w + p) x w x).
        * unfold high at 1. fold p. rewrite E2, Eh.
          replace (p * (2 * (w / p / 2) + 1) + x)%nat with (2 * p * (w / p / 2) + (p + x))%nat by lia. ring.
        * intros i Hi. apply testbit_plus. exact Hi.
        * reflexivity.
  Qed.

  (* sums of products of kernels factor over the bits *)
  Lemma kern_low n w x : (w < 2 ^ n)%nat -> kern (S n) w x = mul (K false (Nat.testbit x n)) (kern n w x).
  Proof using. intros Hw. cbn [kern]. rewrite (testbit_small w n Hw). reflexivity. Qed.
  Lemma kern_high n w x : (w < 2 ^ n)%nat -> kern (S n) (2 ^ n + w) x = mul (K true (Nat.testbit x n)) (kern n w x).
  Proof using.
    intros Hw. cbn [kern]. rewrite testbit_pow_add by lia. rewrite Nat.eqb_refl. f_equal.
    apply kern_ext; [|reflexivity]. intros i Hi. rewrite testbit_pow_add by lia.
    destruct (Nat.eqb_spec i n); [lia|reflexivity].
  Qed.

  Lemma kern_low_r n w x : (x < 2 ^ n)%nat -> kern (S n) w x = mul (K (Nat.testbit w n) false) (kern n w x).
  Proof using. intros Hx. cbn [kern]. rewrite (testbit_small x n Hx). reflexivity. Qed.
  Lemma kern_high_r n w x : (x < 2 ^ n)%nat -> kern (S n) w (2 ^ n + x) = mul (K (Nat.testbit w n) true) (kern n w x).
  Proof using.
    intros Hx. cbn [kern]. rewrite testbit_pow_add by lia. rewrite Nat.eqb_refl. f_equal.
    apply kern_ext; [reflexivity|]. intros i Hi. rewrite testbit_pow_add by lia.
    destruct (Nat.eqb_spec i n); [lia|reflexivity].
  Qed.

  Fixpoint eqlow (n x y : nat) : bool :=
    match n with O => true | S n => Bool.eqb (Nat.testbit x n) (Nat.testbit y n) && eqlow n x y end.
  Fixpoint power (c : R) (n : nat) : R := match n with O => one | S n => mul c (power c n) end.

  Lemma eqlow_eq n x y : (x < 2 ^ n)%nat -> (y < 2 ^ n)%nat -> eqlow n x y = (x =? y)%nat.
  Proof using.
    intros Hx Hy. destruct (Nat.eqb_spec x y) as [->|N].
    - clear. induction n as [|n IH]; cbn [eqlow]; [reflexivity|]. rewrite IH, Bool.eqb_reflx. reflexivity.
    - apply not_true_is_false. intros E. apply N. apply (bits_inj n); [exact Hx|exact Hy|].
      clear - E. induction n as [|n IH]; intros i Hi; [lia|]. cbn [eqlow] in E. apply andb_true_iff in E as [E1 E2].
      destruct (Nat.eq_dec i n) as [->|]; [apply Bool.eqb_prop; exact E1|]. apply IH; [exact E2|lia].
  Qed.

  (* the matrix of one bit squares to a multiple of the identity *)
  Variable kappa : R.
  Hypothesis K_square : forall b c, add (mul (K b false) (K false c)) (mul (K b true) (K true c)) = if Bool.eqb b c then kappa else zero.

  Lemma kern_square n x y :
    sum (2 ^ n) (fun w => mul (kern n x w) (kern n w y)) = if eqlow n x y then power kappa n else zero.
  Proof using RT K_square.
    induction n as [|n IH].
    { cbn [Nat.pow sum kern eqlow power]. ring. }
    rewrite sum_double. cbn [eqlow power].
    rewrite (sum_ext _ _ (fun w => mul (mul (K (Nat.testbit x n) false) (K false (Nat.testbit y n))) (mul (kern n x w) (kern n w y)))).
    2:{ intros w Hw. rewrite (kern_low n w y), (kern_low_r n x w) by exact Hw. ring. }
    rewrite (sum_ext _ (fun i => mul (kern (S n) x (2 ^ n + i)) (kern (S n) (2 ^ n + i) y))
      (fun w => mul (mul (K (Nat.testbit x n) true) (K true (Nat.testbit y n))) (mul (kern n x w) (kern n w y)))).
    2:{ intros w Hw. rewrite (kern_high n w y), (kern_high_r n x w) by exact Hw. ring. }
    rewrite <- !sum_mul, IH.
    pose proof (K_square (Nat.testbit x n) (Nat.testbit y n)) as KS.
    destruct (Bool.eqb (Nat.testbit x n) (Nat.testbit y n)), (eqlow n x y); cbn [andb]; try ring;
      rewrite <- KS; try ring.
    transitivity (mul (add (mul (K (Nat.testbit x n) false) (K false (Nat.testbit y n))) (mul (K (Nat.testbit x n) true) (K true (Nat.testbit y n)))) (power kappa n)); [ring|].
    rewrite KS. ring.
  Qed.

  Lemma transform_inverse n a w : (w < 2 ^ n)%nat ->
    sum (2 ^ n) (fun x => mul (kern n w x) (sum (2 ^ n) (fun y => mul (kern n x y) (a y)))) = mul (power kappa n) (a w).
  Proof using RT K_square.
    intros Hw.
    rewrite (sum_ext _ _ (fun x => sum (2 ^ n) (fun y => mul (mul (kern n w x) (kern n x y)) (a y)))).
    2:{ intros x _. rewrite sum_mul. apply sum_ext. intros y _. ring. }
    rewrite sum_swap.
    rewrite (sum_ext _ _ (fun y => mul (if eqlow n w y then power kappa n else zero) (a y))).
    2:{ intros y _. rewrite <- kern_square. rewrite (sum_ext _ _ (fun i => mul (a y) (mul (kern n w i) (kern n i y)))) by (intros; ring).
        rewrite <- sum_mul. ring. }
    rewrite (sum_single _ w); [|exact Hw|].
    - rewrite eqlow_eq by exact Hw. rewrite Nat.eqb_refl. reflexivity.
    - intros y Hy N. rewrite eqlow_eq by assumption. destruct (Nat.eqb_spec w y); [congruence|ring].
  Qed.
End transform.

(* ---- lists against functions ---- *)

Lemma stage_neighbour N s k : (s < N)%nat -> (k < 2 ^ N)%nat -> Nat.testbit k s = false -> (k + 2 ^ s < 2 ^ N)%nat.
Proof.
  intros Hs Hk Hb. rewrite testbit_low in Hb. apply negb_false_iff, Nat.ltb_lt in Hb.
  set (p := (2 ^ s)%nat) in *. assert (Hp : (0 < p)%nat) by apply pow2_pos.
  assert (E : (2 ^ N = 2 * p * 2 ^ (N - s - 1))%nat).
  { unfold p. rewrite <- Nat.pow_succ_r', <- Nat.pow_add_r. f_equal. lia. }
  rewrite E in *. set (M := (2 ^ (N - s - 1))%nat) in *.
  pose proof (Nat.div_mod k (2 * p) ltac:(lia)) as Ek.
  assert (Hq : (k / (2 * p) < M)%nat) by (apply Nat.div_lt_upper_bound; lia).
  assert (2 * p * (k / (2 * p) + 1) <= 2 * p * M)%nat by (apply Nat.mul_le_mono_l; lia). lia.
Qed.

Lemma length_blocks N s : (s < N)%nat -> (2 ^ N = 2 * 2 ^ s * 2 ^ (N - s - 1))%nat.
Proof. intros Hs. rewrite <- Nat.pow_succ_r', <- Nat.pow_add_r. f_equal. lia. Qed.

Lemma pow2_gt n : (n < 2 ^ n)%nat.
Proof. apply Nat.pow_gt_lin_r. lia. Qed.

(* the Walsh-Hadamard transform *)
Definition KZ (b c : bool) : Z := if b && c then -1 else 1.
Notation Zsum := (sum 0%Z Z.add).
Notation Zkern := (kern 1%Z Z.mul KZ).
Notation Zstages := (stages Z.add Z.mul KZ).
Definition ZT : ring_theory 0 1 Z.add Z.mul Z.sub Z.opp eq := InitialRing.Zth.

Lemma wh_pair_length len a j : length (wh_pair len a j) = length a.
Proof. unfold wh_pair. rewrite !upd_length. reflexivity. Qed.
Lemma wh_pair_nth len a j k : (0 < len)%nat -> (j + len < length a)%nat ->
  nth k (wh_pair len a j) 0 =
    if (k =? j)%nat then nth j a 0 + nth (j + len) a 0
    else if (k =? j + len)%nat then nth j a 0 - nth (j + len) a 0 else nth k a 0.
Proof.
  intros H1 H2. unfold wh_pair. rewrite nth_upd by (rewrite upd_length; lia). rewrite nth_upd by lia.
  destruct (Nat.eqb_spec k j), (Nat.eqb_spec k (j + len)); try lia; reflexivity.
Qed.

Lemma wh_stage N s a k : (s < N)%nat -> length a = (2 ^ N)%nat -> (k < 2 ^ N)%nat ->
  nth k (wh_blocks (length a) (2 ^ s) 0 a) 0 = stage Z.add Z.mul KZ s (fun i => nth i a 0) k.
Proof.
  intros Hs La Hk.
  pose proof (blocks_nth 0 Z.add Z.sub wh_pair wh_pair_length wh_pair_nth wh_blocks ltac:(reflexivity) ltac:(reflexivity)
    (length a) (2 ^ s) 0 a (2 ^ (N - s - 1)) k (pow2_pos s)) as E.
  rewrite Nat.mul_0_r in E. rewrite E; [|rewrite La; apply length_blocks; exact Hs|lia| |lia].
  - cbn [Nat.leb]. unfold stage_at, stage. rewrite testbit_low.
    destruct (k mod (2 * 2 ^ s) <? 2 ^ s)%nat; cbn [negb]; unfold KZ; cbn [andb]; ring.
  - rewrite La. rewrite (length_blocks N s Hs). pose proof (pow2_pos s). nia.
Qed.

Lemma wh_loop_spec N a0 fuel : forall s a, (s <= N)%nat -> (N - s <= fuel)%nat -> length a = (2 ^ N)%nat ->
  (forall k, (k < 2 ^ N)%nat -> nth k a 0 = Zstages s a0 k) ->
  length (wh_loop fuel (2 ^ s) a) = (2 ^ N)%nat
  /\ forall k, (k < 2 ^ N)%nat -> nth k (wh_loop fuel (2 ^ s) a) 0 = Zstages N a0 k.
Proof.
  induction fuel as [|f IH]; intros s a Hs Hf La E; cbn [wh_loop].
  { assert (s = N) as -> by lia. auto. }
  destruct (Nat.ltb_spec (2 ^ s) (length a)) as [Hlt|Hge].
  - rewrite La in Hlt. assert (Hs2 : (s < N)%nat) by (apply (Nat.pow_lt_mono_r_iff 2); lia).
    replace (2 * 2 ^ s)%nat with (2 ^ S s)%nat by reflexivity. apply IH; [lia|lia| |].
    + rewrite (blocks_length wh_pair wh_pair_length wh_blocks ltac:(reflexivity) ltac:(reflexivity)). exact La.
    + intros k Hk. rewrite (wh_stage N s) by assumption. cbn [stages]. unfold stage.
      destruct (Nat.testbit k s) eqn:Eb.
      * rewrite !E by lia. reflexivity.
      * rewrite !E by (try apply stage_neighbour; assumption). reflexivity.
  - rewrite La in Hge. assert (s = N) as ->.
    { destruct (Nat.eq_dec s N); [assumption|]. assert (2 ^ s < 2 ^ N)%nat by (apply Nat.pow_lt_mono_r; lia). lia. }
    auto.
Qed.

Lemma fwh_spec N a : length a = (2 ^ N)%nat ->
  length (fast_walsh_hadamard a) = (2 ^ N)%nat
  /\ forall w, (w < 2 ^ N)%nat -> nth w (fast_walsh_hadamard a) 0 = Zsum (2 ^ N) (fun x => Zkern N w x * nth x a 0).
Proof.
  intros La. unfold fast_walsh_hadamard.
  destruct (wh_loop_spec N (fun k => nth k a 0) (length a) 0 a) as [L E]; [lia|rewrite La; pose proof (pow2_gt N); lia|exact La|reflexivity|].
  change (2 ^ 0)%nat with 1%nat in *. split; [exact L|]. intros w Hw. rewrite E by exact Hw.
  rewrite (stages_spec _ _ _ _ _ _ ZT). apply sum_ext. intros x Hx. do 2 f_equal.
  unfold high. rewrite Nat.div_small by exact Hw. lia.
Qed.

(* the Möbius transform *)
Definition KB (b c : bool) : bool := b || negb c.
Notation Bsum := (sum false xorb).
Notation Bkern := (kern true andb KB).
Notation Bstages := (stages xorb andb KB).
Lemma BT : ring_theory false true xorb andb xorb (fun b => b) eq.
Proof. constructor; intros; repeat match goal with b : bool |- _ => destruct b end; reflexivity. Qed.

Lemma anf_pair_length len a j : length (anf_pair len a j) = length a.
Proof. unfold anf_pair. rewrite !upd_length. reflexivity. Qed.
Lemma anf_pair_nth len a j k : (0 < len)%nat -> (j + len < length a)%nat ->
  nth k (anf_pair len a j) false =
    if (k =? j)%nat then nth j a false
    else if (k =? j + len)%nat then xorb (nth j a false) (nth (j + len) a false) else nth k a false.
Proof.
  intros H1 H2. unfold anf_pair. rewrite nth_upd by lia.
  destruct (Nat.eqb_spec k j), (Nat.eqb_spec k (j + len)); try lia; subst; try reflexivity. apply xorb_comm.
Qed.

Lemma anf_stage N s a k : (s < N)%nat -> length a = (2 ^ N)%nat -> (k < 2 ^ N)%nat ->
  nth k (anf_blocks (length a) (2 ^ s) 0 a) false = stage xorb andb KB s (fun i => nth i a false) k.
Proof.
  intros Hs La Hk.
  pose proof (blocks_nth false (fun x _ => x) xorb anf_pair anf_pair_length anf_pair_nth anf_blocks ltac:(reflexivity) ltac:(reflexivity)
    (length a) (2 ^ s) 0 a (2 ^ (N - s - 1)) k (pow2_pos s)) as E.
  rewrite Nat.mul_0_r in E. rewrite E; [|rewrite La; apply length_blocks; exact Hs|lia| |lia].
  - cbn [Nat.leb]. unfold stage_at, stage. rewrite testbit_low.
    destruct (k mod (2 * 2 ^ s) <? 2 ^ s)%nat; cbn [negb]; unfold KB; cbn [andb orb negb]; [|reflexivity].
    destruct (nth k a false), (nth (k + 2 ^ s) a false); reflexivity.
  - rewrite La. rewrite (length_blocks N s Hs). pose proof (pow2_pos s). nia.
Qed.

Lemma anf_fold_spec N a0 m : forall a, (m <= N)%nat -> length a = (2 ^ N)%nat -> 
  (forall k, (k < 2 ^ N)%nat -> nth k a false = a0 k) ->
  let r := fold_left (fun a i => anf_blocks (length a) (2 ^ i) 0 a) (seq 0 m) a in
  length r = (2 ^ N)%nat /\ forall k, (k < 2 ^ N)%nat -> nth k r false = Bstages m a0 k.
Proof.
  induction m as [|m IH]; intros a Hm La E r; subst r; [auto|].
  rewrite seq_S, fold_left_app. cbn [fold_left Nat.add].
  destruct (IH a ltac:(lia) La E) as [L E2]. set (b := fold_left _ (seq 0 m) a) in *.
  split; [rewrite (blocks_length anf_pair anf_pair_length anf_blocks ltac:(reflexivity) ltac:(reflexivity)); exact L|].
  intros k Hk. rewrite (anf_stage N m) by (try assumption; lia). cbn [stages]. unfold stage.
  destruct (Nat.testbit k m) eqn:Eb.
  - rewrite !E2 by lia. reflexivity.
  - rewrite !E2 by (try (apply stage_neighbour; [lia|assumption|assumption]); assumption). reflexivity.
Qed.

Lemma power_of_two n : is_power_of_two n = true -> n = (2 ^ trailing_zeros n)%nat.
Proof. unfold is_power_of_two. intros E. apply andb_true_iff in E as [_ E]. apply Nat.eqb_eq in E. symmetry. exact E. Qed.
Lemma is_power_of_two_pow n : is_power_of_two (2 ^ n) = true /\ trailing_zeros (2 ^ n) = n.
Proof.
  unfold is_power_of_two, trailing_zeros. rewrite Nat.log2_pow2 by lia. pose proof (pow2_pos n). rewrite Nat.eqb_refl.
  destruct (Nat.eqb_spec (2 ^ n) 0); [lia|]. auto.
Qed.
Lemma table_size {A} (l : list A) :
  (length l =? 0)%nat || negb (is_power_of_two (length l)) = true <-> ~ exists n, length l = (2 ^ n)%nat.
Proof.
  split.
  - intros E [n En]. rewrite En in E. destruct (is_power_of_two_pow n) as [EP _]. rewrite EP in E. pose proof (pow2_pos n).
    destruct (Nat.eqb_spec (2 ^ n) 0); [lia|discriminate].
  - intros E. destruct (is_power_of_two (length l)) eqn:EP; [|apply orb_true_r].
    exfalso. apply E. exists (trailing_zeros (length l)). apply power_of_two. exact EP.
Qed.

Lemma anf_spec N truth : length truth = (2 ^ N)%nat ->
  exists a, anf truth = Some a /\ length a = (2 ^ N)%nat
  /\ forall w, (w < 2 ^ N)%nat -> nth w a false = Bsum (2 ^ N) (fun x => Bkern N w x && nth x truth false).
Proof.
  intros La. unfold anf. rewrite La. destruct (is_power_of_two_pow N) as [-> ->]. pose proof (pow2_pos N).
  destruct (Nat.eqb_spec (2 ^ N) 0); [lia|]. cbn [orb negb].
  destruct (anf_fold_spec N (fun k => nth k truth false) N truth (le_n _) La ltac:(reflexivity)) as [L E].
  eexists. split; [reflexivity|]. split; [exact L|]. intros w Hw. rewrite E by exact Hw.
  rewrite (stages_spec _ _ _ _ _ _ BT). apply sum_ext. intros x Hx. do 2 f_equal.
  unfold high. rewrite Nat.div_small by exact Hw. lia.
Qed.
