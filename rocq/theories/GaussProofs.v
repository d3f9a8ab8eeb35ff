(** The elimination loop over any rows that add like bit vectors. *)
From Coq Require Import List Arith NArith Bool Lia.
From stdpp Require Import list.
From Verif Require Import GaussModel.
Local Open Scope list_scope.

(** Parity of [f] over the first [n] columns. *)
Fixpoint psum (n : nat) (f : nat -> bool) : bool := match n with 0 => false | S n => xorb (psum n f) (f n) end.
Lemma psum_ext n f g : (forall i, (i < n)%nat -> f i = g i) -> psum n f = psum n g.
Proof. induction n as [| n IH]; intros H; [reflexivity |]. cbn. rewrite IH, H by (intros; auto; lia). reflexivity. Qed.
Lemma psum_false n f : (forall i, (i < n)%nat -> f i = false) -> psum n f = false.
Proof. induction n as [| n IH]; intros H; [reflexivity |]. cbn. rewrite IH, H by (intros; auto; lia). reflexivity. Qed.
Lemma psum_xor n f g : psum n (fun i => xorb (f i) (g i)) = xorb (psum n f) (psum n g).
Proof. induction n as [| n IH]; [reflexivity |]. cbn. rewrite IH. destruct (psum n f), (psum n g), (f n), (g n); reflexivity. Qed.
Lemma psum_and n f b : psum n (fun i => f i && b) = psum n f && b.
Proof. induction n as [| n IH]; [reflexivity |]. cbn. rewrite IH. destruct (psum n f), (f n), b; reflexivity. Qed.
Lemma psum_single n f c : (c < n)%nat -> (forall i, (i < n)%nat -> i <> c -> f i = false) -> psum n f = f c.
Proof.
  induction n as [| n IH]; intros Hc H; [lia |]. cbn. destruct (Nat.eq_dec c n) as [-> | Hn].
  - rewrite psum_false by (intros; apply H; lia). destruct (f n); reflexivity.
  - rewrite IH by (try lia; intros; apply H; lia). rewrite (H n) by lia. apply xorb_false_r.
Qed.
Lemma psum_swap n m f : psum n (fun i => psum m (fun j => f i j)) = psum m (fun j => psum n (fun i => f i j)).
Proof.
  induction n as [| n IH]; cbn; [symmetry; apply psum_false; reflexivity |]. rewrite IH, <- psum_xor. reflexivity.
Qed.
(** The product of a row with an assignment. *)
Definition dot (n : nat) (r x : nat -> bool) : bool := psum n (fun i => r i && x i).
Lemma dot_xor n r s x : dot n (fun i => xorb (r i) (s i)) x = xorb (dot n r x) (dot n s x).
Proof. unfold dot. rewrite <- psum_xor. apply psum_ext. intros i _. destruct (r i), (s i), (x i); reflexivity. Qed.
Lemma dot_xor_r n r x y : dot n r (fun i => xorb (x i) (y i)) = xorb (dot n r x) (dot n r y).
Proof. unfold dot. rewrite <- psum_xor. apply psum_ext. intros i _. destruct (r i), (x i), (y i); reflexivity. Qed.
Lemma dot_ext n r s x y : (forall i, (i < n)%nat -> r i = s i) -> (forall i, (i < n)%nat -> x i = y i) -> dot n r x = dot n s y.
Proof. intros A B. apply psum_ext. intros i Hi. rewrite A, B by exact Hi. reflexivity. Qed.

Section Elim.
  Context {R : Type} (bit : R -> nat -> bool) (rxor : R -> R -> R).
  Hypothesis bit_xor : forall a b c, bit (rxor a b) c = xorb (bit a c) (bit b c).

  Definition additive (phi : R -> bool) : Prop := forall a b, phi (rxor a b) = xorb (phi a) (phi b).
  Record inv (rows0 : list R) (c : nat) (rows : list R) (pivots : list nat) : Prop := Inv {
    v_len : length rows = length rows0;
    v_rank : (length pivots <= length rows)%nat;
    v_piv : forall p, p ∈ pivots -> (p < c)%nat;
    v_nodup : NoDup pivots;
    v_unit : forall r p i row, pivots !! r = Some p -> rows !! i = Some row -> bit row p = Nat.eqb i r;
    v_zero : forall i row c', (length pivots <= i)%nat -> rows !! i = Some row -> (c' < c)%nat -> bit row c' = false;
    v_phi : forall phi, additive phi -> (forall r, r ∈ rows0 -> phi r = false) <-> (forall r, r ∈ rows -> phi r = false);
    v_all : forall P : R -> Prop, (forall a b, P a -> P b -> P (rxor a b)) -> (forall r, r ∈ rows0 -> P r) -> forall r, r ∈ rows -> P r }.

  Lemma swap_lookup (rows : list R) i j k : (i < length rows)%nat -> (j < length rows)%nat ->
    swap rows i j !! k = if Nat.eqb k i then rows !! j else if Nat.eqb k j then rows !! i else rows !! k.
  Proof.
    intros Hi Hj. unfold swap. destruct (lookup_lt_is_Some_2 rows i Hi) as [a Ea], (lookup_lt_is_Some_2 rows j Hj) as [b Eb]. rewrite Ea, Eb.
    destruct (Nat.eqb_spec k i) as [-> | N1].
    - rewrite list_lookup_insert by (rewrite insert_length; exact Hi). reflexivity.
    - rewrite list_lookup_insert_ne by auto. destruct (Nat.eqb_spec k j) as [-> | N2]; [rewrite list_lookup_insert by exact Hj; reflexivity | rewrite list_lookup_insert_ne by auto; reflexivity].
  Qed.
  Lemma swap_length (rows : list R) i j : length (swap rows i j) = length rows.
  Proof. unfold swap. destruct (rows !! i), (rows !! j); rewrite ?insert_length; reflexivity. Qed.
  Lemma swap_elem (rows : list R) i j r : (i < length rows)%nat -> (j < length rows)%nat -> r ∈ swap rows i j <-> r ∈ rows.
  Proof.
    intros Hi Hj. rewrite !elem_of_list_lookup. split; intros [k Hk].
    - rewrite swap_lookup in Hk by assumption. destruct (Nat.eqb k i), (Nat.eqb k j); eauto.
    - exists (if Nat.eqb k i then j else if Nat.eqb k j then i else k). rewrite swap_lookup by assumption.
      destruct (Nat.eqb_spec k i) as [-> | N1].
      + destruct (Nat.eqb_spec j i) as [-> | N]; [exact Hk |]. rewrite Nat.eqb_refl. exact Hk.
      + destruct (Nat.eqb_spec k j) as [-> | N2]; [rewrite Nat.eqb_refl; exact Hk |]. rewrite (proj2 (Nat.eqb_neq k i) N1), (proj2 (Nat.eqb_neq k j) N2). exact Hk.
  Qed.
  Lemma clear_lookup rows rank c pivot k : rows !! rank = Some pivot ->
    clear_col bit rxor rows rank c !! k = (fun row => if negb (Nat.eqb k rank) && bit row c then rxor row pivot else row) <$> rows !! k.
  Proof. intros H. unfold clear_col. rewrite H. apply list_lookup_imap. Qed.
  Lemma find_pivot_some (rows : list R) rank c p : find_pivot bit rows rank c = Some p -> (rank <= p < length rows)%nat /\ exists r, rows !! p = Some r /\ bit r c = true.
  Proof.
    intros H. apply find_some in H as [A B]. apply in_seq in A. destruct (rows !! p) as [r |] eqn:E; [| discriminate]. split; [lia | eauto].
  Qed.
  Lemma find_pivot_none (rows : list R) rank c : find_pivot bit rows rank c = None -> forall i r, (rank <= i)%nat -> rows !! i = Some r -> bit r c = false.
  Proof.
    intros H i r Hi Hr. pose proof (find_none _ _ H i) as N. cbn in N. rewrite Hr in N. apply N. apply in_seq. apply lookup_lt_Some in Hr. lia.
  Qed.
  Lemma inv_step rows0 c rows pivots : inv rows0 c rows pivots -> let st := elim_col bit rxor (rows, pivots) c in inv rows0 (S c) st.1 st.2.
  Proof.
    intros [Len Rk Pv Nd Un Ze Ph Al]. cbn. destruct (find_pivot bit rows (length pivots) c) as [p |] eqn:F; cbn.
    - apply find_pivot_some in F as [Hp (pr & Epr & Bpr)]. set (rank := length pivots) in *.
      assert (rank < length rows)%nat as Hr by lia.
      assert (swap rows rank p !! rank = Some pr) as Esr by (rewrite swap_lookup, Nat.eqb_refl by lia; exact Epr).
      set (rows' := clear_col bit rxor (swap rows rank p) rank c).
      assert (forall k row, rows' !! k = Some row -> exists j old, rows !! j = Some old /\ swap rows rank p !! k = Some old /\
        (k = rank /\ old = pr /\ row = pr \/ k <> rank /\ j <> p /\ (j = k \/ j = rank) /\ (k < rank -> j = k)%nat /\ (rank <= k -> rank <= j)%nat /\ row = if bit old c then rxor old pr else old)) as Rows.
      { intros k row H. unfold rows' in H. rewrite (clear_lookup _ rank c pr k Esr) in H. destruct (swap rows rank p !! k) as [old |] eqn:E; [| discriminate]. cbn in H.
        pose proof E as E'. rewrite swap_lookup in E' by lia. destruct (Nat.eqb_spec k rank) as [-> | Nk].
        - cbn in H. injection H as <-. exists p, old. rewrite Epr in E'. injection E' as <-. split; [exact Epr |]. split; [reflexivity |]. left. auto.
        - cbn in H. assert (row = if bit old c then rxor old pr else old) as Er by (destruct (bit old c); injection H as <-; reflexivity). destruct (Nat.eqb_spec k p) as [-> | Nkp].
          + exists rank, old. split; [exact E' |]. split; [reflexivity |]. right. split; [exact Nk |]. repeat split; auto; lia.
          + exists k, old. split; [exact E' |]. split; [reflexivity |]. right. split; [exact Nk |]. repeat split; auto; lia. }
      assert (forall r p0, pivots !! r = Some p0 -> bit pr p0 = false) as Pz.
      { intros r p0 H. rewrite (Un r p0 p pr H Epr). apply Nat.eqb_neq. apply lookup_lt_Some in H. fold rank in H. lia. }
      assert (length rows' = length rows) as Len' by (unfold rows', clear_col; rewrite Esr, imap_length, swap_length; reflexivity).
      split.
      + rewrite Len'. exact Len.
      + rewrite app_length, Len'. cbn. fold rank. lia.
      + intros q Hq. apply elem_of_app in Hq as [Hq | Hq]; [specialize (Pv q Hq); lia | apply elem_of_list_singleton in Hq; lia].
      + apply NoDup_app. split; [exact Nd | split; [| apply NoDup_singleton]]. intros q Hq H. apply elem_of_list_singleton in H. subst q. specialize (Pv c Hq). lia.
      + intros r q i row Hq Hi. destruct (Rows i row Hi) as (j & old & Ej & Es & Cases).
        apply lookup_app_Some in Hq as [Hq | [Lr Hq]].
        * pose proof (lookup_lt_Some _ _ _ Hq) as Lr. fold rank in Lr. destruct Cases as [(-> & -> & ->) | (Nk & Njp & Hj & Hjk & Hjr & ->)].
          -- rewrite (Pz r q Hq). symmetry. apply Nat.eqb_neq. lia.
          -- assert (bit old q = Nat.eqb i r) as B.
             { rewrite (Un r q j old Hq Ej). destruct (Nat.eqb_spec j r), (Nat.eqb_spec i r); auto; lia. }
             destruct (bit old c); [rewrite bit_xor, (Pz r q Hq), xorb_false_r |]; exact B.
        * fold rank in Lr, Hq. assert (r = rank /\ q = c) as [-> ->].
          { destruct (r - rank)%nat eqn:E; [| destruct n; discriminate]. cbn in Hq. injection Hq as <-. split; [lia | reflexivity]. }
          destruct Cases as [(-> & -> & ->) | (Nk & _ & _ & _ & _ & ->)]; [rewrite Nat.eqb_refl; exact Bpr |].
          rewrite (proj2 (Nat.eqb_neq i rank) Nk). destruct (bit old c) eqn:B; [rewrite bit_xor, B, Bpr; reflexivity | exact B].
      + intros i row c' Hi Hr' Hc. rewrite app_length in Hi. cbn in Hi. fold rank in Hi. destruct (Rows i row Hr') as (j & old & Ej & Es & Cases).
        destruct Cases as [(-> & _ & _) | (Nk & Njp & Hj & Hjk & Hjr & ->)]; [lia |].
        destruct (Nat.eq_dec c' c) as [-> | Nc].
        * destruct (bit old c) eqn:B; [rewrite bit_xor, B, Bpr; reflexivity | exact B].
        * assert (bit old c' = false) as B1 by (apply (Ze j old c'); [fold rank; lia | exact Ej | lia]).
          assert (bit pr c' = false) as B2 by (apply (Ze p pr c'); [fold rank; lia | exact Epr | lia]).
          destruct (bit old c); [rewrite bit_xor, B1, B2; reflexivity | exact B1].
      + intros phi Add. rewrite (Ph phi Add). assert (pr ∈ rows) as Mp by (eapply elem_of_list_lookup_2; exact Epr). split; intros H r Hr0.
        * apply elem_of_list_lookup in Hr0 as [k Hk]. destruct (Rows k r Hk) as (j & old & Ej & _ & Cases). apply elem_of_list_lookup_2 in Ej.
          destruct Cases as [(_ & _ & ->) | (_ & _ & _ & _ & _ & ->)]; [apply H; exact Mp |]. destruct (bit old c); [rewrite Add, (H old Ej), (H pr Mp); reflexivity | apply H; exact Ej].
        * assert (phi pr = false) as Z.
          { apply H. apply (elem_of_list_lookup_2 _ rank). unfold rows'. rewrite (clear_lookup _ rank c pr rank Esr), Esr, Nat.eqb_refl. reflexivity. }
          apply (swap_elem rows rank p r Hr) in Hr0; [| lia]. apply elem_of_list_lookup in Hr0 as [k Hk].
          assert (rows' !! k = Some (if negb (Nat.eqb k rank) && bit r c then rxor r pr else r)) as E by (unfold rows'; rewrite (clear_lookup _ rank c pr k Esr), Hk; reflexivity).
          apply elem_of_list_lookup_2, H in E. destruct (negb (Nat.eqb k rank) && bit r c); [| exact E]. rewrite Add, Z, xorb_false_r in E. exact E.
      + intros P HP H0 r Hr0. specialize (Al P HP H0). apply elem_of_list_lookup in Hr0 as [k Hk]. destruct (Rows k r Hk) as (j & old & Ej & _ & Cases).
        apply elem_of_list_lookup_2 in Ej, Epr. destruct Cases as [(_ & _ & ->) | (_ & _ & _ & _ & _ & ->)]; [auto |]. destruct (bit old c); auto.
    - pose proof (find_pivot_none _ _ _ F) as Z. split; auto.
      + intros q Hq. specialize (Pv q Hq). lia.
      + intros i row c' Hi Hr Hc. destruct (Nat.eq_dec c' c) as [-> |]; [exact (Z i row Hi Hr) | apply (Ze i row c' Hi Hr); lia].
  Qed.
  Lemma eliminate_inv rows0 n : let st := eliminate bit rxor n rows0 in inv rows0 n st.1 st.2.
  Proof.
    unfold eliminate. induction n as [| n IH].
    - cbn. split; cbn; auto; try lia; try (intros; exfalso; eapply not_elem_of_nil; eassumption); try (constructor); try (intros; discriminate); try (intros; lia).
    - rewrite seq_S, fold_left_app. cbn [fold_left]. cbn in IH. destruct (fold_left (elim_col bit rxor) (seq 0 n) (rows0, [])) as [rows pivots]. cbn in IH. exact (inv_step _ _ _ _ IH).
  Qed.

  (** ** The solutions of the reduced system. *)
  Context (rhs : R -> bool).
  Hypothesis rhs_xor : forall a b, rhs (rxor a b) = xorb (rhs a) (rhs b).
  Definition solves (n : nat) (rows : list R) (x : nat -> bool) : Prop := forall r, r ∈ rows -> dot n (bit r) x = rhs r.

  Lemma solves_inv rows0 n rows pivots x : inv rows0 n rows pivots -> solves n rows0 x <-> solves n rows x.
  Proof.
    intros V. pose proof (v_phi _ _ _ _ V (fun r => xorb (dot n (bit r) x) (rhs r))) as H.
    assert (forall l, solves n l x <-> forall r, r ∈ l -> xorb (dot n (bit r) x) (rhs r) = false) as E.
    { intros l. split; intros K r Hr; [rewrite (K r Hr); apply xorb_nilpotent | apply xorb_eq, K, Hr]. }
    rewrite !E. apply H. intros a b. rewrite rhs_xor. assert (dot n (bit (rxor a b)) x = xorb (dot n (bit a) x) (dot n (bit b) x)) as ->.
    { rewrite <- dot_xor. apply dot_ext; [intros; apply bit_xor | reflexivity]. }
    destruct (dot n (bit a) x), (dot n (bit b) x), (rhs a), (rhs b); reflexivity.
  Qed.
  Definition free (pivots : list nat) (c : nat) : bool := negb (bool_decide (c ∈ pivots)).
  (** A row below the rank is its pivot and free columns. *)
  Lemma dot_pivot_row rows0 n rows pivots r p row x : inv rows0 n rows pivots -> pivots !! r = Some p -> rows !! r = Some row ->
    dot n (bit row) x = xorb (x p) (psum n (fun f => free pivots f && (bit row f && x f))).
  Proof.
    intros V Hp Hr. pose proof (v_piv _ _ _ _ V p (elem_of_list_lookup_2 _ _ _ Hp)) as Lp.
    assert (bit row p = true) as Bp by (rewrite (v_unit _ _ _ _ V r p r row Hp Hr); apply Nat.eqb_refl).
    assert (psum n (fun i => Nat.eqb i p && x p) = x p) as Sp by (rewrite (psum_single _ _ p Lp); [rewrite Nat.eqb_refl; reflexivity |]; intros i _ Hi; rewrite (proj2 (Nat.eqb_neq i p) Hi); reflexivity).
    rewrite <- Sp, <- psum_xor. apply psum_ext. intros i Hi. unfold free. destruct (Nat.eqb_spec i p) as [-> | N].
    - rewrite Bp, (bool_decide_eq_true_2 _ (elem_of_list_lookup_2 _ _ _ Hp)). cbn. rewrite xorb_false_r. reflexivity.
    - destruct (bool_decide_reflect (i ∈ pivots)) as [M | M]; cbn.
      + apply elem_of_list_lookup in M as [k Hk]. rewrite (v_unit _ _ _ _ V k i r row Hk Hr). destruct (Nat.eqb_spec r k) as [-> |]; [| reflexivity]. congruence.
      + destruct (bit row i && x i); reflexivity.
  Qed.
  Lemma dot_zero_row rows0 n rows pivots i row x : inv rows0 n rows pivots -> (length pivots <= i)%nat -> rows !! i = Some row -> dot n (bit row) x = false.
  Proof. intros V Hi Hr. apply psum_false. intros c Hc. rewrite (v_zero _ _ _ _ V i row c Hi Hr Hc). reflexivity. Qed.
  (** Solutions: the rows beyond the rank have right-hand side 0 and each pivot variable is determined by
      the free ones. *)
  Lemma solves_reduced rows0 n rows pivots x : inv rows0 n rows pivots ->
    solves n rows0 x <-> (forall i row, (length pivots <= i)%nat -> rows !! i = Some row -> rhs row = false) /\
      (forall r p row, pivots !! r = Some p -> rows !! r = Some row -> x p = xorb (rhs row) (psum n (fun f => free pivots f && (bit row f && x f)))).
  Proof.
    intros V. rewrite (solves_inv _ _ _ _ x V). split.
    - intros H. split.
      + intros i row Hi Hr. rewrite <- (H row (elem_of_list_lookup_2 _ _ _ Hr)). eapply dot_zero_row; eassumption.
      + intros r p row Hp Hr. rewrite <- (H row (elem_of_list_lookup_2 _ _ _ Hr)), (dot_pivot_row _ _ _ _ r p row x V Hp Hr).
        destruct (x p), (psum n _); reflexivity.
    - intros [H1 H2] row Hrow. apply elem_of_list_lookup in Hrow as [i Hi]. destruct (Nat.lt_ge_cases i (length pivots)) as [L | L].
      + destruct (lookup_lt_is_Some_2 pivots i L) as [p Hp]. rewrite (dot_pivot_row _ _ _ _ i p row x V Hp Hi), (H2 i p row Hp Hi). destruct (rhs row), (psum n _); reflexivity.
      + rewrite (H1 i row L Hi). eapply dot_zero_row; eassumption.
  Qed.
  Lemma row_of_some pivots c r : row_of pivots c = Some r -> pivots !! r = Some c.
  Proof. unfold row_of. destruct (list_find (eq c) pivots) as [[i y] |] eqn:E; [| discriminate]. cbn. intros H. injection H as <-. apply list_find_Some in E as (A & -> & _). exact A. Qed.
  Lemma row_of_none pivots c : row_of pivots c = None -> c ∉ pivots.
  Proof. unfold row_of. destruct (list_find (eq c) pivots) as [[i y] |] eqn:E; [discriminate |]. intros _ M. apply list_find_None in E. rewrite Forall_forall in E. exact (E c M eq_refl). Qed.
  Lemma row_of_pivot pivots r c : NoDup pivots -> pivots !! r = Some c -> row_of pivots c = Some r.
  Proof.
    intros Nd H. destruct (row_of pivots c) as [k |] eqn:E.
    - apply row_of_some in E. f_equal. eapply NoDup_lookup; eassumption.
    - apply row_of_none in E. contradiction E. eapply elem_of_list_lookup_2; exact H.
  Qed.
  Definition at_row (rows : list R) (pivots : list nat) (g : R -> bool) (c : nat) : bool :=
    match row_of pivots c with Some r => match rows !! r with Some row => g row | None => false end | None => false end.
  Lemma at_row_pivot rows pivots g r p row : NoDup pivots -> pivots !! r = Some p -> rows !! r = Some row -> at_row rows pivots g p = g row.
  Proof. intros Nd Hp Hr. unfold at_row. rewrite (row_of_pivot _ _ _ Nd Hp), Hr. reflexivity. Qed.
  Lemma at_row_free rows pivots g c : free pivots c = true -> at_row rows pivots g c = false.
  Proof. unfold free, at_row. destruct (row_of pivots c) as [r |] eqn:E; [| reflexivity]. apply row_of_some, elem_of_list_lookup_2 in E. rewrite bool_decide_true by exact E. discriminate. Qed.
  (** The particular solution sets the free columns to 0. *)
  Lemma particular_solves rows0 n rows pivots : inv rows0 n rows pivots -> (forall i row, (length pivots <= i)%nat -> rows !! i = Some row -> rhs row = false) ->
    solves n rows0 (at_row rows pivots rhs).
  Proof.
    intros V H. apply (solves_reduced _ _ _ _ _ V). split; [exact H |]. intros r p row Hp Hr. rewrite (at_row_pivot _ _ _ r p row (v_nodup _ _ _ _ V) Hp Hr).
    rewrite psum_false; [rewrite xorb_false_r; reflexivity |]. intros f _. destruct (free pivots f) eqn:F; [| reflexivity]. rewrite (at_row_free _ _ _ f F). rewrite !andb_false_r. reflexivity.
  Qed.
End Elim.
