(** C72: the complete solution space of a linear system over GF(2). *)
From Coq Require Import List Arith NArith Ndigits Bool Lia.
From stdpp Require Import list list_numbers.
From Verif Require Import GaussModel GaussProofs XorProps XorParity.
Local Open Scope list_scope.

(** [x] solves every equation that has both a row and a right-hand side. *)
Definition solution (n : nat) (rows : list N) (rhs : list bool) (x : list bool) : Prop :=
  length x = n /\ forall i r b, rows !! i = Some r -> rhs !! i = Some b -> dot n (N.testbit_nat r) (val x) = b.

Lemma tb_land a b c : N.testbit_nat (N.land a b) c = N.testbit_nat a c && N.testbit_nat b c.
Proof. rewrite <- !Ntestbit_Nbit. apply N.land_spec. Qed.
Lemma tb_ones n c : N.testbit_nat (N.ones (N.of_nat n)) c = Nat.ltb c n.
Proof.
  rewrite <- Ntestbit_Nbit. destruct (Nat.ltb_spec c n); [apply N.ones_spec_low | apply N.ones_spec_high]; lia.
Qed.
Lemma tb_rhs n b c : N.testbit_nat (N.shiftl (N.b2n b) (N.of_nat n)) c = b && Nat.eqb c n.
Proof.
  rewrite <- Ntestbit_Nbit. destruct (Nat.lt_ge_cases c n) as [L | L].
  - rewrite N.shiftl_spec_low by lia. destruct (Nat.eqb_spec c n); [lia | rewrite andb_false_r; reflexivity].
  - rewrite N.shiftl_spec_high by lia. destruct (Nat.eqb_spec c n) as [-> |].
    + rewrite N.sub_diag, N.b2n_bit0, andb_true_r. reflexivity.
    + rewrite andb_false_r. assert (N.of_nat c - N.of_nat n <> 0)%N by lia. destruct b; cbn [N.b2n]; [| apply N.bits_0].
      change 1%N with (2 ^ 0)%N. rewrite N.pow2_bits_eqb. apply N.eqb_neq. lia.
Qed.
Lemma augment_solves n rows rhs x : length x = n -> solves N.testbit_nat (fun r => N.testbit_nat r n) n (augment n rows rhs) (val x) <-> solution n rows rhs x.
Proof.
  intros L. assert (forall r b, let a := N.lor (N.land r (N.ones (N.of_nat n))) (N.shiftl (N.b2n b) (N.of_nat n)) in
    dot n (N.testbit_nat a) (val x) = dot n (N.testbit_nat r) (val x) /\ N.testbit_nat a n = b) as A.
  { intros r b a. split.
    - apply dot_ext; [| reflexivity]. intros c Hc. unfold a. rewrite tb_lor, tb_land, tb_ones, tb_rhs. rewrite (proj2 (Nat.ltb_lt c n) Hc), (proj2 (Nat.eqb_neq c n)) by lia. rewrite andb_true_r, andb_false_r, orb_false_r. reflexivity.
    - unfold a. rewrite tb_lor, tb_land, tb_ones, tb_rhs, Nat.ltb_irrefl, Nat.eqb_refl, andb_false_r, andb_true_r. reflexivity. }
  unfold solves, solution, augment. split.
  - intros H. split; [exact L |]. intros i r b Hr Hb. destruct (A r b) as [A1 A2]. rewrite <- A1. etransitivity; [| exact A2]. apply H. apply (elem_of_list_lookup_2 _ i). rewrite lookup_zip_with, Hr. cbn. rewrite Hb. reflexivity.
  - intros [_ H] a Ha. apply elem_of_list_lookup in Ha as [i Hi]. rewrite lookup_zip_with in Hi. destruct (rows !! i) as [r |] eqn:Hr; [| discriminate]. cbn in Hi. destruct (rhs !! i) as [b |] eqn:Hb; [| discriminate].
    apply (inj Some) in Hi. subst a. destruct (A r b) as [A1 A2]. etransitivity; [exact A1 |]. etransitivity; [| symmetry; exact A2]. exact (H i r b Hr Hb).
Qed.
Lemma psum_list g l : psum (length l) (fun b => match l !! b with Some f => g f | None => false end) = parity g l.
Proof.
  induction l as [| v l IH] using rev_ind; [reflexivity |]. rewrite app_length, Nat.add_comm, lsum_app, <- IH. cbn [length Nat.add psum parity]. f_equal.
  - apply psum_ext. intros i Hi. rewrite lookup_app_l by exact Hi. reflexivity.
  - rewrite lookup_app_r, Nat.sub_diag by lia. cbn. rewrite xorb_false_r. reflexivity.
Qed.
Lemma val_map {n} (f : nat -> bool) c : (c < n)%nat -> val (map f (seq 0 n)) c = f c.
Proof.
  intros H. unfold val. change (map f (seq 0 n)) with (f <$> seq 0 n). rewrite list_lookup_fmap. assert (seq 0 n !! c = Some c) as -> by (replace c with (0 + c)%nat at 2 by lia; apply lookup_seq; auto). reflexivity.
Qed.
Lemma val_eq x y : length x = length y -> (forall c, (c < length x)%nat -> val x c = val y c) -> x = y.
Proof.
  intros L H. apply list_eq. intros i. destruct (Nat.lt_ge_cases i (length x)) as [K | K].
  - specialize (H i K). unfold val in H. destruct (lookup_lt_is_Some_2 x i K) as [a Ea], (lookup_lt_is_Some_2 y i ltac:(lia)) as [b Eb]. rewrite Ea, Eb in *. cbn in H. congruence.
  - rewrite !lookup_ge_None_2 by lia. reflexivity.
Qed.
Definition combine (part : list bool) (basis : list (list bool)) (mask : N) (k : nat) : list bool :=
  fold_left (fun x b => if N.testbit_nat mask b then zip_with xorb x (default [] (basis !! b)) else x) (seq 0 k) part.
Lemma combine_val n part basis mask : length part = n -> (forall v, v ∈ basis -> length v = n) -> forall k, (k <= length basis)%nat ->
  length (combine part basis mask k) = n /\
  forall c, (c < n)%nat -> val (combine part basis mask k) c = xorb (val part c) (psum k (fun b => N.testbit_nat mask b && val (default [] (basis !! b)) c)).
Proof.
  intros Lp Lb. induction k as [| k IH]; intros Hk; [split; [exact Lp | intros; cbn; rewrite xorb_false_r; reflexivity] |].
  destruct (IH ltac:(lia)) as [IL IV]. unfold combine in *. rewrite seq_S, fold_left_app. cbn [fold_left Nat.add psum]. destruct (lookup_lt_is_Some_2 basis k ltac:(lia)) as [v Ev].
  pose proof (Lb v (elem_of_list_lookup_2 _ _ _ Ev)) as Lv. rewrite Ev. cbn [default]. destruct (N.testbit_nat mask k); cbn [andb].
  - split; [rewrite zip_with_length; cbn; lia |]. intros c Hc. rewrite <- xorb_assoc, <- IV by exact Hc. unfold val at 1. rewrite lookup_zip_with.
    set (y := fold_left _ (seq 0 k) part) in *. destruct (lookup_lt_is_Some_2 y c ltac:(lia)) as [a Ea], (lookup_lt_is_Some_2 v c ltac:(lia)) as [b Eb]. unfold val. cbn. rewrite Ea, Eb. reflexivity.
  - split; [exact IL |]. intros c Hc. rewrite xorb_false_r. apply IV. exact Hc.
Qed.
Lemma fs_nodup n pivots : NoDup (List.filter (free pivots) (seq 0 n)).
Proof. apply NoDup_ListNoDup, List.NoDup_filter, seq_NoDup. Qed.

(** The space the code builds from a reduced system is exactly its solution set. *)
Section Reduced.
  Context (n : nat) (rows0 aug : list N) (pivots : list nat).
  Let rhsn (r : N) : bool := N.testbit_nat r n.
  Context (V : inv N.testbit_nat N.lxor rows0 n aug pivots).
  Context (Cons : forall i row, (length pivots <= i)%nat -> aug !! i = Some row -> rhsn row = false).
  Let fs := List.filter (free pivots) (seq 0 n).
  Let at_r (c f : nat) : bool := at_row aug pivots (fun row => N.testbit_nat row f) c.
  Let part := map (fun c => at_r c n) (seq 0 n).
  Let kv (f : nat) : list bool := map (fun c => Nat.eqb c f || at_r c f) (seq 0 n).
  Let basis := map kv fs.

  Lemma fs_spec f : f ∈ fs <-> (f < n)%nat /\ free pivots f = true.
  Proof. unfold fs. rewrite elem_of_list_In, filter_In, in_seq. split; intros [A B]; (split; [lia | exact B]). Qed.
  Lemma basis_lengths v : v ∈ basis -> length v = n.
  Proof. intros H. apply elem_of_list_In, in_map_iff in H as (f & <- & _). unfold kv. rewrite map_length, seq_length. reflexivity. Qed.
  Lemma part_length : length part = n.
  Proof. unfold part. rewrite map_length, seq_length. reflexivity. Qed.
  Definition point (mask : N) : list bool := combine part basis mask (length basis).
  Lemma point_length mask : length (point mask) = n.
  Proof. apply (combine_val n part basis mask part_length basis_lengths (length basis)). lia. Qed.
  Lemma point_val mask c : (c < n)%nat -> val (point mask) c =
    xorb (at_r c n) (psum (length fs) (fun b => N.testbit_nat mask b && match fs !! b with Some f => Nat.eqb c f || at_r c f | None => false end)).
  Proof.
    intros Hc. destruct (combine_val n part basis mask part_length basis_lengths (length basis) ltac:(lia)) as [_ H]. unfold point. rewrite (H c Hc). f_equal; [unfold part; apply (val_map (fun c => at_r c n)); exact Hc |].
    unfold basis at 1. rewrite map_length. apply psum_ext. intros b Hb. f_equal. unfold basis. change (map kv fs) with (kv <$> fs). rewrite list_lookup_fmap. destruct (lookup_lt_is_Some_2 fs b Hb) as [f Ef]. rewrite Ef.
    cbn [fmap option_fmap option_map default]. unfold kv. apply (val_map (fun c => Nat.eqb c f || at_r c f)). exact Hc.
  Qed.
  Lemma point_free mask j f : fs !! j = Some f -> val (point mask) f = N.testbit_nat mask j.
  Proof.
    intros Hf. pose proof (elem_of_list_lookup_2 _ _ _ Hf) as Mf. apply fs_spec in Mf as [Lf Ff]. rewrite (point_val mask f Lf). unfold at_r. rewrite (at_row_free aug pivots _ f Ff), xorb_false_l.
    rewrite (psum_single _ _ j (lookup_lt_Some _ _ _ Hf)); [rewrite Hf, Nat.eqb_refl, andb_true_r; reflexivity |]. intros i Hi Hij. destruct (lookup_lt_is_Some_2 fs i Hi) as [g Eg]. rewrite Eg.
    rewrite (at_row_free aug pivots _ f Ff), orb_false_r. destruct (Nat.eqb_spec f g) as [<- |]; [| apply andb_false_r]. exfalso. apply Hij. eapply NoDup_lookup; [apply fs_nodup | exact Eg | exact Hf].
  Qed.
  Lemma free_sum row x : psum n (fun f => free pivots f && (N.testbit_nat row f && x f)) = psum (length fs) (fun b => match fs !! b with Some f => N.testbit_nat row f && x f | None => false end).
  Proof. rewrite (psum_list (fun f => N.testbit_nat row f && x f) fs). unfold fs. rewrite lsum_filter. reflexivity. Qed.
  Lemma point_pivot mask r p row : pivots !! r = Some p -> aug !! r = Some row ->
    val (point mask) p = xorb (rhsn row) (psum (length fs) (fun b => match fs !! b with Some f => N.testbit_nat row f && N.testbit_nat mask b | None => false end)).
  Proof.
    intros Hp Hr. pose proof (v_nodup _ _ _ _ _ _ V) as Nd. pose proof (v_piv _ _ _ _ _ _ V p (elem_of_list_lookup_2 _ _ _ Hp)) as Lp. rewrite (point_val mask p Lp). unfold at_r.
    rewrite (at_row_pivot aug pivots _ r p row Nd Hp Hr). f_equal. apply psum_ext. intros b Hb. destruct (lookup_lt_is_Some_2 fs b Hb) as [f Ef]. rewrite Ef.
    rewrite (at_row_pivot aug pivots _ r p row Nd Hp Hr). pose proof (elem_of_list_lookup_2 _ _ _ Ef) as Mf. apply fs_spec in Mf as [_ Ff].
    destruct (Nat.eqb_spec p f) as [<- |]; [| cbn; apply andb_comm]. unfold free in Ff. rewrite bool_decide_true in Ff by (eapply elem_of_list_lookup_2; exact Hp). discriminate.
  Qed.
  Lemma rhs_lxor a b : rhsn (N.lxor a b) = xorb (rhsn a) (rhsn b).
  Proof. apply tb_lxor. Qed.
  Lemma point_solves mask : solves N.testbit_nat rhsn n rows0 (val (point mask)).
  Proof.
    apply (solves_reduced N.testbit_nat N.lxor tb_lxor rhsn rhs_lxor _ _ _ _ _ V). split; [exact Cons |]. intros r p row Hp Hr. rewrite (point_pivot mask r p row Hp Hr), free_sum. f_equal.
    apply psum_ext. intros b Hb. destruct (lookup_lt_is_Some_2 fs b Hb) as [f Ef]. rewrite Ef, (point_free mask b f Ef). reflexivity.
  Qed.
  Lemma solves_point x : length x = n -> solves N.testbit_nat rhsn n rows0 (val x) -> x = point (mask_of (val x) fs 0).
  Proof.
    intros L H. apply (solves_reduced N.testbit_nat N.lxor tb_lxor rhsn rhs_lxor _ _ _ _ _ V) in H as [_ H].
    assert (forall j f, fs !! j = Some f -> N.testbit_nat (mask_of (val x) fs 0) j = val x f) as M by (intros j f Hf; rewrite mask_bits, Nat.sub_0_r, Hf; reflexivity).
    apply val_eq; [rewrite point_length; exact L |]. intros c Hc. rewrite L in Hc. destruct (free pivots c) eqn:F.
    - assert (c ∈ fs) as Mc by (apply fs_spec; auto). apply elem_of_list_lookup in Mc as [j Hj]. rewrite (point_free _ j c Hj), (M j c Hj). reflexivity.
    - unfold free in F. apply negb_false_iff, bool_decide_eq_true in F. apply elem_of_list_lookup in F as [r Hr]. destruct (lookup_lt_is_Some_2 aug r) as [row Erow].
      { pose proof (v_rank _ _ _ _ _ _ V). apply lookup_lt_Some in Hr. lia. }
      rewrite (H r c row Hr Erow), (point_pivot _ r c row Hr Erow), free_sum. f_equal. apply psum_ext. intros b Hb. destruct (lookup_lt_is_Some_2 fs b Hb) as [f Ef]. rewrite Ef, (M b f Ef). reflexivity.
  Qed.
  Lemma mask_small x : (mask_of x fs 0 < 2 ^ N.of_nat (length fs))%N.
  Proof. apply tb_small. intros c Hc. rewrite mask_bits, Nat.sub_0_r, lookup_ge_None_2 by exact Hc. reflexivity. Qed.
  Lemma point_inj a b : (a < 2 ^ N.of_nat (length fs))%N -> (b < 2 ^ N.of_nat (length fs))%N -> point a = point b -> a = b.
  Proof.
    intros Ha Hb E. apply N.bits_inj. intros i. rewrite <- (N2Nat.id i), !Ntestbit_Nbit. set (j := N.to_nat i). destruct (Nat.lt_ge_cases j (length fs)) as [L | L].
    - destruct (lookup_lt_is_Some_2 fs j L) as [f Ef]. rewrite <- (point_free a j f Ef), <- (point_free b j f Ef), E. reflexivity.
    - rewrite (small_tb _ _ _ Ha L), (small_tb _ _ _ Hb L). reflexivity.
  Qed.
End Reduced.

Lemma reduced_cases n rows rhs : (n < 64)%nat ->
  let st := eliminate N.testbit_nat N.lxor n (augment n rows rhs) in
  let aug := st.1 in let pivots := st.2 in
  let at_r c f := at_row aug pivots (fun row => N.testbit_nat row f) c in
  (solve_gf2 n rows rhs = Some None /\ exists r, r ∈ aug /\ (forall c, (c < n)%nat -> N.testbit_nat r c = false) /\ N.testbit_nat r n = true) \/
  (solve_gf2 n rows rhs = Some (Some (Space n (map (fun c => at_r c n) (seq 0 n)) (map (fun f => map (fun c => Nat.eqb c f || at_r c f) (seq 0 n)) (List.filter (free pivots) (seq 0 n))))) /\
   forall i row, (length pivots <= i)%nat -> aug !! i = Some row -> N.testbit_nat row n = false).
Proof.
  intros Hn. cbv zeta. unfold solve_gf2. destruct (Nat.ltb_spec 64 n); [lia |]. destruct (Nat.eqb_spec n 64); [lia |]. cbn [andb].
  pose proof (eliminate_inv N.testbit_nat N.lxor tb_lxor (augment n rows rhs) n) as V. destruct (eliminate N.testbit_nat N.lxor n (augment n rows rhs)) as [aug pivots]. cbn [fst snd] in *. cbv zeta in V.
  destruct (existsb _ aug) eqn:E.
  - left. split; [reflexivity |]. apply existsb_exists in E as (r & Hr & E). apply andb_true_iff in E as [Ez Er]. apply N.eqb_eq in Ez. exists r. split; [apply elem_of_list_In; exact Hr |]. split; [| exact Er].
    intros c Hc. pose proof (tb_land r (N.ones (N.of_nat n)) c) as B. rewrite Ez, tb_0, tb_ones, (proj2 (Nat.ltb_lt c n) Hc), andb_true_r in B. symmetry. exact B.
  - right. split; [reflexivity |]. intros i row Hi Hr. destruct (N.testbit_nat row n) eqn:B; [| reflexivity]. exfalso. apply (not_true_iff_false (existsb _ aug)) in E. apply E. apply existsb_exists. exists row.
    split; [apply elem_of_list_In; eapply elem_of_list_lookup_2; exact Hr |]. rewrite B, andb_true_r. apply N.eqb_eq. apply tb_zero. intros c. rewrite tb_land, tb_ones. destruct (Nat.ltb_spec c n) as [L |]; [| apply andb_false_r].
    rewrite (v_zero _ _ _ _ _ _ V i row c Hi Hr L). reflexivity.
Qed.
(** Up to 63 unknowns the solver returns; [None] means that there is no solution. *)
Theorem C72_inconsistent n rows rhs : (n < 64)%nat -> is_Some (solve_gf2 n rows rhs) /\ (solve_gf2 n rows rhs = Some None <-> ~ exists x, solution n rows rhs x).
Proof.
  intros Hn. pose proof (eliminate_inv N.testbit_nat N.lxor tb_lxor (augment n rows rhs) n) as V. cbv zeta in V.
  destruct (reduced_cases n rows rhs Hn) as [[E (r & Hr & Z & B)] | [E C]]; rewrite E; (split; [eexists; reflexivity |]); split.
  - intros _ [x Sx]. pose proof (proj1 Sx) as L. apply (augment_solves n rows rhs x L) in Sx.
    apply (solves_inv N.testbit_nat N.lxor tb_lxor (fun r => N.testbit_nat r n) (fun a b => tb_lxor a b n) _ _ _ _ _ V) in Sx. specialize (Sx r Hr). cbv beta in Sx. rewrite B in Sx.
    unfold dot in Sx. rewrite psum_false in Sx; [discriminate |]. intros c Hc. rewrite (Z c Hc). reflexivity.
  - reflexivity.
  - discriminate.
  - intros Ns. exfalso. apply Ns. exists (point n (eliminate N.testbit_nat N.lxor n (augment n rows rhs)).1 (eliminate N.testbit_nat N.lxor n (augment n rows rhs)).2 0%N).
    apply augment_solves; [apply point_length |]. apply point_solves; assumption.
Qed.
(** The space lists every solution exactly once. *)
Theorem C72_solutions n rows rhs s : (n < 64)%nat -> solve_gf2 n rows rhs = Some (Some s) ->
  (forall x, x ∈ enumerate s <-> solution n rows rhs x) /\ NoDup (enumerate s) /\ N.of_nat (length (enumerate s)) = sp_count s.
Proof.
  intros Hn H. pose proof (eliminate_inv N.testbit_nat N.lxor tb_lxor (augment n rows rhs) n) as V. cbv zeta in V.
  destruct (reduced_cases n rows rhs Hn) as [[E _] | [E C]]; rewrite E in H; [discriminate |]. apply (inj Some), (inj Some) in H. subst s.
  set (aug := (eliminate N.testbit_nat N.lxor n (augment n rows rhs)).1) in *. set (pivots := (eliminate N.testbit_nat N.lxor n (augment n rows rhs)).2) in *. clear E.
  set (fs := List.filter (free pivots) (seq 0 n)).
  assert (forall s, s = Space n (map (fun c => at_row aug pivots (fun row => N.testbit_nat row n) c) (seq 0 n)) (map (fun f => map (fun c => Nat.eqb c f || at_row aug pivots (fun row => N.testbit_nat row f) c) (seq 0 n)) fs) ->
    enumerate s = map (fun m => point n aug pivots (N.of_nat m)) (seq 0 (2 ^ length fs)) /\ sp_count s = (2 ^ N.of_nat (length fs))%N) as En.
  { intros s ->. unfold enumerate, sp_count. cbn [kernel_basis particular]. rewrite map_length. split; [| reflexivity]. apply map_ext. intros m. unfold point, combine. fold fs. rewrite map_length. reflexivity. }
  destruct (En _ eq_refl) as [-> ->]. clear En.
  assert (forall a, (a < 2 ^ N.of_nat (length fs))%N <-> (N.to_nat a < 2 ^ length fs)%nat) as Pw.
  { intros a. pose proof (Nat2N.inj_pow 2 (length fs)) as P. change (N.of_nat 2) with 2%N in P. lia. }
  split; [| split].
  - intros x. rewrite elem_of_list_In, in_map_iff. split.
    + intros (m & <- & _). apply augment_solves; [apply point_length |]. apply point_solves; assumption.
    + intros Sx. pose proof (proj1 Sx) as L. apply (augment_solves n rows rhs x L) in Sx. exists (N.to_nat (mask_of (val x) fs 0)). split.
      * rewrite N2Nat.id. symmetry. apply (solves_point n (augment n rows rhs)); assumption.
      * apply in_seq. split; [lia |]. apply Pw. apply mask_small.
  - apply (NoDup_fmap_2_strong (fun m => point n aug pivots (N.of_nat m))); [| apply NoDup_ListNoDup, seq_NoDup]. intros a b Ha Hb E. apply elem_of_list_In, in_seq in Ha, Hb.
    apply Nat2N.inj. apply (point_inj n aug pivots); [apply Pw; rewrite Nat2N.id; lia | apply Pw; rewrite Nat2N.id; lia | exact E].
  - rewrite map_length, seq_length. apply Nat2N.inj_pow.
Qed.
(** A matrix is reported invertible exactly when only zero is mapped to zero. *)
Theorem C72_invertible n rows : is_invertible n rows = true <-> forall x, length x = n -> (forall r, r ∈ rows -> dot n (N.testbit_nat r) (val x) = false) -> x = replicate n false.
Proof.
  unfold is_invertible. pose proof (eliminate_inv N.testbit_nat N.lxor tb_lxor rows n) as V. cbv zeta in V. destruct (eliminate N.testbit_nat N.lxor n rows) as [rows' pivots]. cbn [fst snd] in *.
  assert (forall x, (forall r, r ∈ rows -> dot n (N.testbit_nat r) x = false) <-> solves N.testbit_nat (fun _ => false) n rows x) as Hs by (intros x; reflexivity).
  assert (forall a b : N, false = xorb false false) as Z by reflexivity. rewrite Nat.eqb_eq. split.
  - intros Rk x L H. apply Hs, (solves_reduced N.testbit_nat N.lxor tb_lxor (fun _ => false) Z _ _ _ _ _ V) in H as [_ H].
    assert (forall c, (c < n)%nat -> c ∈ pivots) as All.
    { intros c Hc. assert (incl (seq 0 n) pivots) as I; [| apply elem_of_list_In, I, in_seq; lia]. apply List.NoDup_length_incl; [apply NoDup_ListNoDup, (v_nodup _ _ _ _ _ _ V) | rewrite seq_length; lia |].
      intros p Hp. apply in_seq. split; [lia |]. apply (v_piv _ _ _ _ _ _ V). apply elem_of_list_In. exact Hp. }
    apply val_eq; [rewrite replicate_length; exact L |]. intros c Hc. rewrite L in Hc. pose proof (All c Hc) as M. apply elem_of_list_lookup in M as [r Hr].
    destruct (lookup_lt_is_Some_2 rows' r) as [row Er]; [pose proof (v_rank _ _ _ _ _ _ V); apply lookup_lt_Some in Hr; lia |]. rewrite (H r c row Hr Er). rewrite psum_false.
    + unfold val. rewrite lookup_replicate_2 by exact Hc. reflexivity.
    + intros f Hf. unfold free. rewrite bool_decide_true by (apply All; exact Hf). reflexivity.
  - intros H. assert (incl pivots (seq 0 n)) as Inc by (intros p Hp; apply in_seq; split; [lia | apply (v_piv _ _ _ _ _ _ V), elem_of_list_In, Hp]).
    pose proof (v_nodup _ _ _ _ _ _ V) as Nd. pose proof (List.NoDup_incl_length (proj1 (NoDup_ListNoDup _) Nd) Inc) as Le. rewrite seq_length in Le.
    destruct (Nat.eq_dec (length pivots) n) as [| Ne]; [assumption | exfalso].
    assert (exists f, (f < n)%nat /\ free pivots f = true) as (f & Lf & Ff).
    { destruct (List.filter (free pivots) (seq 0 n)) as [| f l] eqn:E.
      - exfalso. assert (incl (seq 0 n) pivots) as I.
        { intros c Hc. destruct (free pivots c) eqn:F; [| unfold free in F; apply negb_false_iff, bool_decide_eq_true in F; apply elem_of_list_In; exact F].
          assert (In c (List.filter (free pivots) (seq 0 n))) as M by (apply filter_In; auto). rewrite E in M. destruct M. }
        pose proof (List.NoDup_incl_length (seq_NoDup n 0) I) as G. rewrite seq_length in G. lia.
      - exists f. assert (In f (List.filter (free pivots) (seq 0 n))) as M by (rewrite E; left; reflexivity). apply filter_In in M as [M1 M2]. apply in_seq in M1. split; [lia | exact M2]. }
    set (y := fun c => Nat.eqb c f || at_row rows' pivots (fun row => N.testbit_nat row f) c).
    assert (map y (seq 0 n) = replicate n false) as K.
    { apply H; [rewrite map_length, seq_length; reflexivity |]. apply Hs. assert (solves N.testbit_nat (fun _ => false) n rows y) as Sy.
      { apply (solves_reduced N.testbit_nat N.lxor tb_lxor (fun _ => false) Z _ _ _ _ _ V). split; [reflexivity |]. intros r p row Hp Hr. rewrite xorb_false_l. unfold y at 1. rewrite (at_row_pivot _ _ _ r p row Nd Hp Hr).
        assert (p <> f) as Npf by (intros ->; unfold free in Ff; rewrite bool_decide_true in Ff by (eapply elem_of_list_lookup_2; exact Hp); discriminate). rewrite (proj2 (Nat.eqb_neq p f) Npf). cbn [orb].
        rewrite (psum_single _ _ f Lf).
        - rewrite Ff. unfold y. rewrite Nat.eqb_refl. cbn [andb orb]. rewrite andb_true_r. reflexivity.
        - intros i _ Hi. destruct (free pivots i) eqn:Fi; [| reflexivity]. unfold y. rewrite (proj2 (Nat.eqb_neq i f) Hi), (at_row_free _ _ _ i Fi). cbn. apply andb_false_r. }
      intros r Hr. rewrite <- (Sy r Hr). apply dot_ext; [reflexivity |]. intros i Hi. apply val_map. exact Hi. }
    pose proof (val_map y f Lf) as E1. rewrite K in E1. unfold val in E1. rewrite lookup_replicate_2 in E1 by exact Lf. unfold y in E1. rewrite Nat.eqb_refl in E1. discriminate.
Qed.
(** At 64 unknowns, which the mask provides for, the shift of the right-hand side overflows. *)
Theorem C72_width_refuted : exists rows rhs x, solution 64 rows rhs x /\ solve_gf2 64 rows rhs = None.
Proof.
  exists [1%N], [true], (map (fun c => Nat.eqb c 0) (seq 0 64)). split; [split; [reflexivity |] | reflexivity]. intros [| i] r b Hr Hb; [| destruct i; discriminate]. cbn in Hr, Hb. injection Hr as <-. injection Hb as <-.
  vm_compute. reflexivity.
Qed.
(** x0+x1 = 1, x1+x2+x3 = 0: four solutions. *)
Example C72_example : option_map (option_map enumerate) (solve_gf2 4 [3; 14; 0]%N [true; false; false])
  = Some (Some [[true; false; false; false]; [false; true; true; false]; [false; true; false; true]; [true; false; true; true]])
  /\ solve_gf2 2 [3; 3]%N [true; false] = Some None.
Proof. vm_compute. split; reflexivity. Qed.
Example C72_invertible_example : is_invertible 3 [3; 6; 4]%N = true /\ is_invertible 3 [3; 6; 5]%N = false.
Proof. vm_compute. split; reflexivity. Qed.
