(** C71: parity systems are decided, with certificates. *)
From Coq Require Import String List Arith NArith Ndigits Bool Lia.
From stdpp Require Import list gmap strings sorting.
From Verif Require Import UnifyModel CnfProofs CnfProps GaussModel GaussProofs.
Local Open Scope list_scope.

(** The parity of a list of variables under an assignment; variables beyond its end count as false. *)
Definition val (x : list bool) (v : nat) : bool := default false (x !! v).
Fixpoint parity (f : nat -> bool) (vars : list nat) : bool := match vars with [] => false | v :: l => xorb (f v) (parity f l) end.
Definition holds (x : list bool) (e : xor_eq) : Prop := parity (val x) (xvars e) = xrhs e.
Definition model (eqs : list xor_eq) (x : list bool) : Prop := forall e, e ∈ eqs -> holds x e.

Lemma parity_odd f vars : Nat.odd (length (List.filter f vars)) = parity f vars.
Proof.
  induction vars as [| v l IH]; [reflexivity |]. cbn. rewrite <- IH. destruct (f v); cbn [length]; [| destruct (Nat.odd _); reflexivity].
  rewrite Nat.odd_succ, <- Nat.negb_odd. destruct (Nat.odd _); reflexivity.
Qed.
Lemma satisfies_iff eqs x : xor_satisfies eqs x = true <-> model eqs x.
Proof.
  unfold xor_satisfies, model. rewrite forallb_forall.
  assert (forall e, Bool.eqb (Nat.odd (length (List.filter (fun v => match x !! v with Some b => b | None => false end) (xvars e)))) (xrhs e) = true <-> holds x e) as H.
  { intros e. rewrite eqb_true_iff, parity_odd. unfold holds, val. replace (parity (fun v => match x !! v with Some b => b | None => false end) (xvars e)) with (parity (fun v => default false (x !! v)) (xvars e)); [reflexivity |].
    induction (xvars e) as [| v l IH]; [reflexivity |]. cbn. rewrite IH. destruct (x !! v); reflexivity. }
  split; intros K e He; [apply H, K, elem_of_list_In, He | apply H, K, elem_of_list_In, He].
Qed.

(** ** Bits. *)
Lemma tb_lxor a b c : N.testbit_nat (N.lxor a b) c = xorb (N.testbit_nat a c) (N.testbit_nat b c).
Proof. rewrite <- !Ntestbit_Nbit. apply N.lxor_spec. Qed.
Lemma tb_pow i c : N.testbit_nat (2 ^ N.of_nat i) c = Nat.eqb c i.
Proof.
  rewrite <- Ntestbit_Nbit, N.pow2_bits_eqb. destruct (N.eqb_spec (N.of_nat i) (N.of_nat c)), (Nat.eqb_spec c i); auto; lia.
Qed.
Lemma tb_flip b i c : N.testbit_nat (flip b i) c = xorb (N.testbit_nat b c) (Nat.eqb c i).
Proof. unfold flip. rewrite tb_lxor, tb_pow. reflexivity. Qed.
Lemma tb_0 c : N.testbit_nat 0 c = false.
Proof. rewrite <- Ntestbit_Nbit. apply N.bits_0. Qed.
Lemma tb_zero a : (forall c, N.testbit_nat a c = false) -> a = 0%N.
Proof. intros H. apply N.bits_inj. intros k. rewrite N.bits_0. rewrite <- (N2Nat.id k), Ntestbit_Nbit. apply H. Qed.
Lemma flips_shift n vars : forall b c, N.testbit_nat (flips n b vars) c = xorb (N.testbit_nat b c) (N.testbit_nat (flips n 0 vars) c).
Proof.
  induction vars as [| v l IH]; intros b c; [cbn; rewrite xorb_false_r; reflexivity |]. unfold flips in *. cbn [fold_left]. destruct (Nat.ltb v n); [| apply IH].
  rewrite IH, (IH (flip 0 v)), !tb_flip, tb_0. destruct (N.testbit_nat b c), (Nat.eqb c v), (N.testbit_nat _ c); reflexivity.
Qed.
Lemma flips_high n vars c : (n <= c)%nat -> N.testbit_nat (flips n 0 vars) c = false.
Proof.
  intros Hc. induction vars as [| v l IH]; [apply tb_0 |]. unfold flips in *. cbn [fold_left]. destruct (Nat.ltb_spec v n); [| exact IH].
  rewrite (flips_shift n l (flip 0 v) c : N.testbit_nat (fold_left _ l (flip 0 v)) c = _). unfold flips. rewrite IH, tb_flip, tb_0. destruct (Nat.eqb_spec c v); [lia | reflexivity].
Qed.
Lemma flips_dot n vars x : (forall v, (n <= v)%nat -> x v = false) -> dot n (N.testbit_nat (flips n 0 vars)) x = parity x vars.
Proof.
  intros Hx. induction vars as [| v l IH]; [cbn [parity flips fold_left]; apply psum_false; intros; unfold flips; cbn [fold_left]; rewrite tb_0; reflexivity |].
  unfold flips. cbn [fold_left parity]. destruct (Nat.ltb_spec v n) as [L | L].
  - rewrite (dot_ext n _ (fun c => xorb (Nat.eqb c v) (N.testbit_nat (flips n 0 l) c)) x x).
    + rewrite dot_xor, IH. f_equal. unfold dot. rewrite (psum_single _ _ v L); [rewrite Nat.eqb_refl; reflexivity |]. intros i _ Hi. rewrite (proj2 (Nat.eqb_neq i v) Hi). reflexivity.
    + intros c _. rewrite (flips_shift n l (flip 0 v) c : N.testbit_nat (fold_left _ l (flip 0 v)) c = _), tb_flip, tb_0. destruct (Nat.eqb c v); reflexivity.
    + reflexivity.
  - rewrite (Hx v L), xorb_false_l. exact IH.
Qed.

(** ** The rows. *)
Lemma xrow_bit_xor a b c : xrow_bit (xrow_xor a b) c = xorb (xrow_bit a c) (xrow_bit b c).
Proof. apply tb_lxor. Qed.
Lemma xrow_rhs_xor a b : x_rhs (xrow_xor a b) = xorb (x_rhs a) (x_rhs b).
Proof. reflexivity. Qed.
Lemma val_high x v : (length x <= v)%nat -> val x v = false.
Proof. intros H. unfold val. rewrite lookup_ge_None_2 by exact H. reflexivity. Qed.
Lemma rows_solves eqs n x : (length x <= n)%nat -> solves xrow_bit x_rhs n (xor_rows n eqs) (val x) <-> model eqs x.
Proof.
  intros L. unfold solves, model, xor_rows, holds. split; intros H.
  - intros e He. apply elem_of_list_lookup in He as [i Hi]. specialize (H (XRow (flips n 0 (xvars e)) (xrhs e) (flip 0 i))). cbn in H.
    rewrite <- (flips_dot n (xvars e) (val x)) by (intros; apply val_high; lia). apply H. apply (elem_of_list_lookup_2 _ i). rewrite list_lookup_imap, Hi. reflexivity.
  - intros r Hr. apply elem_of_list_lookup in Hr as [i Hi]. rewrite list_lookup_imap in Hi. destruct (eqs !! i) as [e |] eqn:E; [| discriminate]. change (Some (XRow (flips n 0 (xvars e)) (xrhs e) (flip 0 i)) = Some r) in Hi. apply (inj Some) in Hi. subst r.
    etransitivity; [apply (flips_dot n (xvars e) (val x)); intros; apply val_high; lia |]. apply (H e). eapply elem_of_list_lookup_2; exact E.
Qed.
Definition lhs_of (n : nat) (eqs : list xor_eq) (i : nat) : N := match eqs !! i with Some e => flips n 0 (xvars e) | None => 0%N end.
Definition rhs_of (eqs : list xor_eq) (i : nat) : bool := match eqs !! i with Some e => xrhs e | None => false end.
(** Every row is the sum of the equations its provenance names. *)
Definition traced (n : nat) (eqs : list xor_eq) (r : xrow) : Prop :=
  (forall c, xrow_bit r c = psum (length eqs) (fun i => N.testbit_nat (x_prov r) i && N.testbit_nat (lhs_of n eqs i) c)) /\
  x_rhs r = psum (length eqs) (fun i => N.testbit_nat (x_prov r) i && rhs_of eqs i) /\
  (forall i, (length eqs <= i)%nat -> N.testbit_nat (x_prov r) i = false).
Lemma traced_xor n eqs a b : traced n eqs a -> traced n eqs b -> traced n eqs (xrow_xor a b).
Proof.
  intros (A1 & A2 & A3) (B1 & B2 & B3). split; [| split].
  - intros c. rewrite xrow_bit_xor, A1, B1, <- psum_xor. apply psum_ext. intros i _. cbn [x_prov xrow_xor]. rewrite tb_lxor. destruct (N.testbit_nat (x_prov a) i), (N.testbit_nat (x_prov b) i), (N.testbit_nat (lhs_of n eqs i) c); reflexivity.
  - cbn [x_rhs x_prov xrow_xor]. rewrite A2, B2, <- psum_xor. apply psum_ext. intros i _. rewrite tb_lxor. destruct (N.testbit_nat (x_prov a) i), (N.testbit_nat (x_prov b) i), (rhs_of eqs i); reflexivity.
  - intros i Hi. cbn [x_prov xrow_xor]. rewrite tb_lxor, A3, B3 by exact Hi. reflexivity.
Qed.
Lemma traced_rows n eqs r : r ∈ xor_rows n eqs -> traced n eqs r.
Proof.
  intros Hr. apply elem_of_list_lookup in Hr as [i Hi]. unfold xor_rows in Hi. rewrite list_lookup_imap in Hi. destruct (eqs !! i) as [e |] eqn:E; [| discriminate]. change (Some (XRow (flips n 0 (xvars e)) (xrhs e) (flip 0 i)) = Some r) in Hi. apply (inj Some) in Hi. subst r.
  pose proof (lookup_lt_Some _ _ _ E) as L. split; [| split]; cbn [x_prov x_rhs x_lhs xrow_bit].
  - intros c. rewrite (psum_single _ _ i L); [| intros j _ Hj; cbn [x_prov]; rewrite tb_flip, tb_0, (proj2 (Nat.eqb_neq j i) Hj); reflexivity].
    rewrite tb_flip, tb_0, Nat.eqb_refl. unfold xrow_bit, lhs_of. rewrite E. reflexivity.
  - rewrite (psum_single _ _ i L); [| intros j _ Hj; cbn [x_prov]; rewrite tb_flip, tb_0, (proj2 (Nat.eqb_neq j i) Hj); reflexivity].
    rewrite tb_flip, tb_0, Nat.eqb_refl. unfold rhs_of. rewrite E. reflexivity.
  - intros j Hj. rewrite tb_flip, tb_0. destruct (Nat.eqb_spec j i); [lia | reflexivity].
Qed.
Lemma rows_high n eqs r c : (n <= c)%nat -> r ∈ xor_rows n eqs -> xrow_bit r c = false.
Proof.
  intros Hc Hr. apply elem_of_list_lookup in Hr as [i Hi]. unfold xor_rows in Hi. rewrite list_lookup_imap in Hi. destruct (eqs !! i) as [e |] eqn:E; [| discriminate]. change (Some (XRow (flips n 0 (xvars e)) (xrhs e) (flip 0 i)) = Some r) in Hi. apply (inj Some) in Hi. subst r.
  apply flips_high. exact Hc.
Qed.

(** ** Refutations. *)
Notation lsum := parity.
Lemma lsum_app f a b : lsum f (a ++ b) = xorb (lsum f a) (lsum f b).
Proof. induction a as [| i a IH]; cbn; [destruct (lsum f b); reflexivity |]. rewrite IH. destruct (f i), (lsum f a), (lsum f b); reflexivity. Qed.
Lemma lsum_filter f g K : lsum g (List.filter f (seq 0 K)) = psum K (fun i => f i && g i).
Proof.
  induction K as [| K IH]; [reflexivity |]. rewrite seq_S, List.filter_app, lsum_app, IH. cbn. destruct (f K); cbn; [rewrite xorb_false_r |]; reflexivity.
Qed.
Lemma psum_more m K f : (m <= K)%nat -> (forall i, (m <= i)%nat -> f i = false) -> psum K f = psum m f.
Proof. intros L H. induction L as [| K L IH]; [reflexivity |]. cbn. rewrite IH, (H K) by lia. apply xorb_false_r. Qed.
Lemma refutation_sum_spec eqs n idxs : forall b s, (forall i, i ∈ idxs -> (i < length eqs)%nat) -> exists b' s', refutation_sum eqs n (b, s) idxs = Some (b', s') /\
  (forall c, N.testbit_nat b' c = xorb (N.testbit_nat b c) (lsum (fun i => N.testbit_nat (lhs_of n eqs i) c) idxs)) /\ s' = xorb s (lsum (rhs_of eqs) idxs).
Proof.
  induction idxs as [| i l IH]; intros b s H; [exists b, s; cbn; rewrite !xorb_false_r; split; [reflexivity | split; [intros; rewrite xorb_false_r; reflexivity | reflexivity]] |].
  destruct (lookup_lt_is_Some_2 eqs i (H i ltac:(left))) as [e E]. cbn [refutation_sum]. rewrite E.
  destruct (IH (flips n b (xvars e)) (xorb s (xrhs e))) as (b' & s' & R & B & S); [intros j Hj; apply H; right; exact Hj |]. cbn [fst snd]. exists b', s'. split; [exact R |]. split.
  - intros c. rewrite B, flips_shift. cbn [parity]. unfold lhs_of at 2. rewrite E. apply xorb_assoc.
  - rewrite S. cbn [parity]. unfold rhs_of at 2. rewrite E. apply xorb_assoc.
Qed.
Lemma refutation_sum_range eqs n idxs : forall st r, refutation_sum eqs n st idxs = Some r -> forall i, i ∈ idxs -> (i < length eqs)%nat.
Proof.
  induction idxs as [| i l IH]; intros st r H j Hj; [apply elem_of_nil in Hj; destruct Hj |]. cbn in H. destruct (eqs !! i) as [e |] eqn:E; [| discriminate].
  apply elem_of_cons in Hj as [-> | Hj]; [eapply lookup_lt_Some; exact E | eapply IH; eassumption].
Qed.
(** The checker is sound: a subset of the equations that sums to 0 = 1 rules out every assignment. *)
Theorem C71_refutation_sound eqs n idxs x : is_refutation eqs n idxs = true -> (length x <= n)%nat -> xor_satisfies eqs x = false.
Proof.
  intros H L. destruct (xor_satisfies eqs x) eqn:S; [exfalso | reflexivity]. apply satisfies_iff in S.
  unfold is_refutation in H. destruct idxs as [| i0 l0]; [discriminate |]. remember (i0 :: l0) as idxs. clear i0 l0 Heqidxs.
  destruct (refutation_sum eqs n (0%N, false) idxs) as [[b s] |] eqn:R; [| discriminate]. apply andb_true_iff in H as [Hb ->]. apply N.eqb_eq in Hb. subst b.
  pose proof (refutation_sum_range _ _ _ _ _ R) as Rg. destruct (refutation_sum_spec eqs n idxs 0%N false Rg) as (b' & s' & R' & B & Hs). rewrite R' in R. injection R as -> ->.
  assert (dot n (fun c => lsum (fun i => N.testbit_nat (lhs_of n eqs i) c) idxs) (val x) = lsum (rhs_of eqs) idxs) as D.
  { clear R' B Hs. induction idxs as [| i l IH]; [apply psum_false; reflexivity |]. cbn [parity].
    rewrite (dot_xor n (fun c => N.testbit_nat (lhs_of n eqs i) c) (fun c => lsum (fun i => N.testbit_nat (lhs_of n eqs i) c) l)). rewrite IH by (intros j Hj; apply Rg; right; exact Hj). f_equal.
    destruct (lookup_lt_is_Some_2 eqs i (Rg i ltac:(left))) as [e E]. unfold lhs_of, rhs_of. rewrite E. etransitivity; [apply (flips_dot n (xvars e) (val x)); intros; apply val_high; lia |].
    apply (S e). eapply elem_of_list_lookup_2; exact E. }
  rewrite xorb_false_l in Hs. rewrite <- Hs in D. rewrite (dot_ext n _ (fun _ => false) _ (val x)) in D; [| | reflexivity].
  - unfold dot in D. rewrite psum_false in D by reflexivity. discriminate.
  - intros c _. specialize (B c). rewrite !tb_0, xorb_false_l in B. symmetry. exact B.
Qed.
(** The solver's answers check: an assignment satisfies every equation, a subset is a refutation. *)
Theorem C71_solve_certified eqs n : match xor_solve eqs n with
  | XSat x => length x = n /\ xor_satisfies eqs x = true
  | XUnsat idxs => is_refutation eqs n idxs = true
  end.
Proof.
  unfold xor_solve. pose proof (eliminate_inv xrow_bit xrow_xor xrow_bit_xor (xor_rows n eqs) n) as V. destruct (eliminate xrow_bit xrow_xor n (xor_rows n eqs)) as [rows pivots]. cbn in V.
  destruct (List.find _ rows) as [r |] eqn:F.
  - apply find_some in F as [Hr F]. apply andb_true_iff in F as [Fz Fr]. apply N.eqb_eq in Fz. apply elem_of_list_In in Hr.
    destruct (v_all _ _ _ _ _ _ V (traced n eqs) (traced_xor n eqs) (traced_rows n eqs) r Hr) as (T1 & T2 & T3).
    set (K := (64 * words_for (length eqs))%nat). assert (length eqs <= K)%nat as LK.
    { unfold K, words_for. pose proof (Nat.div_mod (length eqs + 63) 64 ltac:(lia)). pose proof (Nat.mod_upper_bound (length eqs + 63) 64 ltac:(lia)). lia. }
    assert (forall i, i ∈ set_indices (words_for (length eqs)) (x_prov r) -> (i < length eqs)%nat) as Rg.
    { intros i Hi. apply elem_of_list_In, filter_In in Hi as [_ Hi]. destruct (Nat.lt_ge_cases i (length eqs)) as [| G]; [assumption |]. rewrite (T3 i G) in Hi. discriminate. }
    destruct (refutation_sum_spec eqs n _ 0%N false Rg) as (b & s & R & B & Hs). unfold is_refutation. rewrite R.
    assert (s = true) as ->.
    { rewrite Hs, xorb_false_l. unfold set_indices. fold K. rewrite lsum_filter, (psum_more (length eqs)); [rewrite <- T2; exact Fr | exact LK |]. intros i Hi. rewrite (T3 i Hi). reflexivity. }
    assert (b = 0%N) as ->.
    { apply tb_zero. intros c. rewrite B, tb_0, xorb_false_l. unfold set_indices. fold K. rewrite lsum_filter, (psum_more (length eqs)); [rewrite <- (T1 c); unfold xrow_bit; rewrite Fz; apply tb_0 | exact LK |].
      intros i Hi. rewrite (T3 i Hi). reflexivity. }
    destruct (set_indices _ _) eqn:E; [cbn in Hs; discriminate | reflexivity].
  - match goal with |- context [xor_satisfies eqs ?x] => set (a := x) end. assert (length a = n) as La by (unfold a; rewrite map_length, seq_length; reflexivity). split; [exact La |].
    apply satisfies_iff. apply (rows_solves eqs n a); [lia |].
    assert (solves xrow_bit x_rhs n (xor_rows n eqs) (at_row rows pivots x_rhs)) as S.
    { apply (particular_solves xrow_bit xrow_xor xrow_bit_xor x_rhs xrow_rhs_xor _ _ _ _ V). intros i row Hi Hr. pose proof (find_none _ _ F row) as N. cbn in N.
      assert (x_lhs row = 0%N) as Z.
      { apply tb_zero. intros c. destruct (Nat.lt_ge_cases c n) as [Lc | Lc]; [exact (v_zero _ _ _ _ _ _ V i row c Hi Hr Lc) |].
        apply (v_all _ _ _ _ _ _ V (fun r => xrow_bit r c = false)); [intros x y Hx Hy; rewrite xrow_bit_xor, Hx, Hy; reflexivity | intros r0 Hr0; eapply rows_high; eassumption | eapply elem_of_list_lookup_2; exact Hr]. }
      rewrite Z in N. cbn in N. apply N. apply elem_of_list_In. eapply elem_of_list_lookup_2; exact Hr. }
    intros r Hr. rewrite <- (S r Hr). apply dot_ext; [reflexivity |]. intros i Hi. unfold val, a.
    change (map ?f (seq 0 n)) with (f <$> seq 0 n). rewrite list_lookup_fmap. assert (seq 0 n !! i = Some i) as -> by (replace i with (0 + i)%nat at 2 by lia; apply lookup_seq; auto). reflexivity.
Qed.
(** So it answers [Sat] exactly on the satisfiable systems. *)
Theorem C71_solve_decides eqs n : (exists x, xor_solve eqs n = XSat x) <-> (exists x, length x = n /\ xor_satisfies eqs x = true).
Proof.
  pose proof (C71_solve_certified eqs n) as H. destruct (xor_solve eqs n) as [x | idxs]; split.
  - intros _. exists x. exact H.
  - intros _. exists x. reflexivity.
  - intros [x E]. discriminate.
  - intros (x & L & S). rewrite (C71_refutation_sound eqs n idxs x H) in S by lia. discriminate.
Qed.
