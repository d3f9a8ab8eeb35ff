(** C70: the cardinality constraints count. *)
From Coq Require Import String Ascii List Arith Bool Lia Decimal DecimalString DecimalNat.
From stdpp Require Import list strings.
From Verif Require Import UnifyModel CnfModel CnfProofs CnfKeys CnfProps CardModel RupModel RupProofs RupProps.
Local Open Scope list_scope.

(** How many of the formulas an interpretation makes true. *)
Definition count (I : pexpr -> bool) (vars : list pexpr) : nat := length (List.filter (truth_with I) vars).
(** The atoms a constraint may introduce. *)
Definition aux_atom (aux : string) (a : pexpr) : Prop := exists i j, a = s_atom aux i j.
Definition fresh_for (own : pexpr -> Prop) (vars : list pexpr) : Prop := forall v a, v ∈ vars -> a ∈ atoms v -> ~ own a.
(** Some choice of the introduced atoms makes the formula true. *)
Definition extends_to (own : pexpr -> Prop) (I : pexpr -> bool) (e : pexpr) : Prop :=
  exists J, (forall a, ~ own a -> J a = I a) /\ truth_with J e = true.

Lemma truth_conj I l : truth_with I (conj l) = forallb (truth_with I) l.
Proof.
  destruct l as [| a l]; cbn [conj]; [cbn; destruct (I _); reflexivity |].
  assert (forall l a, truth_with I (fold_left c_and l a) = truth_with I a && forallb (truth_with I) l) as H; [| apply H].
  clear. induction l as [| b l IH]; intros a; cbn [fold_left forallb]; [rewrite andb_true_r; reflexivity |]. rewrite IH. cbn. rewrite andb_assoc. reflexivity.
Qed.
Lemma truth_conj_true I l : truth_with I (conj l) = true <-> forall e, In e l -> truth_with I e = true.
Proof. rewrite truth_conj, forallb_forall. reflexivity. Qed.
Lemma count_cons I x l : count I (x :: l) = ((if truth_with I x then 1 else 0) + count I l)%nat.
Proof. unfold count. cbn. destruct (truth_with I x); reflexivity. Qed.
Lemma count_not I l : (count I (map ENot l) + count I l)%nat = length l.
Proof. induction l as [| x l IH]; [reflexivity |]. cbn [map]. rewrite !count_cons. cbn [truth_with length]. destruct (truth_with I x); cbn; lia. Qed.
Lemma count_le I l : (count I l <= length l)%nat.
Proof. pose proof (count_not I l). lia. Qed.
Lemma count_ext I J l : (forall v a, v ∈ l -> a ∈ atoms v -> I a = J a) -> count I l = count J l.
Proof.
  induction l as [| x l IH]; intros H; [reflexivity |]. rewrite !count_cons, IH by (intros v a Hv; apply H; right; exact Hv).
  rewrite (truth_ext I J x); [reflexivity |]. intros a Ha. apply (H x); [left | exact Ha].
Qed.

(** ** Soundness. *)
Lemma steps_sound I aux k : (1 <= k)%nat -> forall xs m c,
  (forall e, In e (counter_steps aux k (S m) xs) -> truth_with I e = true) ->
  (c <= k)%nat -> (forall j, (1 <= j <= k)%nat -> (j <= c)%nat -> I (s_atom aux m j) = true) -> (c + count I xs <= k)%nat.
Proof.
  intros Hk. induction xs as [| x xs IH]; intros m c H Hc Hs; [unfold count; cbn; lia |]. cbn [counter_steps] in H.
  assert (forall e, In e (counter_step aux k (S m) x) -> truth_with I e = true) as Hx by (intros e He; apply H, in_or_app; auto).
  assert (forall e, In e (counter_steps aux k (S (S m)) xs) -> truth_with I e = true) as Hr by (intros e He; apply H, in_or_app; auto). clear H.
  unfold counter_step in Hx. replace (S m - 1)%nat with m in Hx by lia.
  assert (forall j, (2 <= j <= k)%nat -> In j (seq 2 (k - 1))) as Hj by (intros j ?; apply in_seq; lia).
  rewrite count_cons. destruct (truth_with I x) eqn:Ex.
  - assert ((c < k)%nat) as Lt.
    { assert (I (s_atom aux m k) = false) as F.
      { specialize (Hx (ENot (c_and x (s_atom aux m k)))). cbn in Hx. rewrite Ex in Hx. cbn in Hx. apply negb_true_iff. apply Hx. right. right. apply in_or_app. right. left. reflexivity. }
      destruct (Nat.eq_dec c k) as [-> |]; [| lia]. rewrite Hs in F by lia. discriminate. }
    enough (S c + count I xs <= k)%nat by lia. apply (IH (S m) (S c) Hr ltac:(lia)). intros j J1 J2. destruct (Nat.eq_dec j 1) as [-> | Hn].
    + specialize (Hx (c_implies x (s_atom aux (S m) 1)) ltac:(left; reflexivity)). cbn in Hx. rewrite Ex in Hx. exact Hx.
    + specialize (Hx (c_implies (c_and x (s_atom aux m (j - 1))) (s_atom aux (S m) j))). cbn [truth_with c_implies c_and] in Hx. rewrite Ex in Hx.
      change (truth_with I (s_atom aux m (j - 1))) with (I (s_atom aux m (j - 1))) in Hx. rewrite Hs in Hx by lia. apply Hx. right. right. apply in_or_app. left.
      apply in_flat_map. exists j. split; [apply Hj; lia | left; reflexivity].
  - enough (c + count I xs <= k)%nat by lia. apply (IH (S m) c Hr ltac:(lia)). intros j J1 J2. destruct (Nat.eq_dec j 1) as [-> | Hn].
    + specialize (Hx (c_implies (s_atom aux m 1) (s_atom aux (S m) 1)) ltac:(right; left; reflexivity)). cbn [truth_with c_implies] in Hx.
      change (truth_with I (s_atom aux m 1)) with (I (s_atom aux m 1)) in Hx. rewrite Hs in Hx by lia. exact Hx.
    + specialize (Hx (c_implies (s_atom aux m j) (s_atom aux (S m) j))). cbn [truth_with c_implies] in Hx. change (truth_with I (s_atom aux m j)) with (I (s_atom aux m j)) in Hx.
      rewrite Hs in Hx by lia. apply Hx. right. right. apply in_or_app. left. apply in_flat_map. exists j. split; [apply Hj; lia | right; left; reflexivity].
Qed.
(** Whatever the introduced atoms, a true constraint bounds the count: no freshness is needed. *)
Theorem C70_at_most_sound vars k aux I : truth_with I (at_most vars k aux) = true -> (count I vars <= k)%nat.
Proof.
  unfold at_most. pose proof (count_le I vars). destruct (Nat.leb_spec (length vars) k); [lia |]. destruct (Nat.eqb_spec k 0) as [-> | Hk].
  - rewrite truth_conj_true. intros T. assert (count I vars = 0)%nat; [| lia]. clear -T. induction vars as [| x l IH]; [reflexivity |]. rewrite count_cons, IH by (intros e He; apply T; right; exact He).
    specialize (T (ENot x) ltac:(left; reflexivity)). cbn in T. apply negb_true_iff in T. rewrite T. reflexivity.
  - destruct vars as [| x rest]; [cbn in *; lia |]. rewrite truth_conj_true. intros T. rewrite count_cons.
    apply (steps_sound I aux k ltac:(lia) rest 1); [intros e He; apply T; right; apply in_or_app; auto | destruct (truth_with I x); lia |].
    intros j J1 J2. specialize (T _ ltac:(left; reflexivity)). cbn in T. destruct (truth_with I x); [| lia]. replace j with 1%nat by lia. exact T.
Qed.
Theorem C70_at_least_sound vars k aux I : truth_with I (at_least vars k aux) = true -> (k <= count I vars)%nat.
Proof.
  unfold at_least. destruct (Nat.eqb_spec k 0); [lia |]. destruct (Nat.ltb_spec (length vars) k); [cbn; destruct (I _); discriminate |].
  intros T. apply C70_at_most_sound in T. pose proof (count_not I vars). lia.
Qed.
Theorem C70_exactly_sound vars k aux I : truth_with I (exactly vars k aux) = true -> count I vars = k.
Proof. cbn. rewrite andb_true_iff. intros [A B]. apply C70_at_least_sound in A. apply C70_at_most_sound in B. lia. Qed.

(** ** The introduced names are distinct. *)
Definition digit (c : ascii) : Prop := c <> "_"%char.
Lemma dec_digits n : Forall digit (list_ascii_of_string (dec n)).
Proof. unfold dec. induction (Nat.to_uint n); cbn; constructor; auto; discriminate. Qed.
Lemma dec_inj n m : dec n = dec m -> n = m.
Proof.
  unfold dec. intros H. apply Unsigned.to_uint_inj. apply (f_equal NilEmpty.uint_of_string) in H. rewrite !NilEmpty.usu in H. congruence.
Qed.
Lemma split_at_sep a b c d : Forall digit a -> Forall digit b -> a ++ "_"%char :: c = b ++ "_"%char :: d -> a = b /\ c = d.
Proof.
  revert b. induction a as [| x a IH]; intros [| y b] Ha Hb H; cbn in H.
  - injection H as ->. auto.
  - injection H as <- _. apply Forall_cons in Hb as [Hb _]. contradiction (Hb eq_refl).
  - injection H as -> _. apply Forall_cons in Ha as [Ha _]. contradiction (Ha eq_refl).
  - injection H as -> H. apply Forall_cons in Ha as [_ Ha]. apply Forall_cons in Hb as [_ Hb]. destruct (IH b Ha Hb H) as [-> ->]. auto.
Qed.
Lemma s_name_inj aux i j i' j' : s_name aux i j = s_name aux i' j' -> i = i' /\ j = j'.
Proof.
  unfold s_name. intros H. apply (f_equal list_ascii_of_string) in H. rewrite !chars_app in H. apply app_inv_head in H. cbn [list_ascii_of_string app] in H. injection H as H.
  apply split_at_sep in H as [A B]; [| apply dec_digits | apply dec_digits]. apply chars_inj in A, B. split; apply dec_inj; assumption.
Qed.
Lemma aux_disjoint aux a : aux_atom (aux ++ "_ge")%string a -> ~ aux_atom (aux ++ "_le")%string a.
Proof.
  intros (i & j & ->) (i' & j' & H). injection H as H. unfold s_name in H. apply (f_equal list_ascii_of_string) in H. rewrite !chars_app, <- !app_assoc in H. apply app_inv_head in H. cbn in H. discriminate H.
Qed.

(** ** Completeness. *)
(** The intended value of the counters: [s i j] says that at least [j] of the first [i] hold. *)
Definition pairs (n k : nat) : list (nat * nat) := list_prod (seq 1 n) (seq 1 k).
Definition is_named (n : string) (a : pexpr) : bool := match a with EAtom t => String.eqb t n | _ => false end.
Lemma is_named_iff n a : is_named n a = true <-> a = EAtom n.
Proof. destruct a; cbn; try (split; discriminate). rewrite String.eqb_eq. split; [intros ->; reflexivity | intros H; injection H as ->; reflexivity]. Qed.
Definition counters (I : pexpr -> bool) (vars : list pexpr) (k : nat) (aux : string) (a : pexpr) : bool :=
  match List.find (fun ij => is_named (s_name aux ij.1 ij.2) a) (pairs (length vars) k) with
  | Some (i, j) => Nat.leb j (count I (take i vars))
  | None => I a
  end.
Lemma counters_at I vars k aux i j : (1 <= i <= length vars)%nat -> (1 <= j <= k)%nat ->
  counters I vars k aux (s_atom aux i j) = Nat.leb j (count I (take i vars)).
Proof.
  intros Hi Hj. unfold counters. destruct (List.find _ _) as [[i' j'] |] eqn:F.
  - apply find_some in F as [_ F]. apply is_named_iff in F. cbn in F. injection F as F. apply s_name_inj in F as [-> ->]. reflexivity.
  - exfalso. pose proof (find_none _ _ F (i, j)) as N. cbn in N. rewrite String.eqb_refl in N. discriminate N. apply in_prod; apply in_seq; lia.
Qed.
Lemma counters_off I vars k aux a : ~ aux_atom aux a -> counters I vars k aux a = I a.
Proof.
  intros H. unfold counters. destruct (List.find _ _) as [[i j] |] eqn:F; [| reflexivity]. apply find_some in F as [_ F]. apply is_named_iff in F. exfalso. apply H. exists i, j. exact F.
Qed.
Lemma take_count I vars i x : vars !! i = Some x -> count I (take (S i) vars) = (count I (take i vars) + if truth_with I x then 1 else 0)%nat.
Proof.
  intros H. rewrite (take_S_r _ _ _ H). unfold count. rewrite List.filter_app, app_length. cbn. destruct (truth_with I x); reflexivity.
Qed.
Lemma take_count_le I vars i : (count I (take i vars) <= count I vars)%nat.
Proof. rewrite <- (take_drop i vars) at 2. unfold count. rewrite List.filter_app, app_length. lia. Qed.
Lemma steps_complete I vars k aux : (1 <= k)%nat -> (count I vars <= k)%nat -> fresh_for (aux_atom aux) vars ->
  forall xs m, (1 <= m)%nat -> drop m vars = xs -> forall e, In e (counter_steps aux k (S m) xs) -> truth_with (counters I vars k aux) e = true.
Proof.
  intros Hk Hc Fr. set (J := counters I vars k aux). induction xs as [| x xs IH]; intros m Hm D e He; [destruct He |].
  assert (vars !! m = Some x) as Hx by (rewrite <- (Nat.add_0_r m), <- lookup_drop, D; reflexivity).
  pose proof (lookup_lt_Some _ _ _ Hx) as Lm. cbn [counter_steps] in He. apply in_app_or in He as [He | He].
  2: { apply (IH (S m) ltac:(lia)); [| exact He]. replace (S m) with (m + 1)%nat by lia. rewrite <- drop_drop, D. reflexivity. }
  assert (truth_with J x = truth_with I x) as Tx.
  { apply truth_ext. intros a Ha. apply counters_off. apply (Fr x a); [eapply elem_of_list_lookup_2; exact Hx | exact Ha]. }
  assert (forall j, (1 <= j <= k)%nat -> J (s_atom aux m j) = Nat.leb j (count I (take m vars))) as S0 by (intros; apply counters_at; lia).
  assert (forall j, (1 <= j <= k)%nat -> J (s_atom aux (S m) j) = Nat.leb j (count I (take m vars) + if truth_with I x then 1 else 0)) as S1
    by (intros; unfold J; rewrite counters_at, (take_count I vars m x Hx) by lia; reflexivity).
  pose proof (take_count_le I vars (S m)) as Le. rewrite (take_count I vars m x Hx) in Le.
  unfold counter_step in He. replace (S m - 1)%nat with m in He by lia.
  destruct He as [<- | [<- | He]].
  - cbn [truth_with c_implies s_atom]. change (J (EAtom (s_name aux (S m) 1))) with (J (s_atom aux (S m) 1)). rewrite Tx, S1 by lia. destruct (truth_with I x); [| reflexivity].
    cbn [implb negb orb]. apply Nat.leb_le. lia.
  - cbn [truth_with c_implies s_atom]. change (J (EAtom (s_name aux (S m) 1))) with (J (s_atom aux (S m) 1)). change (J (EAtom (s_name aux m 1))) with (J (s_atom aux m 1)).
    rewrite S0, S1 by lia. destruct (Nat.leb_spec 1 (count I (take m vars))); [| reflexivity]. cbn [implb negb orb]. apply Nat.leb_le. lia.
  - apply in_app_or in He as [He | [<- | []]].
    + apply in_flat_map in He as (j & Hj & He). apply in_seq in Hj. destruct He as [<- | [<- | []]]; cbn [truth_with c_implies c_and s_atom];
        change (J (EAtom (s_name aux (S m) j))) with (J (s_atom aux (S m) j)).
      * change (J (EAtom (s_name aux m (j - 1)))) with (J (s_atom aux m (j - 1))). rewrite Tx, S0, S1 by lia. destruct (truth_with I x); [| reflexivity].
        destruct (Nat.leb_spec (j - 1) (count I (take m vars))); [| reflexivity]. cbn [andb implb negb orb]. apply Nat.leb_le. lia.
      * change (J (EAtom (s_name aux m j))) with (J (s_atom aux m j)). rewrite S0, S1 by lia. destruct (Nat.leb_spec j (count I (take m vars))); [| reflexivity]. cbn [implb negb orb]. apply Nat.leb_le. lia.
    + cbn [truth_with c_and s_atom]. change (J (EAtom (s_name aux m k))) with (J (s_atom aux m k)). rewrite Tx, S0 by lia. destruct (truth_with I x); [| reflexivity]. cbn [andb].
      apply negb_true_iff, Nat.leb_gt. lia.
Qed.
Lemma at_most_complete vars k aux I : fresh_for (aux_atom aux) vars -> (count I vars <= k)%nat -> extends_to (aux_atom aux) I (at_most vars k aux).
Proof.
  intros Fr Hc. unfold at_most. destruct (Nat.leb_spec (length vars) k) as [| L]; [exists I; split; [auto | cbn; destruct (I _); reflexivity] |].
  destruct (Nat.eqb_spec k 0) as [-> | Hk].
  - exists I. split; [auto |]. rewrite truth_conj_true. clear Fr L. induction vars as [| x l IH]; intros e He; [destruct He |]. rewrite count_cons in Hc. destruct He as [<- | He]; [| apply IH; [lia | exact He]].
    cbn. destruct (truth_with I x); [lia | reflexivity].
  - destruct vars as [| x rest]; [exists I; split; [auto | cbn; destruct (I _); reflexivity] |].
    exists (counters I (x :: rest) k aux). split; [intros a Ha; apply counters_off; exact Ha |]. rewrite truth_conj_true. intros e [<- | He].
    + cbn [truth_with c_implies]. rewrite (truth_ext _ I x) by (intros a Ha; apply counters_off, (Fr x a); [left | exact Ha]).
      change (truth_with (counters I (x :: rest) k aux) (s_atom aux 1 1)) with (counters I (x :: rest) k aux (s_atom aux 1 1)). rewrite counters_at by (cbn; lia).
      cbn [take]. rewrite count_cons. destruct (truth_with I x); reflexivity.
    + apply in_app_or in He as [He | He]; [| apply (steps_complete I (x :: rest) k aux ltac:(lia) Hc Fr rest 1); auto].
      apply in_map_iff in He as (j & <- & Hj). apply in_seq in Hj. cbn [truth_with]. change (truth_with (counters I (x :: rest) k aux) (s_atom aux 1 j)) with (counters I (x :: rest) k aux (s_atom aux 1 j)).
      rewrite counters_at by (cbn; lia). cbn [take]. rewrite count_cons. apply negb_true_iff, Nat.leb_gt. unfold count. rewrite take_0. cbn. destruct (truth_with I x); lia.
Qed.
Lemma fresh_not own vars : fresh_for own vars -> fresh_for own (map ENot vars).
Proof. intros H v a Hv Ha. apply elem_of_list_In, in_map_iff in Hv as (w & <- & Hw). apply (H w a); [apply elem_of_list_In; exact Hw | exact Ha]. Qed.
Lemma at_least_complete vars k aux I : fresh_for (aux_atom aux) vars -> (k <= count I vars)%nat -> extends_to (aux_atom aux) I (at_least vars k aux).
Proof.
  intros Fr Hc. unfold at_least. destruct (Nat.eqb_spec k 0); [exists I; split; [auto | cbn; destruct (I _); reflexivity] |]. pose proof (count_not I vars).
  destruct (Nat.ltb_spec (length vars) k); [lia |]. apply at_most_complete; [apply fresh_not; exact Fr | lia].
Qed.
Lemma count_off own I J vars : fresh_for own vars -> (forall a, ~ own a -> J a = I a) -> count J vars = count I vars.
Proof. intros Fr H. apply count_ext. intros v a Hv Ha. apply H. exact (Fr v a Hv Ha). Qed.

(** The atoms of a constraint are those of its variables, its own, and the two reserved ones. *)
Definition reserved (a : pexpr) : Prop := a = EAtom "__card_true" \/ a = EAtom "__card_false".
Lemma atoms_conj l a : a ∈ atoms (conj l) -> reserved a \/ exists e, In e l /\ a ∈ atoms e.
Proof.
  destruct l as [| e l]; cbn [conj].
  - intros H. left. left. repeat (apply elem_of_cons in H as [H | H]; [exact H |]). apply elem_of_nil in H. destruct H.
  - intros H. right. revert e H. induction l as [| b l IH]; intros e H; cbn [fold_left] in H; [exists e; split; [left; reflexivity | exact H] |].
    apply IH in H as (x & [<- | Hx] & Ha); [| exists x; split; [right; right; exact Hx | exact Ha]].
    cbn in Ha. apply elem_of_app in Ha as [Ha | Ha]; [exists e | exists b]; (split; [cbn; auto | exact Ha]).
Qed.
Lemma steps_atoms aux k xs : forall i e a, In e (counter_steps aux k i xs) -> a ∈ atoms e -> aux_atom aux a \/ exists v, v ∈ xs /\ a ∈ atoms v.
Proof.
  assert (forall i j a, a ∈ atoms (s_atom aux i j) -> aux_atom aux a) as A by (intros i j a Ha; apply elem_of_list_singleton in Ha; subst a; exists i, j; reflexivity).
  induction xs as [| x xs IH]; intros i e a He Ha; [destruct He |]. cbn [counter_steps] in He. apply in_app_or in He as [He | He].
  2: { destruct (IH _ _ _ He Ha) as [H | (v & Hv & H)]; [left; exact H | right; exists v; split; [right; exact Hv | exact H]]. }
  assert (a ∈ atoms x -> aux_atom aux a \/ exists v, v ∈ x :: xs /\ a ∈ atoms v) as X by (intros H; right; exists x; split; [left | exact H]).
  unfold counter_step in He. destruct He as [<- | [<- | He]].
  - cbn [atoms c_implies] in Ha. apply elem_of_app in Ha as [Ha | Ha]; eauto.
  - cbn [atoms c_implies] in Ha. apply elem_of_app in Ha as [Ha | Ha]; eauto.
  - apply in_app_or in He as [He | [<- | []]].
    + apply in_flat_map in He as (j & _ & [<- | [<- | []]]); cbn [atoms c_implies c_and] in Ha; rewrite ?elem_of_app in Ha; naive_solver eauto.
    + cbn [atoms c_and] in Ha. rewrite ?elem_of_app in Ha. naive_solver eauto.
Qed.
Lemma at_most_atoms vars k aux a : a ∈ atoms (at_most vars k aux) -> reserved a \/ aux_atom aux a \/ exists v, v ∈ vars /\ a ∈ atoms v.
Proof.
  assert (a ∈ atoms tautology -> reserved a) as T by (intros H; left; repeat (apply elem_of_cons in H as [H | H]; [exact H |]); apply elem_of_nil in H; destruct H).
  unfold at_most. destruct (Nat.leb _ _); [auto |]. destruct (Nat.eqb _ _).
  - intros H. apply atoms_conj in H as [H | (e & He & H)]; [auto |]. apply in_map_iff in He as (v & <- & Hv). right. right. exists v. split; [apply elem_of_list_In; exact Hv | exact H].
  - destruct vars as [| x rest]; [auto |]. intros H. apply atoms_conj in H as [H | (e & [<- | He] & H)]; [auto | |].
    + cbn [atoms c_implies] in H. apply elem_of_app in H as [H | H]; [right; right; exists x; split; [left | exact H] |]. apply elem_of_list_singleton in H. right. left. exists 1%nat, 1%nat. exact H.
    + apply in_app_or in He as [He | He].
      * apply in_map_iff in He as (j & <- & _). cbn in H. apply elem_of_list_singleton in H. right. left. exists 1%nat, j. exact H.
      * destruct (steps_atoms _ _ _ _ _ _ He H) as [B | (v & Hv & B)]; [auto |]. right. right. exists v. split; [right; exact Hv | exact B].
Qed.
Lemma at_least_atoms vars k aux a : a ∈ atoms (at_least vars k aux) -> reserved a \/ aux_atom aux a \/ exists v, v ∈ vars /\ a ∈ atoms v.
Proof.
  assert (a ∈ atoms tautology -> reserved a) as T by (intros H; left; repeat (apply elem_of_cons in H as [H | H]; [exact H |]); apply elem_of_nil in H; destruct H).
  assert (a ∈ atoms CardModel.contradiction -> reserved a) as F by (intros H; right; repeat (apply elem_of_cons in H as [H | H]; [exact H |]); apply elem_of_nil in H; destruct H).
  unfold at_least. destruct (Nat.eqb _ _); [auto |]. destruct (Nat.ltb _ _); [auto |]. intros H. apply at_most_atoms in H as [H | [H | (v & Hv & H)]]; auto.
  apply elem_of_list_In, in_map_iff in Hv as (w & <- & Hw). right. right. exists w. split; [apply elem_of_list_In; exact Hw | exact H].
Qed.

(** ** The constraints mean what they say: with the introduced atoms free, each holds exactly for the
    right counts. *)
Theorem C70_at_most vars k aux I : fresh_for (aux_atom aux) vars -> extends_to (aux_atom aux) I (at_most vars k aux) <-> (count I vars <= k)%nat.
Proof.
  intros Fr. split; [| apply at_most_complete; exact Fr]. intros (J & HJ & T). apply C70_at_most_sound in T. rewrite (count_off _ I J vars Fr HJ) in T. exact T.
Qed.
Theorem C70_at_least vars k aux I : fresh_for (aux_atom aux) vars -> extends_to (aux_atom aux) I (at_least vars k aux) <-> (k <= count I vars)%nat.
Proof.
  intros Fr. split; [| apply at_least_complete; exact Fr]. intros (J & HJ & T). apply C70_at_least_sound in T. rewrite (count_off _ I J vars Fr HJ) in T. exact T.
Qed.
Definition exact_atom (aux : string) (a : pexpr) : Prop := aux_atom (aux ++ "_ge")%string a \/ aux_atom (aux ++ "_le")%string a.
Lemma dec_last j : match rev (list_ascii_of_string (dec j)) with [] => True | c :: _ => c <> "e"%char end.
Proof.
  assert (Forall (fun c => c <> "e"%char) (list_ascii_of_string (dec j))) as D by (unfold dec; induction (Nat.to_uint j); cbn; constructor; auto; discriminate).
  apply Forall_rev in D. change @rev with @List.rev. destruct (List.rev _); [exact Logic.I |]. apply Forall_cons in D as [D _]. exact D.
Qed.
Lemma aux_reserved aux a : aux_atom aux a -> ~ reserved a.
Proof.
  intros (i & j & ->) H. assert (exists w, rev (list_ascii_of_string (s_name aux i j)) = "e"%char :: w) as [w Hw].
  { destruct H as [H | H]; injection H as H; rewrite H; eexists; reflexivity. }
  unfold s_name in Hw. rewrite !chars_app in Hw. rewrite !rev_app_distr in Hw. pose proof (dec_last j) as D. destruct (rev (list_ascii_of_string (dec j))); cbn in Hw; [discriminate |].
  injection Hw as -> _. contradiction.
Qed.
Theorem C70_exactly vars k aux I : fresh_for (exact_atom aux) vars -> extends_to (exact_atom aux) I (exactly vars k aux) <-> count I vars = k.
Proof.
  intros Fr. split.
  - intros (J & HJ & T). apply C70_exactly_sound in T. rewrite (count_off _ I J vars Fr HJ) in T. exact T.
  - intros Hc. destruct (at_least_complete vars k (aux ++ "_ge")%string I) as (J1 & H1 & T1); [intros v a Hv Ha H; apply (Fr v a Hv Ha); left; exact H | lia |].
    assert (count J1 vars = k) as Hc1 by (rewrite <- Hc; apply (count_off (aux_atom (aux ++ "_ge")%string)); [intros v a Hv Ha H; apply (Fr v a Hv Ha); left; exact H | exact H1]).
    destruct (at_most_complete vars k (aux ++ "_le")%string J1) as (J2 & H2 & T2); [intros v a Hv Ha H; apply (Fr v a Hv Ha); right; exact H | lia |].
    exists J2. split.
    + intros a Ha. rewrite H2 by (intros H; apply Ha; right; exact H). apply H1. intros H; apply Ha; left; exact H.
    + cbn [exactly truth_with c_and]. rewrite T2, andb_true_r. etransitivity; [| exact T1]. apply truth_ext. intros a Ha. apply H2. intros H.
      apply at_least_atoms in Ha as [Ha | [Ha | (v & Hv & Ha)]]; [exact (aux_reserved _ _ H Ha) | exact (aux_disjoint aux a Ha H) | apply (Fr v a Hv Ha); right; exact H].
Qed.

(** ** Distinct prefixes are not enough. The comment asks that distinct constraints of one formula use
    distinct prefixes; but [exactly] with prefix [c] introduces the atoms of prefix [c_ge]. *)
Definition xs2 : list pexpr := [EAtom "x1"; EAtom "x2"].
Definition ys2 : list pexpr := [EAtom "y1"; EAtom "y2"].
Definition own2 (a : pexpr) : Prop := exact_atom "c" a \/ aux_atom "c_ge" a.
Theorem C70_prefix_refuted : exists I, count I xs2 = 1%nat /\ (count I ys2 <= 1)%nat /\
  extends_to own2 I (exactly xs2 1 "c") /\ extends_to own2 I (at_most ys2 1 "c_ge") /\
  ~ exists J, (forall a, a ∈ [EAtom "x1"; EAtom "x2"; EAtom "y1"; EAtom "y2"] -> J a = I a) /\ truth_with J (c_and (exactly xs2 1 "c") (at_most ys2 1 "c_ge")) = true.
Proof.
  set (I := fun a => is_named "x2" a || is_named "y2" a). exists I.
  assert (forall aux, Forall (fun a => ~ aux_atom aux a) [EAtom "x1"; EAtom "x2"; EAtom "y1"; EAtom "y2"]) as Fr.
  { intros aux. rewrite !Forall_cons, Forall_nil. repeat split; auto; intros (i & j & H); injection H as H; unfold s_name in H; apply (f_equal list_ascii_of_string) in H; rewrite !chars_app in H;
      assert ("_"%char ∈ list_ascii_of_string aux ++ list_ascii_of_string "_" ++ list_ascii_of_string (dec i) ++ list_ascii_of_string "_" ++ list_ascii_of_string (dec j)) as M by (apply elem_of_app; right; left);
      rewrite <- H in M; cbn in M; repeat (apply elem_of_cons in M as [M | M]; [discriminate M |]); apply elem_of_nil in M; exact M. }
  assert (count I xs2 = 1%nat) as C1 by reflexivity. assert (count I ys2 = 1%nat) as C2 by reflexivity.
  split; [exact C1 |]. split; [rewrite C2; lia |].
  assert (forall aux v a, v ∈ xs2 \/ v ∈ ys2 -> a ∈ atoms v -> ~ aux_atom aux a) as Fr'.
  { intros aux v a Hv Ha. specialize (Fr aux). rewrite Forall_forall in Fr. apply Fr. rewrite !elem_of_cons. destruct Hv as [Hv | Hv]; unfold xs2, ys2 in Hv; rewrite !elem_of_cons, elem_of_nil in Hv;
      destruct Hv as [-> | [-> | []]]; cbn in Ha; apply elem_of_list_singleton in Ha; auto. }
  split; [| split].
  - destruct (proj2 (C70_exactly xs2 1 "c" I ltac:(intros v a Hv Ha [H | H]; exact (Fr' _ v a (or_introl Hv) Ha H))) C1) as (J & HJ & T). exists J. split; [| exact T]. intros a Ha. apply HJ. intros H. apply Ha. left. exact H.
  - destruct (proj2 (C70_at_most ys2 1 "c_ge" I ltac:(intros v a Hv Ha H; exact (Fr' _ v a (or_intror Hv) Ha H))) ltac:(rewrite C2; lia)) as (J & HJ & T). exists J. split; [| exact T]. intros a Ha. apply HJ. intros H. apply Ha. right. exact H.
  - intros (J & HJ & T). assert (J (EAtom "x1") = false /\ J (EAtom "x2") = true /\ J (EAtom "y1") = false /\ J (EAtom "y2") = true) as (X1 & X2 & Y1 & Y2).
    { repeat split; rewrite HJ by (rewrite !elem_of_cons; auto); reflexivity. }
    vm_compute in T. rewrite X1, X2, Y1, Y2 in T. destruct (J (EAtom "c_ge_1_1")), (J (EAtom "c_ge_2_1")), (J (EAtom "c_le_1_1")), (J (EAtom "c_le_2_1")); discriminate T.
Qed.

(** ** With the clausifier: a certified refutation of premises and a cardinality constraint bounds the
    count in every interpretation of the premises. *)
Theorem C70_certified_bound ps vars k aux c learned :
  Forall clean (at_least vars k aux :: ps) -> fresh_for (aux_atom aux) vars -> (forall p, p ∈ ps -> forall a, a ∈ atoms p -> ~ aux_atom aux a) ->
  from_premises (at_least vars k aux :: ps) = Some c -> check_refutation (num_vars c) (clauses c) learned = Some true ->
  forall I, sensible I -> all_true I ps -> (count I vars < k)%nat.
Proof.
  intros Cl Fr Fp H R I HI T. destruct (Nat.lt_ge_cases (count I vars) k) as [L | L]; [exact L | exfalso].
  destruct (at_least_complete vars k aux I Fr L) as (J & HJ & TJ).
  (* [J] need not be sensible on equations, but it differs from [I] only on atoms of [aux]. *)
  assert (sensible J) as SJ.
  { intros a b Hab. destruct a, b; cbn in Hab; try contradiction; try (rewrite !HJ; [apply HI; exact Hab | |]; intros (i & j & E); discriminate E). subst. reflexivity. }
  destruct (C69_complete _ c J Cl SJ H) as (model & L2 & Sat & _).
  - intros e He. apply elem_of_cons in He as [-> | He]; [exact TJ |]. rewrite <- (T e He). apply truth_ext. intros a Ha. apply HJ. exact (Fp e He a Ha).
  - apply (C37_refutation_sound _ _ _ R). exists (model_fn model). exact Sat.
Qed.

(** ** Examples: at most two of three, with a formula in place of a variable. *)
Definition vars3 : list pexpr := [EAtom "a"; EBin COr (EAtom "b") (EAtom "c"); ENot (EAtom "a")].
Example C70_example : count (is_named "b") vars3 = 2%nat /\ truth_with (fun _ => true) (at_most vars3 2 "k") = false /\
  truth_with (counters (is_named "b") vars3 2 "k") (at_most vars3 2 "k") = true /\ truth_with (is_named "b") (at_most vars3 2 "k") = false.
Proof. vm_compute. auto. Qed.
Example C70_fresh_example : fresh_for (aux_atom "k") [EAtom "a"; EAtom "k_1_"; EAtom "k"].
Proof.
  intros v a Hv Ha (i & j & ->). rewrite !elem_of_cons, elem_of_nil in Hv. destruct Hv as [-> | [-> | [-> | []]]]; apply elem_of_list_singleton in Ha;
    apply (f_equal (fun e => match e with EAtom s => list_ascii_of_string s | _ => [] end)) in Ha; cbv beta iota delta [s_atom] in Ha; unfold s_name in Ha;
    rewrite !chars_app in Ha; cbn [list_ascii_of_string app] in Ha; try discriminate Ha.
  injection Ha as Ha. change ["1"%char; "_"%char] with (["1"%char] ++ "_"%char :: []) in Ha.
  apply split_at_sep in Ha as [_ Ha]; [| apply dec_digits | repeat constructor; discriminate].
  assert (dec j = "") as E by (apply chars_inj; exact Ha). apply (f_equal NilEmpty.uint_of_string) in E. unfold dec in E. rewrite NilEmpty.usu in E. cbn in E. injection E as E.
  destruct j as [| j]; [discriminate E |]. apply (f_equal Nat.of_uint) in E. rewrite Unsigned.of_to in E. discriminate E.
Qed.
