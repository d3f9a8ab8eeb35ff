(** C71, second part: recognising parity constraints in clauses. *)
From Coq Require Import String List Arith NArith Ndigits Bool Lia.
From stdpp Require Import list gmap strings sorting.
From Verif Require Import UnifyModel CnfProofs CnfProps GaussModel GaussProofs XorProps.
Local Open Scope list_scope.

(** ** Reading the formula. *)
Record iwf (idx : index) : Prop := Iwf {
  iw_range : forall s v, idx !! s = Some v -> (v < size idx)%nat;
  iw_inj : forall s t v, idx !! s = Some v -> idx !! t = Some v -> s = t }.
Definition agrees (I : pexpr -> bool) (x : nat -> bool) (idx : index) : Prop := forall s v, idx !! s = Some v -> x v = I (EAtom s).
Lemma iwf_empty : iwf ∅.
Proof. split; intros *; rewrite lookup_empty; discriminate. Qed.
Lemma intern_ok idx name v idx' : iwf idx -> intern idx name = (v, idx') -> iwf idx' /\ idx ⊆ idx' /\ idx' !! name = Some v.
Proof.
  intros W. unfold intern. destruct (idx !! name) as [w |] eqn:E; intros H; injection H as <- <-; [auto |]. split; [| split].
  - split.
    + intros s v. rewrite map_size_insert_None by exact E. rewrite lookup_insert_Some. intros [[_ <-] | [_ H]]; [lia |]. pose proof (iw_range _ W s v H). lia.
    + intros s t v. rewrite !lookup_insert_Some. intros [[<- <-] | [N H]] [[<- H'] | [N' H']]; auto.
      * pose proof (iw_range _ W t _ H'). lia.
      * subst v. pose proof (iw_range _ W s _ H). lia.
      * eapply iw_inj; eassumption.
  - apply insert_subseteq. exact E.
  - apply lookup_insert.
Qed.
Definition lit_holds (x : nat -> bool) (l : nat * bool) : bool := Bool.eqb (x l.1) l.2.
Lemma agrees_mono I x idx idx' : idx ⊆ idx' -> agrees I x idx' -> agrees I x idx.
Proof. intros S A s v H. apply A. eapply lookup_weaken; eassumption. Qed.
Lemma collect_literals_ok e : forall idx lits idx', iwf idx -> collect_literals e idx = Some (lits, idx') ->
  iwf idx' /\ idx ⊆ idx' /\ (forall l, l ∈ lits -> (l.1 < size idx')%nat) /\ forall I x, agrees I x idx' -> truth_with I e = existsb (lit_holds x) lits.
Proof.
  assert (forall idx idx', iwf idx' -> idx ⊆ idx' -> (size idx <= size idx')%nat) as Sz.
  { intros idx idx' _ S. apply map_size_mono_relation with (R := eq) || (rewrite <- !size_dom; apply subseteq_size, subseteq_dom; exact S). }
  induction e as [p ts w | a b | s | k p IHp q IHq | p IHp | qu y b IHb | o a IHa | o a IHa b IHb | n]; intros idx lits idx' W H; try discriminate.
  - cbn in H. destruct (intern idx s) as [v i1] eqn:E. injection H as <- <-. destruct (intern_ok _ _ _ _ W E) as (W1 & S1 & L1). split; [exact W1 |]. split; [exact S1 |]. split.
    + intros l Hl. apply elem_of_list_singleton in Hl. subst l. exact (iw_range _ W1 s v L1).
    + intros I x A. cbn. unfold lit_holds. cbn. rewrite (A s v L1). destruct (I _); reflexivity.
  - destruct k; try discriminate. cbn [collect_literals] in H. destruct (collect_literals p idx) as [[a i1] |] eqn:E1; [| discriminate]. cbn in H.
    destruct (collect_literals q i1) as [[b i2] |] eqn:E2; [| discriminate]. cbn in H. injection H as <- <-.
    destruct (IHp _ _ _ W E1) as (W1 & S1 & R1 & T1), (IHq _ _ _ ltac:(exact (proj1 (IHp _ _ _ W E1))) E2) as (W2 & S2 & R2 & T2).
    split; [exact W2 |]. split; [etransitivity; eassumption |]. split.
    + intros l Hl. apply elem_of_app in Hl as [Hl | Hl]; [specialize (R1 l Hl); specialize (Sz i1 i2 W2 S2); lia | auto].
    + intros I x A. cbn [truth_with]. rewrite (T1 I x (agrees_mono _ _ _ _ S2 A)), (T2 I x A), existsb_app. reflexivity.
  - destruct p as [| | s | | | | | |]; try discriminate. cbn in H. destruct (intern idx s) as [v i1] eqn:E. injection H as <- <-. destruct (intern_ok _ _ _ _ W E) as (W1 & S1 & L1). split; [exact W1 |]. split; [exact S1 |]. split.
    + intros l Hl. apply elem_of_list_singleton in Hl. subst l. exact (iw_range _ W1 s v L1).
    + intros I x A. cbn. unfold lit_holds. cbn. rewrite (A s v L1). destruct (I _); reflexivity.
Qed.
Lemma collect_clauses_ok e : forall idx cs idx', iwf idx -> collect_clauses e idx = Some (cs, idx') ->
  iwf idx' /\ idx ⊆ idx' /\ (forall c l, c ∈ cs -> l ∈ c -> (l.1 < size idx')%nat) /\ forall I x, agrees I x idx' -> truth_with I e = forallb (existsb (lit_holds x)) cs.
Proof.
  assert (forall e idx cs idx', iwf idx -> ('(lits, idx) ← collect_literals e idx; Some ([lits], idx)) = Some (cs, idx') ->
    iwf idx' /\ idx ⊆ idx' /\ (forall c l, c ∈ cs -> l ∈ c -> (l.1 < size idx')%nat) /\ forall I x, agrees I x idx' -> truth_with I e = forallb (existsb (lit_holds x)) cs) as One.
  { intros f idx cs idx' W H. destruct (collect_literals f idx) as [[lits i1] |] eqn:E; [| discriminate]. cbn in H. injection H as <- <-. destruct (collect_literals_ok _ _ _ _ W E) as (W1 & S1 & R1 & T1).
    split; [exact W1 |]. split; [exact S1 |]. split; [intros c l Hc; apply elem_of_list_singleton in Hc; subst c; apply R1 |]. intros I x A. cbn. rewrite andb_true_r. apply T1. exact A. }
  induction e as [p ts w | a b | s | k p IHp q IHq | p IHp | qu y b IHb | o a IHa | o a IHa b IHb | n]; intros idx cs idx' W H; try (eapply One; eassumption).
  destruct k; try (eapply One; eassumption). cbn [collect_clauses] in H. destruct (collect_clauses p idx) as [[a i1] |] eqn:E1; [| discriminate]. cbn in H.
  destruct (collect_clauses q i1) as [[b i2] |] eqn:E2; [| discriminate]. cbn in H. injection H as <- <-.
  destruct (IHp _ _ _ W E1) as (W1 & S1 & R1 & T1), (IHq _ _ _ ltac:(exact (proj1 (IHp _ _ _ W E1))) E2) as (W2 & S2 & R2 & T2).
  split; [exact W2 |]. split; [etransitivity; eassumption |]. split.
  - intros c l Hc Hl. apply elem_of_app in Hc as [Hc | Hc]; [| eauto]. specialize (R1 c l Hc Hl). assert (size i1 <= size i2)%nat; [| lia]. rewrite <- !size_dom. apply subseteq_size, subseteq_dom. exact S2.
  - intros I x A. cbn [truth_with]. rewrite (T1 I x (agrees_mono _ _ _ _ S2 A)), (T2 I x A), forallb_app. reflexivity.
Qed.
(** An interpretation gives the variables values. *)
Lemma agrees_exists I idx : iwf idx -> exists x, agrees I x idx.
Proof.
  intros W. exists (fun v => match List.find (fun sv => Nat.eqb sv.2 v) (map_to_list idx) with Some (s, _) => I (EAtom s) | None => false end).
  intros s v H. destruct (List.find _ _) as [[t w] |] eqn:F.
  - apply find_some in F as [F1 F2]. cbn in F2. apply Nat.eqb_eq in F2. subst w. apply elem_of_list_In, elem_of_map_to_list in F1. rewrite (iw_inj _ W t s v F1 H). reflexivity.
  - exfalso. pose proof (find_none _ _ F (s, v)) as N. cbn in N. rewrite Nat.eqb_refl in N. discriminate N. apply elem_of_list_In, elem_of_map_to_list. exact H.
Qed.

(** ** Groups. *)
Definition grouped (cs : list (list (nat * bool))) (g : list nat * list (list (nat * bool))) : Prop :=
  forall c, c ∈ g.2 -> c ∈ cs /\ var_set c = g.1 /\ length (var_set c) = length c.
Lemma add_group_ok cs k c gs : c ∈ cs -> var_set c = k -> length (var_set c) = length c -> (forall g, g ∈ gs -> grouped cs g) -> forall g, g ∈ add_group k c gs -> grouped cs g.
Proof.
  intros Hc Hk Hl. induction gs as [| [k' cs'] gs IH]; intros H g Hg; cbn in Hg.
  - apply elem_of_list_singleton in Hg. subst g. intros d Hd. cbn in Hd. apply elem_of_list_singleton in Hd. subst d. auto.
  - destruct (bool_decide_reflect (k = k')) as [E | N].
    + apply elem_of_cons in Hg as [-> | Hg]; [| apply H; right; exact Hg]. intros d Hd. cbn [snd fst] in *. apply elem_of_app in Hd as [Hd | Hd]; [apply (H (k', cs')); [left | exact Hd] |].
      apply elem_of_list_singleton in Hd. subst d. rewrite <- E. auto.
    + apply elem_of_cons in Hg as [-> | Hg]; [apply H; left | apply IH; [| exact Hg]]. intros g' Hg'. apply H. right. exact Hg'.
Qed.
Lemma group_clauses_ok cs g : g ∈ group_clauses cs -> grouped cs g.
Proof.
  unfold group_clauses. assert (forall l gs, (forall c, c ∈ l -> c ∈ cs) -> (forall g, g ∈ gs -> grouped cs g) ->
    forall g, g ∈ fold_left (fun gs c => if Nat.eqb (length (var_set c)) (length c) then add_group (var_set c) c gs else gs) l gs -> grouped cs g) as H.
  { induction l as [| c l IH]; intros gs Hl Hg; [exact Hg |]. cbn [fold_left]. apply IH; [intros d Hd; apply Hl; right; exact Hd |].
    destruct (Nat.eqb_spec (length (var_set c)) (length c)); [| exact Hg]. apply add_group_ok; auto. apply Hl. left. }
  apply H; [auto |]. intros g' Hg'. apply elem_of_nil in Hg'. destruct Hg'.
Qed.
Lemma var_set_elem c v : v ∈ var_set c <-> v ∈ map fst c.
Proof. unfold var_set. rewrite (merge_sort_Permutation le (remove_dups (map fst c))). apply elem_of_remove_dups. Qed.
Lemma var_set_nodup c : NoDup (var_set c).
Proof. unfold var_set. rewrite (merge_sort_Permutation le (remove_dups (map fst c))). apply NoDup_remove_dups. Qed.
Lemma remove_dups_length {A} `{EqDecision A} (l : list A) : (length (remove_dups l) <= length l)%nat /\ (length (remove_dups l) = length l -> NoDup l).
Proof.
  induction l as [| a l [IH1 IH2]]; [split; [auto | intros; constructor] |]. cbn [remove_dups]. case_decide as D; cbn [length]; [split; [lia | intros; lia] |].
  split; [lia |]. intros E. constructor; [exact D | apply IH2; lia].
Qed.
Lemma clause_nodup c : length (var_set c) = length c -> NoDup (map fst c).
Proof.
  intros H. apply (remove_dups_length (map fst c)). unfold var_set in H. rewrite (Permutation_length (merge_sort_Permutation le (remove_dups (map fst c)))) in H. rewrite H, map_length. reflexivity.
Qed.

(** ** The assignment a clause forbids. *)
Lemma tb_lor a b c : N.testbit_nat (N.lor a b) c = N.testbit_nat a c || N.testbit_nat b c.
Proof. rewrite <- !Ntestbit_Nbit. apply N.lor_spec. Qed.
Lemma forbidden_bits vars c i : N.testbit_nat (forbidden vars c) i = existsb (fun l => negb (l : nat * bool).2 && Nat.eqb i (default 0 (row_of vars l.1))) c.
Proof.
  unfold forbidden. assert (forall c a, N.testbit_nat (fold_left (fun a l => if (l : nat * bool).2 then a else N.lor a (2 ^ N.of_nat (default 0 (row_of vars l.1)))) c a) i
    = N.testbit_nat a i || existsb (fun l => negb (l : nat * bool).2 && Nat.eqb i (default 0 (row_of vars l.1))) c) as H; [| rewrite H, tb_0; reflexivity].
  clear c. induction c as [| [v p] c IH]; intros a; [cbn; rewrite orb_false_r; reflexivity |]. cbn [fold_left existsb snd fst]. rewrite IH. destruct p; cbn [negb andb]; [reflexivity |].
  rewrite tb_lor, tb_pow. rewrite orb_assoc. reflexivity.
Qed.
(** The assignment of the group's variables as a number. *)
Fixpoint mask_of (x : nat -> bool) (vars : list nat) (i : nat) : N :=
  match vars with [] => 0 | v :: vars => N.lor (if x v then 2 ^ N.of_nat i else 0) (mask_of x vars (S i)) end.
Lemma mask_bits x vars : forall i c, N.testbit_nat (mask_of x vars i) c = match vars !! (c - i)%nat with Some v => (Nat.leb i c) && x v | None => false end.
Proof.
  induction vars as [| v l IH]; intros i c; cbn [mask_of]; [rewrite lookup_nil; apply tb_0 |]. rewrite tb_lor, IH.
  destruct (Nat.leb_spec (S i) c).
  - replace (c - i)%nat with (S (c - S i)) by lia. cbn [lookup list_lookup]. rewrite (proj2 (Nat.leb_le i c)) by lia.
    replace (N.testbit_nat (if x v then 2 ^ N.of_nat i else 0) c) with false; [reflexivity |]. destruct (x v); [rewrite tb_pow; symmetry; apply Nat.eqb_neq; lia | symmetry; apply tb_0].
  - destruct (Nat.leb_spec i c).
    + replace c with i by lia. replace (i - i)%nat with 0%nat by lia. cbn. replace (match l !! (i - S i)%nat with Some _ => false | None => false end) with false by (destruct (l !! _); reflexivity).
      rewrite orb_false_r. destruct (x v); [rewrite tb_pow, Nat.eqb_refl; reflexivity | apply tb_0].
    + replace (match l !! (c - S i)%nat with Some _ => false && _ | None => false end) with false by (destruct (l !! _); reflexivity).
      rewrite orb_false_r. replace (c - i)%nat with 0%nat by lia. cbn. destruct (x v); [rewrite tb_pow; apply Nat.eqb_neq; lia | apply tb_0].
Qed.
Lemma mask_forbidden x vars c : var_set c = vars -> length (var_set c) = length c -> forbidden vars c = mask_of x vars 0 -> existsb (lit_holds x) c = false.
Proof.
  intros Hv Hl E. apply not_true_is_false. intros H. apply existsb_exists in H as ([v p] & Hc & Hx). unfold lit_holds in Hx. cbn in Hx. apply eqb_prop in Hx.
  pose proof (clause_nodup c Hl) as Nd. assert (v ∈ vars) as Mv by (rewrite <- Hv; apply var_set_elem, elem_of_list_In, (in_map fst c (v, p)), Hc).
  destruct (row_of vars v) as [i |] eqn:Ri; [| apply row_of_none in Ri; contradiction]. pose proof (row_of_some _ _ _ Ri) as Li.
  assert (N.testbit_nat (forbidden vars c) i = x v) as B by (rewrite E, mask_bits; rewrite Nat.sub_0_r, Li; reflexivity).
  rewrite forbidden_bits, Hx in B. destruct p.
  - apply existsb_exists in B as ([w q] & Hw & B). cbn in B. apply andb_true_iff in B as [Bq Bi]. apply Nat.eqb_eq in Bi. destruct q; [discriminate |].
    assert (w ∈ vars) as Mw by (rewrite <- Hv; apply var_set_elem, elem_of_list_In, (in_map fst c (w, false)), Hw).
    destruct (row_of vars w) as [j |] eqn:Rj; [| apply row_of_none in Rj; contradiction]. cbn in Bi. subst j. apply row_of_some in Rj. assert (w = v) as -> by congruence.
    clear -Nd Hc Hw. induction c as [| [a b] c IH]; [destruct Hc |]. cbn in Nd. apply NoDup_cons in Nd as [N1 N2]. cbn in Hc, Hw.
    destruct Hc as [Hc | Hc], Hw as [Hw | Hw]; [congruence | | | exact (IH Hc N2 Hw)].
    + injection Hc as -> ->. apply N1, elem_of_list_In, (in_map fst c (v, false)), Hw.
    + injection Hw as -> ->. apply N1, elem_of_list_In, (in_map fst c (v, true)), Hc.
  - assert (existsb (fun l : nat * bool => negb l.2 && Nat.eqb i (default 0 (row_of vars l.1))) c = true) as T; [| congruence].
    apply existsb_exists. exists (v, false). split; [exact Hc |]. cbn. rewrite Ri. cbn. apply Nat.eqb_refl.
Qed.

(** ** Half of the assignments have each parity. *)
Definition odd_bits (a : N) : bool := psum 32 (fun i => N.testbit_nat a i).
Lemma ones_odd a : Nat.odd (ones a) = odd_bits a.
Proof. unfold ones, odd_bits. rewrite parity_odd. 
  assert (forall K, parity (fun i => N.testbit_nat a i) (seq 0 K) = psum K (fun i => N.testbit_nat a i)) as H; [| apply (H 32%nat)].
  induction K as [| K IH]; [reflexivity |]. rewrite seq_S, lsum_app, IH. cbn. rewrite xorb_false_r. reflexivity.
Qed.
Lemma tb_small k a : (forall c, (k <= c)%nat -> N.testbit_nat a c = false) -> (a < 2 ^ N.of_nat k)%N.
Proof.
  intros H. assert (a = a mod 2 ^ N.of_nat k)%N as ->; [| apply N.mod_lt, N.pow_nonzero; discriminate]. apply N.bits_inj. intros i.
  destruct (N.lt_ge_cases i (N.of_nat k)) as [L | L]; [rewrite N.mod_pow2_bits_low by exact L; reflexivity |]. rewrite N.mod_pow2_bits_high by exact L.
  rewrite <- (N2Nat.id i), Ntestbit_Nbit. apply H. lia.
Qed.
Lemma small_tb k a c : (a < 2 ^ N.of_nat k)%N -> (k <= c)%nat -> N.testbit_nat a c = false.
Proof. intros H L. rewrite <- Ntestbit_Nbit. rewrite <- (N.mod_small a (2 ^ N.of_nat k)) by exact H. apply N.mod_pow2_bits_high. lia. Qed.
Lemma half_covers k p (L : list N) : (1 <= k <= 32)%nat -> NoDup L -> (forall a, a ∈ L -> (a < 2 ^ N.of_nat k)%N /\ odd_bits a = p) -> length L = (2 ^ (k - 1))%nat ->
  forall a, (a < 2 ^ N.of_nat k)%N -> odd_bits a = p -> a ∈ L.
Proof.
  intros Hk Nd HL Len a Ha Pa. set (g := fun a => N.lxor a (2 ^ N.of_nat 0)).
  assert (forall b, odd_bits (g b) = negb (odd_bits b)) as Og.
  { intros b. unfold odd_bits. rewrite (psum_ext 32 (fun i => N.testbit_nat (g b) i) (fun i => xorb (N.testbit_nat b i) (Nat.eqb i 0))) by (intros i _; unfold g; rewrite tb_lxor, tb_pow; reflexivity).
    rewrite psum_xor, (psum_single 32 (fun i => Nat.eqb i 0) 0) by (try lia; intros i _ Hi; apply Nat.eqb_neq; exact Hi). cbn [Nat.eqb]. apply xorb_true_r. }
  assert (forall b c, g b = g c -> b = c) as Inj by (intros b c H; apply (f_equal (fun z => N.lxor z (2 ^ N.of_nat 0))) in H; unfold g in H; rewrite !N.lxor_assoc, !N.lxor_nilpotent, !N.lxor_0_r in H; exact H).
  assert (forall b, (b < 2 ^ N.of_nat k)%N -> (g b < 2 ^ N.of_nat k)%N) as Sm.
  { intros b Hb. apply tb_small. intros c Hc. unfold g. rewrite tb_lxor, tb_pow, (small_tb k b c Hb Hc). destruct (Nat.eqb_spec c 0); [lia | reflexivity]. }
  assert (incl (map N.of_nat (seq 0 (2 ^ k))) (L ++ map g L)) as Inc.
  { apply List.NoDup_length_incl.
    - apply NoDup_ListNoDup. apply NoDup_app. split; [exact Nd |]. split.
      + intros b Hb Hgb. apply elem_of_list_In, in_map_iff in Hgb as (c & <- & Hc). apply elem_of_list_In in Hc. destruct (HL _ Hb) as [_ P1], (HL _ Hc) as [_ P2]. rewrite Og, P2 in P1. destruct p; discriminate.
      + apply (NoDup_fmap_2_strong g); [intros; apply Inj; assumption | exact Nd].
    - rewrite app_length, !map_length, seq_length, Len. destruct k as [| k]; [lia |]. replace (S k - 1)%nat with k by lia. cbn [Nat.pow]. lia.
    - intros b Hb. assert (b < 2 ^ N.of_nat k)%N as Lb.
      { apply in_app_or in Hb as [Hb | Hb]; [apply HL, elem_of_list_In, Hb |]. apply in_map_iff in Hb as (c & <- & Hc). apply Sm, HL, elem_of_list_In, Hc. }
      apply in_map_iff. exists (N.to_nat b). split; [apply N2Nat.id |]. apply in_seq. split; [lia |]. cbn. pose proof (Nat2N.inj_pow 2 k) as E. change (N.of_nat 2) with 2%N in E. lia. }
  assert (In a (L ++ map g L)) as M.
  { apply Inc. apply in_map_iff. exists (N.to_nat a). split; [apply N2Nat.id |]. apply in_seq. split; [lia |]. cbn. pose proof (Nat2N.inj_pow 2 k) as E. change (N.of_nat 2) with 2%N in E. lia. }
  apply in_app_or in M as [M | M]; [apply elem_of_list_In; exact M |]. apply in_map_iff in M as (c & <- & Hc). apply elem_of_list_In, HL in Hc as [_ Hc]. rewrite Og, Hc in Pa. destruct p; discriminate.
Qed.
(** What the checks of a group establish. *)
Lemma gadget_parity_ok vars cs : forall seen par r, gadget_parity vars seen par cs = Some r ->
  NoDup (map (forbidden vars) cs) /\ (forall a, a ∈ map (forbidden vars) cs -> a ∉ seen) /\
  (forall p, r = Some p -> forall a, a ∈ map (forbidden vars) cs -> odd_bits a = p) /\ (par <> None -> r = par) /\ (cs <> [] -> r <> None).
Proof.
  induction cs as [| c cs IH]; intros seen par r H; cbn [gadget_parity] in H.
  - injection H as <-. cbn. split; [constructor |]. split; [intros a Ha; apply elem_of_nil in Ha; destruct Ha |]. split; [intros p _ a Ha; apply elem_of_nil in Ha; destruct Ha |]. split; [auto | congruence].
  - destruct (bool_decide_reflect (forbidden vars c ∈ seen)) as [M | M]; [discriminate |]. cbv zeta in H. rewrite ones_odd in H. set (q := odd_bits (forbidden vars c)) in *.
    assert (gadget_parity vars (forbidden vars c :: seen) (Some q) cs = Some r /\ (par <> None -> par = Some q)) as [H' Hq].
    { destruct par as [q0 |]; [| split; [exact H | congruence]]. destruct (Bool.eqb q0 q) eqn:E; [| discriminate]. apply eqb_prop in E. subst q0. auto. }
    destruct (IH _ _ _ H') as (N1 & S1 & P1 & R1 & _). assert (r = Some q) as Er by (apply R1; discriminate). cbn [map]. split; [| split; [| split; [| split]]].
    + constructor; [| exact N1]. intros Ha. apply (S1 _ Ha). left.
    + intros a Ha. apply elem_of_cons in Ha as [-> | Ha]; [exact M |]. intros Hs. apply (S1 a Ha). right. exact Hs.
    + intros p Hp a Ha. rewrite Er in Hp. injection Hp as <-. apply elem_of_cons in Ha as [-> | Ha]; [reflexivity | apply (P1 q Er a Ha)].
    + intros Hn. rewrite (Hq Hn). exact Er.
    + rewrite Er. discriminate.
Qed.
Lemma parity_mask x vars : (length vars <= 32)%nat -> odd_bits (mask_of x vars 0) = parity x vars.
Proof.
  intros L. unfold odd_bits. rewrite (psum_ext 32 _ (fun i => match vars !! i with Some v => x v | None => false end)) by (intros i _; rewrite mask_bits, Nat.sub_0_r; reflexivity).
  rewrite (psum_more (length vars) 32) by (auto; intros i Hi; rewrite lookup_ge_None_2 by exact Hi; reflexivity). clear L.
  induction vars as [| v l IH] using rev_ind; [reflexivity |]. rewrite app_length, Nat.add_comm, lsum_app, <- IH. cbn [length Nat.add psum parity]. f_equal.
  - apply psum_ext. intros i Hi. rewrite lookup_app_l by exact Hi. reflexivity.
  - rewrite lookup_app_r, Nat.sub_diag by lia. cbn. rewrite xorb_false_r. reflexivity.
Qed.
(** A recognised group implies its equation. *)
Lemma gadget_sound cs g eq x : grouped cs g -> gadget g = Some eq -> forallb (existsb (lit_holds x)) cs = true -> xvars eq = g.1 /\ parity x (xvars eq) = xrhs eq.
Proof.
  intros G H T. unfold gadget in H. destruct (Nat.eqb_spec (length g.1) 0) as [| K0]; [discriminate |]. destruct (Nat.ltb_spec 31 (length g.1)) as [| K1]; [discriminate |].
  destruct (Nat.eqb_spec (length g.2) (2 ^ (length g.1 - 1))) as [Len | ]; [| discriminate]. cbn [orb negb] in H.
  destruct (gadget_parity g.1 [] None g.2) as [r |] eqn:E; [| discriminate]. cbn in H. injection H as <-. cbn [xvars xrhs]. split; [reflexivity |].
  destruct (gadget_parity_ok _ _ _ _ _ E) as (Nd & _ & P & _ & Ne). destruct r as [p |].
  2: { exfalso. apply Ne; [| reflexivity]. intros Z. rewrite Z in Len. cbn in Len. pose proof (Nat.pow_nonzero 2 (length g.1 - 1) ltac:(lia)). lia. }
  cbn [default]. destruct (Bool.bool_dec (parity x g.1) p) as [Q | Q]; [exfalso | cbn; destruct (parity x g.1), p; cbn; congruence].
  assert (mask_of x g.1 0 ∈ map (forbidden g.1) g.2) as M.
  { apply (half_covers (length g.1) p); [lia | exact Nd | | rewrite map_length; exact Len | | rewrite parity_mask by lia; exact Q].
    - intros a Ha. split; [| exact (P p eq_refl a Ha)]. apply elem_of_list_In, in_map_iff in Ha as (c & <- & Hc). apply elem_of_list_In, G in Hc as (_ & Hv & Hl). apply tb_small. intros i Hi. rewrite forbidden_bits.
      apply not_true_is_false. intros B. apply existsb_exists in B as ([v q] & Hvc & B). cbn in B. apply andb_true_iff in B as [_ B]. apply Nat.eqb_eq in B.
      assert (v ∈ g.1) as Mv by (rewrite <- Hv; apply var_set_elem, elem_of_list_In, (in_map fst c (v, q)), Hvc). destruct (row_of g.1 v) as [j |] eqn:Rj; [| apply row_of_none in Rj; contradiction].
      apply row_of_some, lookup_lt_Some in Rj. cbn in B. lia.
    - apply tb_small. intros i Hi. rewrite mask_bits, Nat.sub_0_r, lookup_ge_None_2 by exact Hi. reflexivity. }
  apply elem_of_list_In, in_map_iff in M as (c & Ec & Hc). apply elem_of_list_In, G in Hc as (Hcs & Hv & Hl). pose proof (mask_forbidden x g.1 c Hv Hl Ec) as F.
  rewrite forallb_forall in T. apply elem_of_list_In, T in Hcs. congruence.
Qed.
Lemma gadget_nonempty g eq : gadget g = Some eq -> g.2 <> [].
Proof.
  unfold gadget. intros H Z. destruct (Nat.eqb_spec (length g.2) (2 ^ (length g.1 - 1))) as [Len |].
  - rewrite Z in Len. cbn [length] in Len. pose proof (Nat.pow_nonzero 2 (length g.1 - 1) ltac:(lia)). lia.
  - cbn [negb] in H. rewrite orb_true_r in H. discriminate.
Qed.
(** The parity refutation never fires on a satisfiable formula. *)
Theorem C71_parity_sound e I : refute_via_parity e = true -> truth_with I e = false.
Proof.
  intros H. destruct (truth_with I e) eqn:T; [exfalso | reflexivity]. unfold refute_via_parity in H. destruct (collect_clauses e ∅) as [[cs idx] |] eqn:C; [| discriminate].
  destruct (collect_clauses_ok _ _ _ _ iwf_empty C) as (W & _ & Rg & Tr). destruct (agrees_exists I idx W) as [x A]. rewrite (Tr I x A) in T.
  destruct (omap gadget (group_clauses cs)) as [| e0 es0] eqn:Eo; [discriminate |]. destruct (xor_solve (e0 :: es0) (size idx)) as [| idxs] eqn:So; [discriminate |]. rewrite <- Eo in So.
  set (l := x <$> seq 0 (size idx)). assert (length l = size idx) as Ll by (unfold l; rewrite fmap_length, seq_length; reflexivity).
  assert (forall v, (v < size idx)%nat -> val l v = x v) as Vl.
  { intros v Hv. unfold val, l. rewrite list_lookup_fmap. assert (seq 0 (size idx) !! v = Some v) as -> by (replace v with (0 + v)%nat at 2 by lia; apply lookup_seq; auto). reflexivity. }
  assert (xor_satisfies (omap gadget (group_clauses cs)) l = true) as S.
  { apply satisfies_iff. intros eq Heq. apply elem_of_list_omap in Heq as (g & Hg & Eg). apply group_clauses_ok in Hg. destruct (gadget_sound cs g eq x Hg Eg T) as [Ev Ep].
    unfold holds. rewrite <- Ep. assert (forall v, v ∈ xvars eq -> val l v = x v) as Hv.
    { intros v Hv. apply Vl. rewrite Ev in Hv. destruct g as [vars gs]. cbn in Hv, Ev. destruct gs as [| c gs].
      - exfalso. exact (gadget_nonempty _ _ Eg eq_refl).
      - destruct (Hg c ltac:(left)) as (Hc & Hs & _). cbn in Hs. rewrite <- Hs in Hv. apply var_set_elem, elem_of_list_In, in_map_iff in Hv as ([w q] & <- & Hw). apply (Rg c (w, q) Hc), elem_of_list_In, Hw. }
    clear -Hv. induction (xvars eq) as [| v vs IH]; [reflexivity |]. cbn. rewrite IH by (intros w Hw; apply Hv; right; exact Hw). rewrite (Hv v) by left. reflexivity. }
  pose proof (C71_solve_certified (omap gadget (group_clauses cs)) (size idx)) as Ce. rewrite So in Ce. rewrite (C71_refutation_sound _ _ _ l Ce) in S by lia. discriminate.
Qed.
(** The order in which the hash map yields the groups does not matter. *)
Theorem C71_order_irrelevant eqs eqs' n : eqs ≡ₚ eqs' -> (exists x, xor_solve eqs n = XSat x) <-> (exists x, xor_solve eqs' n = XSat x).
Proof.
  intros P. rewrite !C71_solve_decides. assert (forall x, xor_satisfies eqs x = true <-> xor_satisfies eqs' x = true) as H.
  { intros x. rewrite !satisfies_iff. unfold model. split; intros K e He; apply K; [rewrite P | rewrite <- P]; exact He. }
  split; intros (x & L & S); exists x; (split; [exact L | apply H; exact S]).
Qed.

(** ** Examples: an inconsistent triangle, and a gadget read back from clauses. *)
Definition triangle (r : bool) : list xor_eq := [XorEq [0; 1]%nat true; XorEq [1; 2]%nat true; XorEq [0; 2; 2; 2]%nat r].
Example C71_example : xor_solve (triangle true) 3 = XUnsat [0; 1; 2]%nat /\ xor_solve (triangle false) 3 = XSat [false; true; false]
  /\ is_refutation (triangle true) 3 [0; 1; 2]%nat = true /\ is_refutation (triangle false) 3 [0; 1; 2]%nat = false /\ is_refutation (triangle true) 3 [0; 1]%nat = false.
Proof. vm_compute. repeat split. Qed.
Definition neq (a b : string) : pexpr := EBin CAnd (EBin COr (EAtom a) (EAtom b)) (EBin COr (ENot (EAtom a)) (ENot (EAtom b))).
Example C71_parity_example : refute_via_parity (EBin CAnd (neq "p" "q") (EBin CAnd (neq "q" "r") (neq "p" "r"))) = true
  /\ refute_via_parity (EBin CAnd (neq "p" "q") (neq "q" "r")) = false.
Proof. vm_compute. repeat split. Qed.
