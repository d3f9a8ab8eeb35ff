(** C74 continued: refuting formulas, the cardinality theory, coefficient symmetries. *)
From Coq Require Import List Arith ZArith Bool String Lia.
From stdpp Require Import gmap list.
From Verif Require Import RupModel UnifyModel CnfProofs GaussModel XorParity PbModel PbProofs PbProps.
Local Open Scope Z_scope.
Local Open Scope list_scope.

(** ** Formulas *)
Lemma flatten_truth I e : truth_with I e = forallb (truth_with I) (flatten_and e).
Proof.
  induction e as [p ts w | a b | s | k p IHp q IHq | p IHp | qu x b IHb | o a IHa | o a IHa b IHb | n]; try (cbn [flatten_and forallb]; rewrite andb_true_r; reflexivity).
  destruct k; try (cbn [flatten_and forallb]; rewrite andb_true_r; reflexivity). cbn [flatten_and truth_with]. rewrite forallb_app, IHp, IHq. reflexivity.
Qed.
Lemma disjunction_truth I e : forall names, positive_disjunction e = Some names -> truth_with I e = existsb (fun s => I (EAtom s)) names.
Proof.
  induction e as [p ts w | a b | s | k p IHp q IHq | p IHp | qu x b IHb | o a IHa | o a IHa b IHb | n]; intros names E; try discriminate E.
  - injection E as <-. cbn [existsb]. rewrite orb_false_r. reflexivity.
  - destruct k; try discriminate E. cbn [positive_disjunction] in E. destruct (positive_disjunction p) as [a |]; [| discriminate]. destruct (positive_disjunction q) as [b |]; [| discriminate].
    injection E as <-. rewrite existsb_app. cbn [truth_with]. rewrite (IHp a eq_refl), (IHq b eq_refl). reflexivity.
Qed.
Lemma exclusion_truth I e a b : exclusion_pair e = Some (a, b) -> truth_with I e = negb (I (EAtom a) && I (EAtom b)).
Proof.
  intros E.
  destruct e as [p ts w | x y | s | k p q | p | qu x b' | o x | o x y | n]; try discriminate E.
  - destruct k; try discriminate E. destruct p as [| | | | p | | | |]; try discriminate E. destruct p; try discriminate E. destruct q as [| | | | q | | | |]; try discriminate E. destruct q; try discriminate E.
    injection E as <- <-. cbn [truth_with]. rewrite negb_andb. reflexivity.
  - destruct p as [| | | k p q | | | | |]; try discriminate E. destruct k; try discriminate E. destruct p; try discriminate E. destruct q; try discriminate E. injection E as <- <-. reflexivity.
Qed.
Lemma intern_all_ok names : forall idx vs idx', iwf idx -> intern_all idx names = (vs, idx') -> iwf idx' /\ idx ⊆ idx' /\ (forall s, s ∈ names -> exists v, v ∈ vs /\ idx' !! s = Some v).
Proof.
  induction names as [| s names IH]; intros idx vs idx' Hi E; cbn [intern_all] in E.
  - injection E as <- <-. split; [exact Hi |]. split; [reflexivity |]. intros s H. apply elem_of_nil in H as [].
  - destruct (intern idx s) as [v i1] eqn:E1. destruct (intern_all i1 names) as [ws i2] eqn:E2. injection E as <- <-.
    destruct (intern_ok _ _ _ _ Hi E1) as (H1 & S1 & L1). destruct (IH _ _ _ H1 E2) as (H2 & S2 & L2). split; [exact H2 |]. split; [etransitivity; eassumption |].
    intros t Ht. apply elem_of_cons in Ht as [-> | Ht]; [exists v; split; [left | eapply lookup_weaken; eassumption] |]. destruct (L2 t Ht) as (w & Iw & Lw). exists w. split; [right; exact Iw | exact Lw].
Qed.
Lemma extract_ok l : forall idx rows excl n, iwf idx -> extract idx l = Some (rows, excl, n) ->
  exists idx', iwf idx' /\ idx ⊆ idx' /\ forall I x, agrees I x idx' -> (forall e, e ∈ l -> truth_with I e = true) ->
    (forall row, row ∈ rows -> exists v, v ∈ row /\ x v = true) /\ (forall p, p ∈ excl -> x (fst p) && x (snd p) = false).
Proof.
  induction l as [| c l IH]; intros idx rows excl n Hi E; cbn [extract] in E.
  - injection E as <- <- _. exists idx. split; [exact Hi |]. split; [reflexivity |]. intros I x _ _. split; intros p H; apply elem_of_nil in H as [].
  - destruct (positive_disjunction c) as [atoms |] eqn:Ep.
    + destruct (intern_all idx atoms) as [row i1] eqn:E1. destruct (extract i1 l) as [[[rows' excl'] n'] |] eqn:E2; [| discriminate]. cbn in E. injection E as <- <- <-.
      destruct (intern_all_ok _ _ _ _ Hi E1) as (H1 & S1 & L1). destruct (IH _ _ _ _ H1 E2) as (i' & H' & S' & K). exists i'. split; [exact H' |]. split; [etransitivity; eassumption |].
      intros I x A T. destruct (K I x A) as [K1 K2]; [intros e He; apply T; right; exact He |]. split; [| exact K2]. intros r Hr. apply elem_of_cons in Hr as [-> | Hr]; [| apply K1, Hr].
      assert (Tc : truth_with I c = true) by (apply T; left). rewrite (disjunction_truth I c _ Ep) in Tc. apply existsb_exists in Tc as (s & Is & Vs). apply elem_of_list_In in Is.
      destruct (L1 s Is) as (v & Iv & Lv). exists v. split; [exact Iv |]. rewrite (A s v); [exact Vs | eapply lookup_weaken; eassumption].
    + destruct (exclusion_pair c) as [[a b] |] eqn:Ex; [| discriminate]. destruct (intern idx a) as [va i1] eqn:E1. destruct (intern i1 b) as [vb i2] eqn:E1'. destruct (extract i2 l) as [[[rows' excl'] n'] |] eqn:E2; [| discriminate]. cbn in E. injection E as <- <- <-.
      destruct (intern_ok _ _ _ _ Hi E1) as (H1 & S1 & L1). destruct (intern_ok _ _ _ _ H1 E1') as (H2 & S2 & L2). destruct (IH _ _ _ _ H2 E2) as (i' & H' & S' & K). exists i'. split; [exact H' |]. split; [do 2 (etransitivity; [eassumption |]); exact S' |].
      intros I x A T. destruct (K I x A) as [K1 K2]; [intros e He; apply T; right; exact He |]. split; [exact K1 |]. intros p Hp. apply elem_of_cons in Hp as [-> | Hp]; [| apply K2, Hp].
      assert (Tc : truth_with I c = true) by (apply T; left). rewrite (exclusion_truth I c _ _ Ex) in Tc. cbn [fst snd]. rewrite (A a va), (A b vb); [apply negb_true_iff, Tc | eapply lookup_weaken; eassumption |].
      eapply lookup_weaken; [| exact S']. eapply lookup_weaken; eassumption.
Qed.
Lemma add_member_perm r v g : concat (map snd (add_member r v g)) ≡ₚ v :: concat (map snd g).
Proof.
  induction g as [| [q vs] g IH]; [reflexivity |]. cbn [add_member]. destruct (Nat.eqb r q); cbn [map concat snd].
  - rewrite <- app_assoc. symmetry. apply Permutation_middle.
  - rewrite IH. symmetry. apply Permutation_middle.
Qed.
Lemma components_nodup n excl g : g ∈ components n excl -> NoDup g.
Proof.
  unfold components. set (p := fold_left (uf_union n) excl (seq 0 n)). clearbody p.
  assert (A : forall l p g0, concat (map snd (snd (fold_left (fun st v => let '(p, g) := st in let '(r, p) := uf_find n p v in (p, add_member r v g)) l (p, g0)))) ≡ₚ l ++ concat (map snd g0)).
  { clear. induction l as [| v l IH]; intros p g0; [reflexivity |]. cbn [fold_left]. destruct (uf_find n p v) as [r p']. rewrite IH, add_member_perm. symmetry. apply Permutation_middle. }
  intros I. specialize (A (seq 0 n) p []). cbn [map concat] in A. rewrite app_nil_r in A.
  assert (N0 : NoDup (concat (map snd (snd (fold_left (fun st v => let '(p, g) := st in let '(r, p) := uf_find n p v in (p, add_member r v g)) (seq 0 n) (p, [])))))).
  { rewrite A. apply NoDup_ListNoDup, seq_NoDup. }
  clear A. revert I N0. generalize (map snd (snd (fold_left (fun st v => let '(p, g) := st in let '(r, p) := uf_find n p v in (p, add_member r v g)) (seq 0 n) (p, [])))).
  intros gs I N0. induction gs as [| h gs IH]; [apply elem_of_nil in I as [] |]. cbn [concat] in N0. apply NoDup_app in N0 as (N1 & _ & N2). apply elem_of_cons in I as [-> | I]; [exact N1 | apply IH; assumption].
Qed.
Lemma row_slack x row : (exists v, v ∈ row /\ x v = true) -> 0 <= slack x (at_least (map (fun v => (v, true)) row) 1).
Proof.
  intros (v & Iv & Xv). unfold slack. rewrite lhs_msum. cbn [at_least degree terms].
  assert (A : forall l (m : gmap nat (Z * bool)), (v ∈ l \/ m !! v = Some (1, true)) -> fold_left (fun m e => <[fst e := snd e]> m) (map (fun l => (fst l, (1, snd l))) (map (fun v => (v, true)) l)) m !! v = Some (1, true)).
  { induction l as [| w l IH]; intros m H; cbn [map fold_left fst snd]; [destruct H as [H | H]; [apply elem_of_nil in H as [] | exact H] |]. apply IH.
    destruct (decide (w = v)) as [-> | D]; [right; apply lookup_insert |]. rewrite lookup_insert_ne by exact D. destruct H as [H | H]; [| right; exact H]. apply elem_of_cons in H as [-> | H]; [congruence | left; exact H]. }
  specialize (A row ∅ (or_introl Iv)). change (fold_left _ _ ∅) with (collect (map (fun l : nat * bool => (fst l, (1, snd l))) (map (fun v => (v, true)) row))) in A.
  rewrite (msum_delete _ _ _ _ A), contribution_eq, Xv. cbn [Bool.eqb]. enough (0 <= msum (contribution x) (delete v (collect (map (fun l : nat * bool => (fst l, (1, snd l))) (map (fun v => (v, true)) row))))) by lia.
  etransitivity; [| apply (msum_le (fun _ => 0))]. { unfold msum. rewrite sumz_const. lia. }
  intros w [y s] E. apply lookup_delete_Some in E as [_ E]. rewrite contribution_eq. pose proof (at_least_normal (map (fun v => (v, true)) row) 1 w y s E). destruct (Bool.eqb (x w) s); lia.
Qed.
Lemma clique_count x excl g : (forall p, p ∈ excl -> x (fst p) && x (snd p) = false) -> is_clique excl g = true -> count_true x (map (fun v => (v, true)) g) <= 1.
Proof.
  intros Hx. induction g as [| a g IH]; [intros _; vm_compute; discriminate |]. cbn [is_clique map]. intros H. apply andb_true_iff in H as [H1 H2]. rewrite count_cons. cbn [fst snd]. specialize (IH H2).
  destruct (x a) eqn:Ea; [| cbn; lia]. cbn [Bool.eqb]. assert (A : count_true x (map (fun v => (v, true)) g) = 0); [| lia].
  clear IH H2. induction g as [| b g IH]; [reflexivity |]. cbn [forallb] in H1. apply andb_true_iff in H1 as [H1 H2]. cbn [map]. rewrite count_cons, IH by exact H2. cbn [fst snd].
  enough (x b = false) as -> by reflexivity. unfold excluded in H1. apply existsb_exists in H1 as ([p q] & Ip & E). apply elem_of_list_In in Ip. apply bool_decide_eq_true in E. cbn [fst snd] in E. apply Hx in Ip. cbn [fst snd] in Ip.
  assert (B : (p = a /\ q = b) \/ (p = b /\ q = a)) by (injection E as E1 E2; lia). destruct B as [[-> ->] | [-> ->]]; rewrite Ea in Ip; [exact Ip | rewrite andb_true_r in Ip; exact Ip].
Qed.
(** A model of the formula satisfies the summed constraint. *)
Lemma clausal_sum_sound e c : clausal_sum e = Some c -> normal c /\ forall I, truth_with I e = true -> exists x, is_satisfied c x = true.
Proof.
  unfold clausal_sum, extract_clausal. destruct (extract ∅ (flatten_and e)) as [[[rows excl] n] |] eqn:E; [| discriminate]. destruct (length rows =? 0)%nat; [discriminate |].
  destruct (forallb (is_clique excl) _) eqn:Ec; [| discriminate]. intros Es. split.
  { apply (absorb_normal _ _ _ Es); [discriminate |]. intros d Id. apply elem_of_app in Id as [Id | Id]; apply elem_of_list_fmap in Id as (r & -> & _); [apply at_least_normal | apply at_most_normal]. }
  intros I T. destruct (extract_ok _ _ _ _ _ iwf_empty E) as (idx & Hi & _ & K). destruct (agrees_exists I idx Hi) as [x A]. exists x. apply satisfied_slack.
  destruct (K I x A) as [K1 K2]. { rewrite flatten_truth, forallb_forall in T. intros e' Ie. apply T, elem_of_list_In, Ie. }
  rewrite (absorb_none x _ _ Es), List.map_app, sumz_app, !List.map_map. apply Z.add_nonneg_nonneg.
  - clear Es. induction rows as [| r rows IH]; [reflexivity |]. cbn [map]. rewrite sumz_cons. apply Z.add_nonneg_nonneg; [apply row_slack, K1; left |].
    assert (A0 : forall row, row ∈ rows -> exists v, v ∈ row /\ x v = true) by (intros row Ir; apply K1; right; exact Ir). clear -A0. induction rows as [| r rows IH]; [reflexivity |]. cbn [map]. rewrite sumz_cons. apply Z.add_nonneg_nonneg; [apply row_slack, A0; left | apply IH; intros row Ir; apply A0; right; exact Ir].
  - rewrite forallb_forall in Ec. assert (B : forall g, g ∈ List.filter (fun g => negb (length g <? 2)%nat) (components n excl) -> NoDup g /\ is_clique excl g = true).
    { intros g Ig. apply elem_of_list_In in Ig. split; [| apply Ec, Ig]. apply filter_In in Ig as [Ig _]. apply (components_nodup n excl), elem_of_list_In, Ig. }
    clear Es Ec. induction (List.filter (fun g => negb (length g <? 2)%nat) (components n excl)) as [| g gs IH]; [reflexivity |]. cbn [map]. rewrite sumz_cons. apply Z.add_nonneg_nonneg; [| apply IH; intros h Ih; apply B; right; exact Ih].
    destruct (B g) as [Bn Bc]; [left |]. apply satisfied_slack. apply C74_at_least; [rewrite List.map_map, List.map_id; exact Bn |]. apply (clique_count x excl); assumption.
Qed.
(** A formula is unsatisfiable when its summed constraint is contradictory, or becomes so by
    saturation at a non-negative degree. Missing: the saturated test at a negative degree, for
    which it is false. *)
Theorem C74_refute_partial e c I : clausal_sum e = Some c -> is_contradiction c = true \/ (0 <= degree c /\ is_contradiction (saturate c) = true) -> refute_clausal e = true /\ truth_with I e = false.
Proof.
  intros E H. split. { unfold refute_clausal. rewrite E. destruct H as [-> | [_ ->]]; [reflexivity | apply orb_true_r]. }
  destruct (clausal_sum_sound e c E) as [Hn K]. destruct (truth_with I e) eqn:T; [exfalso | reflexivity]. destruct (K I T) as [x Hx].
  destruct H as [H | [Hd H]].
  - rewrite (proj1 (C74_contradiction_exact c Hn) H x) in Hx. discriminate.
  - rewrite <- (C74_saturate_exact_partial c x Hn Hd) in Hx. destruct (decide (degree c = 0)) as [D | D].
    + unfold is_contradiction in H. cbn [saturate degree terms] in H. change (msum (fun e => fst (snd e)) ((fun t => (Z.min (fst t) (degree c), snd t)) <$> terms c) <? degree c = true) in H. apply Z.ltb_lt in H. rewrite msum_fmap in H. cbn [fst snd] in H.
      assert (0 <= msum (fun e => Z.min (fst (snd e)) (degree c)) (terms c)); [| lia]. etransitivity; [| apply (msum_le (fun _ => 0))]; [unfold msum; rewrite sumz_const; lia |].
      intros v [y s] Ev. apply Hn in Ev. cbn [fst snd]. lia.
    + assert (Hs : normal (saturate c)) by (apply C74_normal; [exact Hn | lia]). rewrite (proj1 (C74_contradiction_exact _ Hs) H x) in Hx. discriminate.
Qed.
(** The refuter reports a satisfiable formula as refuted. *)
Theorem C74_refute_refuted : exists e I, refute_clausal e = true /\ truth_with I e = true.
Proof.
  exists ex_unsound, (fun e => match e with EAtom s => bool_decide (s = "z"%string) || bool_decide (s = "w"%string) | _ => false end). split; vm_compute; reflexivity.
Qed.

(** ** The cardinality theory *)
Theorem C74_theory_new a lits k f : unit_literals a = Some (lits, k) -> is_satisfied a f = true <-> k <= count_true f lits.
Proof.
  unfold unit_literals. destruct (forallb _ _) eqn:E; [| discriminate]. intros [= <- <-]. unfold is_satisfied, pb_lhs. rewrite Z.leb_le.
  enough (sumz (map (contribution f) (map_to_list (terms a))) = count_true f (map (fun e => (fst e, snd (snd e))) (map_to_list (terms a)))) as -> by reflexivity.
  induction (map_to_list (terms a)) as [| [v [x s]] l IH]; [reflexivity |]. cbn [forallb fst snd] in E. apply andb_true_iff in E as [E1 E2]. apply Z.eqb_eq in E1. subst x.
  cbn [map]. rewrite sumz_cons, IH by exact E2. rewrite count_cons. reflexivity.
Qed.
Definition count_state (a : assign) (st : option bool) (lits : list (nat * bool)) : Z := Z.of_nat (length (with_state a st lits)).
Lemma with_state_in a st lits l : l ∈ with_state a st lits <-> l ∈ lits /\ lit_state a l = Some st.
Proof. unfold with_state. rewrite elem_of_list_In, filter_In, <- elem_of_list_In, bool_decide_eq_true. reflexivity. Qed.
Lemma states_total a lits : forallb (fun l => match lit_state a l with None => false | Some _ => true end) lits = true ->
  Z.of_nat (length lits) = count_state a (Some true) lits + count_state a (Some false) lits + count_state a None lits.
Proof.
  unfold count_state. induction lits as [| l lits IH]; [reflexivity |]. cbn [forallb]. intros H. apply andb_true_iff in H as [H1 H2]. specialize (IH H2). cbn [with_state List.filter length].
  fold (with_state a (Some true) lits). fold (with_state a (Some false) lits). fold (with_state a None lits).
  destruct (lit_state a l) as [[[] |] |]; try discriminate H1.
  - rewrite bool_decide_true, !bool_decide_false by congruence. cbn [length]. lia.
  - rewrite (bool_decide_false (Some (Some false) = Some (Some true))), (bool_decide_true (Some (Some false) = Some (Some false))), bool_decide_false by congruence. cbn [length]. lia.
  - rewrite !bool_decide_false by congruence. rewrite bool_decide_true by reflexivity. cbn [length]. lia.
Qed.
Lemma filter_submseteq (P : nat * bool -> bool) l : List.filter P l ⊆+ l.
Proof. induction l as [| x l IH]; [constructor |]. cbn [List.filter]. destruct (P x); [apply submseteq_skip, IH | apply submseteq_cons, IH]. Qed.
Lemma filter_le (P : nat * bool -> bool) l : (length (List.filter P l) <= length l)%nat.
Proof. apply submseteq_length, filter_submseteq. Qed.
Lemma count_submseteq f l l' : l ⊆+ l' -> Z.of_nat (length l) - count_true f l <= Z.of_nat (length l') - count_true f l'.
Proof.
  intros H. apply submseteq_Permutation in H as [k H]. rewrite (Permutation_length H). assert (A : count_true f l' = count_true f (l ++ k)).
  { unfold count_true. f_equal. assert (B : List.filter (fun l => Bool.eqb (f (fst l)) (snd l)) l' ≡ₚ List.filter (fun l => Bool.eqb (f (fst l)) (snd l)) (l ++ k)); [| apply (Permutation_length B)].
    clear - H. induction H as [| x l1 l2 H IH | x y l1 | l1 l2 l3 H1 IH1 H2 IH2]; cbn [List.filter]; [reflexivity | destruct (Bool.eqb (f (fst x)) (snd x)); [apply Permutation_skip |]; exact IH | | etransitivity; eassumption].
    destruct (Bool.eqb (f (fst x)) (snd x)), (Bool.eqb (f (fst y)) (snd y)); try reflexivity. apply Permutation_swap. }
  rewrite A, app_length. unfold count_true. rewrite List.filter_app, app_length. pose proof (filter_le (fun l => Bool.eqb (f (fst l)) (snd l)) k). lia.
Qed.
Lemma count_some_true f l : (0 < count_true f l) -> exists x, x ∈ l /\ f (fst x) = snd x.
Proof.
  unfold count_true. destruct (List.filter _ l) as [| x r] eqn:E; [cbn; lia |]. intros _. exists x. assert (I : In x (x :: r)) by (left; reflexivity). rewrite <- E in I. apply filter_In in I as [I H]. split; [apply elem_of_list_In, I | apply eqb_prop, H].
Qed.
Lemma count_all_false f l : (forall x, x ∈ l -> f (fst x) <> snd x) -> count_true f l = 0.
Proof. unfold count_true. intros H. destruct (List.filter _ l) as [| x r] eqn:E; [reflexivity |]. exfalso. assert (I : In x (x :: r)) by (left; reflexivity). rewrite <- E in I. apply filter_In in I as [I K]. apply (H x); [apply elem_of_list_In, I | apply eqb_prop, K]. Qed.
Lemma take_submseteq {A} (l : list A) k : take k l ⊆+ l.
Proof. rewrite <- (take_drop k l) at 2. apply submseteq_inserts_r. reflexivity. Qed.
Lemma all_propagated a cs : forall out cl, theory_propagate_all a cs = Some out -> cl ∈ out -> exists c o, c ∈ cs /\ card_propagate a c = Some o /\ cl ∈ o.
Proof.
  induction cs as [| c cs IH]; intros out cl E I; cbn [theory_propagate_all] in E; [injection E as <-; apply elem_of_nil in I as [] |].
  destruct (card_propagate a c) as [x |] eqn:E1; [| discriminate]. destruct (theory_propagate_all a cs) as [y |] eqn:E2; [| discriminate]. injection E as <-. apply elem_of_app in I as [I | I].
  - exists c, x. split; [left |]. split; assumption.
  - destruct (IH y cl eq_refl I) as (c' & o & Ic & Eo & Io). exists c', o. split; [right; exact Ic |]. split; assumption.
Qed.
(** Every clause the theory returns follows from its constraints. *)
Theorem C74_theory_entailed num_vars cs trail out cl f : theory_propagate num_vars cs trail = Some out -> cl ∈ out ->
  (forall lits k, (lits, k) ∈ cs -> k <= count_true f lits) -> exists l, l ∈ cl /\ f (lvar l) = lpos l.
Proof.
  unfold theory_propagate. destruct (trail_assign _ trail) as [a |]; [| discriminate]. cbn. intros E I Hf. destruct (all_propagated _ _ _ _ E I) as ([lits k] & o & Ic & Eo & Io). specialize (Hf lits k Ic). clear E I Ic.
  unfold card_propagate in Eo. destruct (Z.leb_spec k 0) as [H0 | H0]; [injection Eo as <-; apply elem_of_nil in Io as [] |].
  assert (Hle : count_true f lits <= Z.of_nat (length lits)). { unfold count_true. pose proof (filter_le (fun l => Bool.eqb (f (fst l)) (snd l)) lits). lia. }
  destruct (Z.ltb_spec (Z.of_nat (length lits)) k) as [H1 | H1]; [lia |]. destruct (forallb _ lits) eqn:Et; [| discriminate].
  destruct (Z.leb_spec k (Z.of_nat (length (with_state a (Some true) lits)))) as [H2 | H2]; [injection Eo as <-; apply elem_of_nil in Io as [] |].
  assert (K : forall sub, sub ⊆+ lits -> Z.of_nat (length lits) - k < Z.of_nat (length sub) -> exists l, l ∈ map to_lit sub /\ f (lvar l) = lpos l).
  { intros sub Hs Hl. apply (count_submseteq f) in Hs. destruct (count_some_true f sub) as ([v s] & Ix & Hx); [lia |]. exists (to_lit (v, s)). split; [apply elem_of_list_fmap; exists (v, s); auto | exact Hx]. }
  destruct (Z.ltb_spec (Z.of_nat (length lits) - k) (Z.of_nat (length (with_state a (Some false) lits)))) as [H3 | H3].
  - injection Eo as <-. apply elem_of_list_singleton in Io as ->. apply K; [etransitivity; [apply take_submseteq | apply filter_submseteq] |]. rewrite take_length. lia.
  - destruct (Z.eqb_spec (Z.of_nat (length (with_state a (Some false) lits))) (Z.of_nat (length lits) - k)) as [H4 | H4]; [| injection Eo as <-; apply elem_of_nil in Io as []].
    injection Eo as <-. apply elem_of_list_fmap in Io as (u & -> & Iu). destruct (K (with_state a (Some false) lits ++ [u])) as (l & Il & Hl).
    + assert (A : with_state a None lits ++ with_state a (Some false) lits ⊆+ lits).
      { clear. unfold with_state. induction lits as [| x lits IH]; [constructor |]. cbn [List.filter]. destruct (lit_state a x) as [[[] |] |].
        - rewrite !bool_decide_false by congruence. apply submseteq_cons, IH.
        - rewrite bool_decide_false, bool_decide_true by congruence. rewrite <- Permutation_middle. apply submseteq_skip, IH.
        - rewrite bool_decide_true, bool_decide_false by congruence. cbn [app]. apply submseteq_skip, IH.
        - rewrite !bool_decide_false by congruence. apply submseteq_cons, IH. }
      etransitivity; [| exact A]. rewrite Permutation_app_comm. apply submseteq_app; [apply singleton_submseteq_l, Iu | reflexivity].
    + rewrite app_length. cbn [length]. lia.
    + exists l. split; [| exact Hl]. rewrite List.map_app in Il. exact Il.
Qed.
(** And it is a conflict or a propagation: each literal is false on the trail, save at most the last. *)
Theorem C74_theory_unit num_vars cs trail out cl a : theory_propagate num_vars cs trail = Some out -> trail_assign (replicate num_vars None) trail = Some a -> cl ∈ out ->
  (forall l, l ∈ cl -> a !! lvar l = Some (Some (negb (lpos l)))) \/ (exists base l, cl = base ++ [l] /\ (forall l', l' ∈ base -> a !! lvar l' = Some (Some (negb (lpos l')))) /\ a !! lvar l = Some None).
Proof.
  unfold theory_propagate. intros E Ea. rewrite Ea in E. cbn in E. intros I. destruct (all_propagated _ _ _ _ E I) as ([lits k] & o & Ic & Eo & Io). clear E I Ic Ea.
  assert (F : forall l, l ∈ map to_lit (with_state a (Some false) lits) -> a !! lvar l = Some (Some (negb (lpos l)))).
  { intros l Il. apply elem_of_list_fmap in Il as ([v s] & -> & Il). apply with_state_in in Il as [_ Il]. unfold lit_state in Il. cbn [fst snd to_lit lvar lpos] in *. destruct (a !! v) as [[b |] |]; try discriminate. injection Il as Il. apply eqb_false_iff in Il. do 2 f_equal. destruct b, s; cbn; congruence. }
  unfold card_propagate in Eo. destruct (k <=? 0); [injection Eo as <-; apply elem_of_nil in Io as [] |]. destruct (Z.of_nat (length lits) <? k).
  { injection Eo as <-. apply elem_of_list_singleton in Io as ->. left. intros l Il. apply elem_of_nil in Il as []. }
  destruct (forallb _ lits); [| discriminate]. destruct (k <=? _); [injection Eo as <-; apply elem_of_nil in Io as [] |]. destruct (_ <? _).
  - injection Eo as <-. apply elem_of_list_singleton in Io as ->. left. intros l Il. apply F. apply elem_of_list_fmap in Il as (x & -> & Ix). apply elem_of_list_fmap. exists x. split; [reflexivity |]. eapply elem_of_submseteq; [exact Ix | apply take_submseteq].
  - destruct (_ =? _); injection Eo as <-; [| apply elem_of_nil in Io as []]. right. apply elem_of_list_fmap in Io as ([v s] & -> & Iu). eexists _, _. split; [reflexivity |]. split; [exact F |].
    apply with_state_in in Iu as [_ Iu]. unfold lit_state in Iu. cbn [fst snd to_lit lvar] in *. destruct (a !! v) as [[b |] |]; try discriminate. reflexivity.
Qed.
(** It misses nothing: with no clause returned, no constraint is violated, and none is down to its
    last literals unless it already holds. *)
Theorem C74_theory_complete num_vars cs trail a lits k : theory_propagate num_vars cs trail = Some [] -> trail_assign (replicate num_vars None) trail = Some a -> (lits, k) ∈ cs ->
  k <= count_state a (Some true) lits \/ k <= 0 \/ k < count_state a (Some true) lits + count_state a None lits.
Proof.
  unfold theory_propagate. intros E Ea. rewrite Ea in E. cbn in E. intros Ic.
  assert (Eo : card_propagate a (lits, k) = Some []).
  { clear Ea. revert E. induction cs as [| c cs IH]; [apply elem_of_nil in Ic as [] |]. cbn [theory_propagate_all]. destruct (card_propagate a c) as [x |] eqn:E1; [| discriminate]. destruct (theory_propagate_all a cs) as [y |] eqn:E2; [| discriminate].
    cbn. intros [= E]. apply app_eq_nil in E as [-> ->]. apply elem_of_cons in Ic as [<- | Ic]; [exact E1 | apply IH; [exact Ic | reflexivity]]. }
  unfold card_propagate in Eo. destruct (Z.leb_spec k 0) as [H0 | H0]; [tauto |]. destruct (Z.ltb_spec (Z.of_nat (length lits)) k) as [H1 | H1]; [discriminate |]. destruct (forallb _ lits) eqn:Et; [| discriminate].
  pose proof (states_total a lits Et) as Hs. unfold count_state in *.
  destruct (Z.leb_spec k (Z.of_nat (length (with_state a (Some true) lits)))) as [H2 | H2]; [left; exact H2 |]. right. right.
  destruct (Z.ltb_spec (Z.of_nat (length lits) - k) (Z.of_nat (length (with_state a (Some false) lits)))) as [H3 | H3]; [discriminate |].
  destruct (Z.eqb_spec (Z.of_nat (length (with_state a (Some false) lits))) (Z.of_nat (length lits) - k)) as [H4 | H4]; [| lia].
  injection Eo as Eo. apply map_eq_nil in Eo. rewrite Eo in *. cbn [length] in *. lia.
Qed.

(** ** Symmetries *)
Lemma msum_seq g : forall n m, (forall v t, m !! v = Some t -> (v < n)%nat) -> msum g m = sumz (map (fun v => match m !! v with Some t => g (v, t) | None => 0 end) (seq 0 n)).
Proof.
  induction n as [| n IH]; intros m H.
  - assert (m = ∅) as ->; [| apply msum_empty]. apply map_eq. intros v. rewrite lookup_empty. destruct (m !! v) as [t |] eqn:E; [apply H in E; lia | reflexivity].
  - rewrite seq_S, List.map_app, sumz_app. cbn [map Nat.add]. rewrite sumz_cons. cbn [sumz fold_right]. destruct (m !! n) as [t |] eqn:E.
    + rewrite (msum_delete _ _ _ _ E), (IH (delete n m)); [| intros v u Ev; apply lookup_delete_Some in Ev as [D Ev]; apply H in Ev; lia].
      rewrite (List.map_ext_in (fun v => match delete n m !! v with Some t0 => g (v, t0) | None => 0 end) (fun v => match m !! v with Some t => g (v, t) | None => 0 end)); [lia |].
      intros v Iv. apply in_seq in Iv. rewrite lookup_delete_ne by lia. reflexivity.
    + rewrite IH; [lia |]. intros v u Ev. pose proof (H v u Ev). destruct (decide (v = n)) as [-> | D]; [congruence | lia].
Qed.
(** A permutation of the variables that keeps every coefficient keeps every solution. *)
Theorem C74_symmetry_sound cs perm f : is_pb_symmetry cs perm = true -> NoDup perm -> (forall v, v ∈ perm -> (v < length perm)%nat) ->
  forall c, c ∈ cs -> (forall v t, terms c !! v = Some t -> (v < length perm)%nat) -> is_satisfied c (fun v => f (nth v perm v)) = is_satisfied c f.
Proof.
  intros H Hn Hr c Ic Hc. unfold is_satisfied. f_equal. rewrite !lhs_msum. rewrite !(msum_seq _ (length perm)) by exact Hc.
  unfold is_pb_symmetry in H. rewrite forallb_forall in H. specialize (H c). apply elem_of_list_In in Ic. specialize (H Ic). rewrite forallb_forall in H.
  set (h := fun w => match terms c !! w with Some t => contribution f (w, t) | None => 0 end).
  rewrite (List.map_ext_in _ (fun v => h (nth v perm v))).
  - rewrite <- (List.map_map (fun v => nth v perm v) h). apply sumz_perm, fmap_Permutation. transitivity perm.
    + assert (Em : map (fun v => nth v perm v) (seq 0 (length perm)) = perm); [| rewrite Em; reflexivity]. apply list_eq. intros i. destruct (decide (i < length perm)%nat) as [L | L].
      * rewrite list_lookup_fmap. rewrite (proj2 (lookup_seq 0 (length perm) i i)) by lia. cbn [fmap option_fmap option_map Nat.add]. destruct (lookup_lt_is_Some_2 perm i L) as [w Ew]. rewrite Ew. f_equal. apply nth_lookup_Some, Ew.
      * rewrite !lookup_ge_None_2; [reflexivity | lia | rewrite fmap_length, seq_length; lia].
    + apply NoDup_Permutation_bis; [apply NoDup_ListNoDup, Hn | rewrite seq_length; lia |]. intros v Iv. apply in_seq. apply elem_of_list_In, Hr in Iv. lia.
  - intros v Iv. apply in_seq in Iv. unfold h. destruct (lookup_lt_is_Some_2 perm v) as [w Ew]; [lia |]. rewrite (nth_lookup_Some _ _ _ _ Ew).
    specialize (H (v, w)). rewrite bool_decide_eq_true in H. cbn [fst snd] in H. rewrite H; [destruct (terms c !! v) as [[x s] |]; [rewrite !contribution_eq, (nth_lookup_Some _ _ _ _ Ew); reflexivity | reflexivity] |].
    apply elem_of_list_In, elem_of_list_lookup. exists v. apply lookup_zip_with_Some. exists v, w. split; [reflexivity |]. split; [| exact Ew]. apply (proj2 (lookup_seq 0 (length perm) v v)). lia.
Qed.
Definition grouped_by (n : nat) (cs : list pb) (seen : list nat) (g : list (list (option (Z * bool)) * list nat)) : Prop :=
  (forall p vs, (p, vs) ∈ g -> NoDup vs /\ forall v, v ∈ vs -> v ∈ seen /\ profile cs v = p) /\ (forall v, v ∈ seen -> forallb (fun t => match t with None => true | Some _ => false end) (profile cs v) = false -> exists vs, (profile cs v, vs) ∈ g /\ v ∈ vs)
  /\ NoDup (map fst g).
Lemma add_class_keys p v g : map fst (add_class p v g) = map fst g \/ (p ∉ map fst g /\ map fst (add_class p v g) = map fst g ++ [p]).
Proof.
  induction g as [| [q vs] g IH]; cbn [add_class map fst]; [right; split; [apply not_elem_of_nil | reflexivity] |]. destruct (bool_decide_reflect (p = q)) as [E | D]; cbn [map fst]; [left; reflexivity |].
  destruct IH as [-> | [N ->]]; [left; reflexivity | right]. split; [| reflexivity]. rewrite not_elem_of_cons. auto.
Qed.
Lemma add_class_in p v g q vs : (q, vs) ∈ add_class p v g -> (q, vs) ∈ g \/ (q = p /\ vs = [v]) \/ (q = p /\ exists ws, (p, ws) ∈ g /\ vs = ws ++ [v]).
Proof.
  induction g as [| [q' ws] g IH]; cbn [add_class]; intros I.
  - apply elem_of_list_singleton in I. injection I as -> ->. right. left. auto.
  - destruct (bool_decide_reflect (p = q')) as [-> | D].
    + apply elem_of_cons in I as [I | I]; [injection I as -> ->; right; right; split; [reflexivity |]; exists ws; split; [left | reflexivity] | left; right; exact I].
    + apply elem_of_cons in I as [-> | I]; [left; left |]. destruct (IH I) as [K | [K | (K & us & Iu & Eu)]]; [left; right; exact K | right; left; exact K | right; right; split; [exact K |]; exists us; split; [right; exact Iu | exact Eu]].
Qed.
Lemma add_class_has p v g : exists vs, (p, vs) ∈ add_class p v g /\ v ∈ vs.
Proof.
  induction g as [| [q ws] g (vs & I & Iv)]; cbn [add_class]; [exists [v]; split; left |]. destruct (bool_decide_reflect (p = q)) as [-> | D].
  - exists (ws ++ [v]). split; [left | apply elem_of_app; right; left].
  - exists vs. split; [right; exact I | exact Iv].
Qed.
Lemma add_class_keeps p v g q vs w : (q, vs) ∈ g -> w ∈ vs -> exists us, (q, us) ∈ add_class p v g /\ w ∈ us.
Proof.
  induction g as [| [q' ws] g IH]; cbn [add_class]; intros I Iw; [apply elem_of_nil in I as [] |]. destruct (bool_decide_reflect (p = q')) as [-> | D]; apply elem_of_cons in I as [I | I].
  - injection I as -> ->. exists (ws ++ [v]). split; [left | apply elem_of_app; left; exact Iw].
  - exists vs. split; [right; exact I | exact Iw].
  - injection I as -> ->. exists ws. split; [left | exact Iw].
  - destruct (IH I Iw) as (us & Iu & Iv). exists us. split; [right; exact Iu | exact Iv].
Qed.
Lemma classes_ok n cs : grouped_by n cs (seq 0 n) (classes n cs).
Proof.
  unfold classes. assert (A : forall l seen g, NoDup l -> (forall v, v ∈ l -> v ∉ seen) -> grouped_by n cs seen g ->
    grouped_by n cs (seen ++ l) (fold_left (fun g v => if forallb (fun t => match t with None => true | Some _ => false end) (profile cs v) then g else add_class (profile cs v) v g) l g)).
  { induction l as [| v l IH]; intros seen g Hn Hd G; cbn [fold_left]; [rewrite app_nil_r; exact G |]. apply NoDup_cons in Hn as [Hv Hn]. replace (seen ++ v :: l) with ((seen ++ [v]) ++ l) by (rewrite <- app_assoc; reflexivity). apply IH; [exact Hn | |].
    { intros w Iw. rewrite elem_of_app, elem_of_list_singleton. intros [K | ->]; [apply (Hd w); [right; exact Iw | exact K] | exact (Hv Iw)]. }
    destruct G as (G1 & G2 & G3). destruct (forallb _ (profile cs v)) eqn:Ef.
    - split; [| split; [| exact G3]].
      + intros p vs I. destruct (G1 p vs I) as [N1 N2]. split; [exact N1 |]. intros w Iw. destruct (N2 w Iw) as [N3 N4]. split; [apply elem_of_app; left; exact N3 | exact N4].
      + intros w Iw Hw. apply elem_of_app in Iw as [Iw | Iw]; [apply G2; assumption |]. apply elem_of_list_singleton in Iw as ->. congruence.
    - split; [| split].
      + intros p vs I. apply add_class_in in I as [I | [[-> ->] | (-> & ws & I & ->)]].
        * destruct (G1 p vs I) as [N1 N2]. split; [exact N1 |]. intros w Iw. destruct (N2 w Iw) as [N3 N4]. split; [apply elem_of_app; left; exact N3 | exact N4].
        * split; [apply NoDup_singleton |]. intros w Iw. apply elem_of_list_singleton in Iw as ->. split; [apply elem_of_app; right; left | reflexivity].
        * destruct (G1 _ ws I) as [N1 N2]. split.
          -- apply NoDup_app. split; [exact N1 |]. split; [| apply NoDup_singleton]. intros w Iw Iw'. apply elem_of_list_singleton in Iw' as ->. apply (Hd v); [left | apply (N2 v Iw)].
          -- intros w Iw. apply elem_of_app in Iw as [Iw | Iw]; [destruct (N2 w Iw) as [N3 N4]; split; [apply elem_of_app; left; exact N3 | exact N4] |]. apply elem_of_list_singleton in Iw as ->. split; [apply elem_of_app; right; left | reflexivity].
      + intros w Iw Hw. apply elem_of_app in Iw as [Iw | Iw].
        * destruct (G2 w Iw Hw) as (vs & I & Iv). apply (add_class_keeps _ _ _ _ vs); assumption.
        * apply elem_of_list_singleton in Iw as ->. apply add_class_has.
      + destruct (add_class_keys (profile cs v) v g) as [-> | [N ->]]; [exact G3 |]. apply NoDup_app. split; [exact G3 |]. split; [| apply NoDup_singleton]. intros q Iq Iq'. apply elem_of_list_singleton in Iq' as ->. exact (N Iq). }
  apply (A (seq 0 n) [] []); [apply NoDup_ListNoDup, seq_NoDup | intros v _; apply not_elem_of_nil |]. split; [intros p vs I; apply elem_of_nil in I as [] |]. split; [intros v I; apply elem_of_nil in I as [] | apply NoDup_nil_2].
Qed.
Lemma windows_in l a b : (a, b) ∈ windows l -> a ∈ l /\ b ∈ l.
Proof.
  induction l as [| x [| y l] IH]; cbn [windows]; intros I; [apply elem_of_nil in I as [] | apply elem_of_nil in I as [] |]. apply elem_of_cons in I as [I | I].
  - injection I as -> ->. split; [left | right; left].
  - destruct (IH I) as [A B]. split; right; assumption.
Qed.
Lemma windows_ne l a b : NoDup l -> (a, b) ∈ windows l -> a <> b.
Proof.
  induction l as [| x [| y l] IH]; cbn [windows]; intros Hn I; [apply elem_of_nil in I as [] | apply elem_of_nil in I as [] |]. apply NoDup_cons in Hn as [Hx Hn]. apply elem_of_cons in I as [I | I]; [| apply IH; assumption].
  injection I as -> ->. intros ->. apply Hx. left.
Qed.
Lemma swapped_lookup n a b v w : swapped n a b !! v = Some w <-> (v < n)%nat /\ w = (if Nat.eqb v a then b else if Nat.eqb v b then a else v).
Proof.
  unfold swapped. rewrite list_lookup_fmap. destruct (decide (v < n)%nat) as [L | L].
  - rewrite (proj2 (lookup_seq 0 n v v)) by lia. cbn [fmap option_fmap option_map]. split; [intros [= <-]; auto | intros [_ ->]; reflexivity].
  - rewrite lookup_ge_None_2 by (rewrite seq_length; lia). split; [discriminate | intros [L' _]; lia].
Qed.
Lemma generator_inv n cs p : p ∈ coeff_symmetry_generators n cs -> exists a b, p = swapped n a b /\ a <> b /\ (a < n)%nat /\ (b < n)%nat /\ profile cs a = profile cs b.
Proof.
  unfold coeff_symmetry_generators. intros I. apply elem_of_list_In, in_flat_map in I as ([q vs] & Ig & I). apply elem_of_list_In in Ig. apply elem_of_list_In, elem_of_list_fmap in I as ([a b] & -> & I).
  destruct (classes_ok n cs) as (G & _ & _). destruct (G q vs Ig) as [N1 N2]. exists a, b. split; [reflexivity |]. split; [apply (windows_ne _ _ _ N1 I) |]. apply windows_in in I as [Ia Ib]. destruct (N2 a Ia) as [Sa Pa]. destruct (N2 b Ib) as [Sb Pb].
  apply elem_of_seq in Sa. apply elem_of_seq in Sb. repeat split; [lia | lia | congruence].
Qed.
(** Every generator is a permutation of the variables that keeps every coefficient. *)
Theorem C74_generators_sound n cs p : p ∈ coeff_symmetry_generators n cs -> is_pb_symmetry cs p = true /\ length p = n /\ NoDup p /\ (forall v, v ∈ p -> (v < n)%nat).
Proof.
  intros I. apply generator_inv in I as (a & b & -> & D & La & Lb & E). split; [| split; [| split]].
  - unfold is_pb_symmetry. apply forallb_forall. intros c Ic. apply forallb_forall. intros [v w] Iv. apply elem_of_list_In, elem_of_list_lookup in Iv as [i Iv]. apply lookup_zip_with_Some in Iv as (v' & w' & Ev & E1 & E2). injection Ev as <- <-. apply (proj1 (lookup_seq _ _ _ _)) in E1 as [-> _]. cbn [Nat.add] in *. apply swapped_lookup in E2 as [_ ->]. apply bool_decide_eq_true. cbn [fst snd].
    assert (A : terms c !! a = terms c !! b). { unfold profile in E. assert (B : forall c, In c cs -> terms c !! a = terms c !! b) by (apply List.map_ext_in_iff; exact E). apply B, Ic. }
    destruct (Nat.eqb_spec i a) as [-> | D1]; [congruence |]. destruct (Nat.eqb_spec i b) as [-> | D2]; [exact A | reflexivity].
  - unfold swapped. rewrite map_length, seq_length. reflexivity.
  - unfold swapped. apply NoDup_fmap_2_strong; [| apply NoDup_ListNoDup, seq_NoDup]. intros x y _ _. destruct (Nat.eqb_spec x a), (Nat.eqb_spec x b), (Nat.eqb_spec y a), (Nat.eqb_spec y b); lia.
  - intros v Iv. apply elem_of_list_lookup in Iv as [i Iv]. apply swapped_lookup in Iv as [L ->]. destruct (Nat.eqb i a); [exact Lb |]. destruct (Nat.eqb i b); assumption.
Qed.
(** And they connect any two variables that occur with the same coefficients. *)
Theorem C74_generators_complete n cs a b : (a < n)%nat -> (b < n)%nat -> profile cs a = profile cs b -> (exists c, c ∈ cs /\ terms c !! a <> None) ->
  rtc (fun x y => exists p, p ∈ coeff_symmetry_generators n cs /\ p !! x = Some y) a b.
Proof.
  intros La Lb E (c & Ic & Hc). destruct (classes_ok n cs) as (G1 & G2 & G3).
  assert (Ha : forallb (fun t => match t with None => true | Some _ => false end) (profile cs a) = false).
  { apply not_true_is_false. intros K. rewrite forallb_forall in K. assert (Im : In (terms c !! a) (profile cs a)) by (apply in_map_iff; exists c; split; [reflexivity | apply elem_of_list_In, Ic]). apply K in Im. destruct (terms c !! a) as [t |]; [discriminate | congruence]. }
  assert (Hb := Ha). rewrite E in Hb.
  destruct (G2 a) as (vs & Iv & Ia); [apply elem_of_seq; lia | exact Ha |]. destruct (G2 b) as (ws & Iw & Ib); [apply elem_of_seq; lia | exact Hb |]. rewrite <- E in Iw.
  assert (vs = ws) as <-. { clear -G3 Iv Iw. induction (classes n cs) as [| [q us] g IH]; [apply elem_of_nil in Iv as [] |]. cbn [map fst] in G3. apply NoDup_cons in G3 as [N3 G3]. apply elem_of_cons in Iv as [Iv | Iv]; apply elem_of_cons in Iw as [Iw | Iw].
    - congruence.
    - injection Iv as Iv _. subst q. exfalso. apply N3, elem_of_list_fmap. eexists. split; [| exact Iw]. reflexivity.
    - injection Iw as Iw _. subst q. exfalso. apply N3, elem_of_list_fmap. eexists. split; [| exact Iv]. reflexivity.
    - apply IH; assumption. }
  assert (W : forall x y, (x, y) ∈ windows vs -> exists p, p ∈ coeff_symmetry_generators n cs /\ p !! x = Some y /\ p !! y = Some x).
  { intros x y I. exists (swapped n x y). split; [apply elem_of_list_In, in_flat_map; exists (profile cs a, vs); split; [apply elem_of_list_In, Iv | apply elem_of_list_In, elem_of_list_fmap; exists (x, y); split; [reflexivity | exact I]] |].
    destruct (G1 _ _ Iv) as [N1 N2]. pose proof (windows_ne _ _ _ N1 I) as D. apply windows_in in I as [Ix Iy]. destruct (N2 x Ix) as [Sx _]. destruct (N2 y Iy) as [Sy _]. apply elem_of_seq in Sx. apply elem_of_seq in Sy.
    split; apply swapped_lookup; (split; [lia |]); [rewrite Nat.eqb_refl; reflexivity |]. destruct (Nat.eqb_spec y x) as [<- |]; [congruence |]. rewrite Nat.eqb_refl. reflexivity. }
  clear -W Ia Ib. set (R := fun x y => exists p, p ∈ coeff_symmetry_generators n cs /\ p !! x = Some y) in *.
  assert (C : forall vs, (forall x y, (x, y) ∈ windows vs -> exists p, p ∈ coeff_symmetry_generators n cs /\ p !! x = Some y /\ p !! y = Some x) -> forall x y l, vs = x :: l -> y ∈ vs -> rtc R x y /\ rtc R y x).
  { clear. induction vs as [| z vs IH]; intros W x y l E Iy; [discriminate |]. injection E as -> <-. apply elem_of_cons in Iy as [-> | Iy]; [split; reflexivity |]. destruct vs as [| w vs]; [apply elem_of_nil in Iy as [] |].
    destruct (IH ltac:(intros u v Iu; apply W; cbn [windows]; right; exact Iu) w y vs eq_refl Iy) as [A B]. destruct (W x w) as (p & Ip & P1 & P2); [cbn [windows]; left |]. split.
    - eapply rtc_l; [exists p; split; [exact Ip | exact P1] | exact A].
    - eapply rtc_r; [exact B | exists p; split; [exact Ip | exact P2]]. }
  destruct vs as [| z vs]; [apply elem_of_nil in Ia as [] |]. etransitivity; [apply (C _ W z a vs eq_refl Ia) | apply (C _ W z b vs eq_refl Ib)].
Qed.

Local Open Scope string_scope.
(** Two pigeons and one hole are refuted without the saturated test; three constraints over
    variables 0 and 1, which are exchangeable, and 2, which is not. *)
Example C74_example :
  (let e := EBin CAnd (EAtom "p") (EBin CAnd (EAtom "q") (ENot (EBin CAnd (EAtom "p") (EAtom "q")))) in
   exists c, clausal_sum e = Some c /\ is_contradiction c = true /\ degree c = 1) /\
  (let c := new_weighted [(0%nat, 2, true); (1%nat, 2, true); (2%nat, 1, false)] 3 in
   normal c /\ coeff_symmetry_generators 3 [c] = [[1; 0; 2]%nat] /\ is_satisfied c (fun v => Nat.eqb v 0) = true /\ is_satisfied c (fun v => Nat.eqb v 2) = false) /\
  theory_propagate 3 [([(0%nat, true); (1%nat, true); (2%nat, true)], 2)] [Lit 0 false] = Some [[Lit 0 true; Lit 1 true]; [Lit 0 true; Lit 2 true]] /\
  theory_propagate 3 [([(0%nat, true); (1%nat, true); (2%nat, true)], 2)] [Lit 0 false; Lit 2 false] = Some [[Lit 0 true; Lit 2 true]].
Proof.
  split; [| split; [| split; vm_compute; reflexivity]].
  - eexists. split; [vm_compute; reflexivity | split; vm_compute; reflexivity].
  - split; [| split; [vm_compute; reflexivity | split; vm_compute; reflexivity]]. intros v x s E. cbn [new_weighted terms] in E. apply collect_lookup_from in E as [E | E]; [rewrite lookup_empty in E; discriminate |].
    cbn [map fst snd] in E. rewrite !elem_of_cons in E. destruct E as [E | [E | [E | E]]]; [injection E as _ -> _; lia | injection E as _ -> _; lia | injection E as _ -> _; lia | apply elem_of_nil in E as []].
Qed.
