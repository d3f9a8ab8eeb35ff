(** C69: clausification preserves the models of the premises. *)
From Coq Require Import String List Arith Bool Lia Sorted.
From stdpp Require Import gmap strings list sorting.
From Verif Require Import UnifyModel UnifyProofs RupModel RupProofs RupProps CnfModel CnfProofs CnfKeys.
Local Open Scope list_scope.

(** Interpretations of the atoms that treat equality as symmetric. *)
Definition sensible (I : pexpr -> bool) : Prop := forall a b, same_atom a b -> I a = I b.
Definition all_true (I : pexpr -> bool) (l : list pexpr) : Prop := forall e, e ∈ l -> truth_with I e = true.
Definition entails (premises : list pexpr) (goal : pexpr) : Prop :=
  forall I, sensible I -> all_true I premises -> truth_with I goal = true.
Definition clean (e : pexpr) : Prop := Forall clean_atom (atoms e).
Definition model_fn (model : list bool) (v : nat) : bool := default false (model !! v).

Lemma truth_ext I J e : (forall a, a ∈ atoms e -> I a = J a) -> truth_with I e = truth_with J e.
Proof.
  induction e as [p ts w | a b | s | k p IHp q IHq | p IHp | qu x b IHb | o a IHa | o a IHa b IHb | n]; cbn; intros H; try (apply H; left).
  - rewrite IHp, IHq by (intros a Ha; apply H, elem_of_app; auto). reflexivity.
  - rewrite IHp by exact H. reflexivity.
Qed.

(** Every solution of the clauses is a solution of the premises: whatever the solver assigns, the
    decoded atoms make every premise true. *)
Theorem C69_sound ps c model I : from_premises ps = Some c -> length model = num_vars c -> satisfies (model_fn model) (clauses c) ->
  (forall e a, e ∈ ps -> a ∈ atoms e -> atom_value c a model = Some (I a)) -> all_true I ps.
Proof.
  intros H L Sat V e He. destruct (assert_all_ok ps empty c wf_empty H) as (W & _ & C & T & _).
  set (K := fun k => match atom_of c !! k with Some v => model_fn model v | None => false end).
  assert (agree (model_fn model) K c) as A by (intros k v E; unfold K; rewrite E; reflexivity).
  rewrite <- (T (model_fn model) K Sat A e He). symmetry. apply truth_ext. intros a Ha. unfold keyed.
  destruct (C e He a Ha) as (k & Ek & [v Hv]). rewrite Ek. specialize (V e a He Ha). unfold atom_value in V. rewrite Ek in V. cbn in V. unfold K. rewrite Hv in *. cbn in V.
  unfold model_fn. rewrite V. reflexivity.
Qed.
(** Every atom of the premises has a value in a solution. *)
Theorem C69_decodes ps c model e a : from_premises ps = Some c -> length model = num_vars c -> e ∈ ps -> a ∈ atoms e ->
  is_Some (atom_value c a model).
Proof.
  intros H L He Ha. destruct (assert_all_ok ps empty c wf_empty H) as (W & _ & C & _). destruct (C e He a Ha) as (k & Ek & [v Hv]).
  unfold atom_value. rewrite Ek. cbn. rewrite Hv. cbn. apply lookup_lt_is_Some_2. rewrite L. exact (wf_atoms _ W k v Hv).
Qed.

(** The keys as a valuation. *)
Lemma keys_of_interpretation I l : sensible I -> Forall clean_atom l -> exists K, forall a, a ∈ l -> keyed K a = I a.
Proof.
  intros HI Hl. exists (fun k => match List.find (fun a => bool_decide (atom_key a = Some k)) l with Some a => I a | None => false end).
  intros a Ha. unfold keyed. rewrite List.Forall_forall in Hl.
  destruct (atom_key a) as [k |] eqn:E.
  - destruct (List.find _ l) as [b |] eqn:F.
    + apply find_some in F as [Hb D]. apply bool_decide_eq_true in D. apply HI. apply (atom_key_sound b a k); auto. apply Hl, elem_of_list_In, Ha.
    + apply elem_of_list_In in Ha. pose proof (find_none _ _ F a Ha) as D. cbn in D. apply bool_decide_eq_false in D. congruence.
  - exfalso. apply elem_of_list_In, Hl in Ha. destruct a; cbn in *; try contradiction; try discriminate. destruct (String.leb _ _); discriminate.
Qed.
Lemma extract_model (f : nat -> bool) n : exists model : list bool, length model = n /\ forall v, (v < n)%nat -> model !! v = Some (f v).
Proof.
  exists (map f (seq 0 n)). split; [rewrite map_length, seq_length; reflexivity |]. intros v Hv.
  change (map f (seq 0 n)) with (f <$> seq 0 n). rewrite list_lookup_fmap. assert (seq 0 n !! v = Some v) as ->; [| reflexivity].
  replace v with (0 + v)%nat at 2 by lia. apply lookup_seq. auto.
Qed.
Lemma clean_all ps e a : Forall clean ps -> e ∈ ps -> a ∈ atoms e -> clean_atom a.
Proof. intros H He Ha. rewrite List.Forall_forall in H. apply elem_of_list_In, H in He. unfold clean in He. rewrite List.Forall_forall in He. apply He, elem_of_list_In, Ha. Qed.
Lemma clean_concat ps : Forall clean ps -> Forall clean_atom (concat (map atoms ps)).
Proof.
  intros H. apply List.Forall_forall. intros a Ha. apply in_concat in Ha as (l & Hl & Ha). apply in_map_iff in Hl as (e & <- & He).
  apply (clean_all ps e a H); apply elem_of_list_In; assumption.
Qed.
Lemma in_atoms ps e a : e ∈ ps -> a ∈ atoms e -> a ∈ concat (map atoms ps).
Proof. intros He Ha. apply elem_of_list_In, in_concat. exists (atoms e). split; [apply in_map |]; apply elem_of_list_In; assumption. Qed.

(** Conversely every interpretation that makes the premises true is decoded from some solution. *)
Theorem C69_complete ps c I : Forall clean ps -> sensible I -> from_premises ps = Some c -> all_true I ps ->
  exists model, length model = num_vars c /\ satisfies (model_fn model) (clauses c) /\
    forall e a, e ∈ ps -> a ∈ atoms e -> atom_value c a model = Some (I a).
Proof.
  intros Cl HI H T. destruct (assert_all_ok ps empty c wf_empty H) as (W & _ & C & _ & X).
  destruct (keys_of_interpretation I (concat (map atoms ps)) HI (clean_concat ps Cl)) as [K HK].
  destruct (X (fun _ => false) K) as (f & Sf & Af).
  - intros d Hd. apply elem_of_nil in Hd. destruct Hd.
  - intros k v Hk. cbn in Hk. rewrite lookup_empty in Hk. discriminate.
  - intros e He. rewrite <- (T e He). apply truth_ext. intros a Ha. apply HK. eapply in_atoms; eauto.
  - destruct (extract_model f (num_vars c)) as (model & L & M). exists model. split; [exact L |]. split.
    + apply (satisfies_agree (num_vars c) f); [apply W | | exact Sf]. intros v Hv. unfold model_fn. rewrite M by exact Hv. reflexivity.
    + intros e a He Ha. destruct (C e He a Ha) as (k & Ek & [v Hv]). unfold atom_value. rewrite Ek. cbn. rewrite Hv. cbn.
      rewrite M by (apply (wf_atoms _ W k); exact Hv). f_equal. rewrite (Af k v Hv). rewrite <- (HK a (in_atoms ps e a He Ha)). unfold keyed. rewrite Ek. reflexivity.
Qed.

Lemma norm_key t : term_key (norm t) = term_key t.
Proof.
  induction t as [s | s | s | n l IH | l IH] using pterm_ind'; try reflexivity. cbn. do 2 f_equal. rewrite map_map. do 2 f_equal. apply map_ext_in.
  rewrite List.Forall_forall in IH. exact IH.
Qed.
Lemma same_atom_key a b : same_atom a b -> atom_key a = atom_key b.
Proof.
  assert (forall x y, norm x = norm y -> term_key x = term_key y) as N by (intros x y H; rewrite <- (norm_key x), H, norm_key; reflexivity).
  assert (forall l m, map norm l = map norm m -> map term_key l = map term_key m) as NM.
  { intros l m H. transitivity (map term_key (map norm l)); [rewrite map_map; apply map_ext; intros; symmetry; apply norm_key |].
    rewrite H, map_map. apply map_ext. intros. apply norm_key. }
  destruct a as [p l w | a1 a2 | s | k p1 q1 | p1 | qu x b1 | o c1 | o c1 d1 | n], b as [p' l' w' | b1' b2' | s' | k' p1' q1' | p1' | qu' x' b1' | o' c1' | o' c1' d1' | n']; cbn; try contradiction.
  - intros (-> & H & _). rewrite (NM _ _ H). reflexivity.
  - intros [[A B] | [A B]]; rewrite (N _ _ A), (N _ _ B); [reflexivity |].
    destruct (String.leb (term_key b2') (term_key b1')) eqn:E1, (String.leb (term_key b1') (term_key b2')) eqn:E2; try reflexivity.
    + rewrite (leb_antisym _ _ E1 E2). reflexivity.
    + destruct (leb_total (term_key b1') (term_key b2')); congruence.
  - intros ->. reflexivity.
Qed.

(** The entailment query has no solution exactly when the premises entail the goal. *)
Theorem C69_entails ps g c : Forall clean ps -> clean g -> entailment_query ps g = Some c ->
  (~ exists f, satisfies f (clauses c)) <-> entails ps g.
Proof.
  intros Cl Cg H. unfold entailment_query in H. destruct (from_premises ps) as [c1 |] eqn:E1; [| discriminate]. cbn in H.
  destruct (assert_all_ok ps empty c1 wf_empty E1) as (W1 & _ & C1 & T1 & X1). pose proof (assert_ok _ _ _ W1 H) as A. split.
  - intros N I HI T. destruct (truth_with I g) eqn:Eg; [reflexivity |]. exfalso. apply N.
    destruct (keys_of_interpretation I (concat (map atoms (g :: ps))) HI) as [K HK]; [apply clean_concat; constructor; assumption |].
    destruct (X1 (fun _ => false) K) as (f & Sf & Af).
    + intros d Hd. apply elem_of_nil in Hd. destruct Hd.
    + intros k v Hk. cbn in Hk. rewrite lookup_empty in Hk. discriminate.
    + intros e He. rewrite <- (T e He). apply truth_ext. intros a Ha. apply HK. apply (in_atoms _ e); [right; exact He | exact Ha].
    + destruct (as_extends _ _ _ A f K Sf Af) as (f' & Sf' & _); [| exists f'; exact Sf'].
      rewrite truth_negate. rewrite (truth_ext _ I), Eg; [reflexivity |]. intros a Ha. apply HK. apply (in_atoms _ g); [left | exact Ha].
  - intros En [f Sf]. set (K := fun k => match atom_of c !! k with Some v => f v | None => false end).
    assert (agree f K c) as Ag by (intros k v E; unfold K; rewrite E; reflexivity).
    pose proof (as_true _ _ _ A f K Sf Ag) as Tg. rewrite truth_negate in Tg.
    rewrite (En (keyed K)) in Tg; [discriminate | |].
    + intros a b Hab. unfold keyed. rewrite (same_atom_key a b Hab). reflexivity.
    + intros e He. apply (T1 f K); [apply (as_grows _ _ _ A); exact Sf | eapply agree_grows; [apply A | exact Ag] | exact He].
Qed.
(** With the checker of C37: a refutation it accepts for the query proves the entailment. *)
Theorem C69_certified ps g c learned : Forall clean ps -> clean g -> entailment_query ps g = Some c ->
  check_refutation (num_vars c) (clauses c) learned = Some true -> entails ps g.
Proof. intros Cl Cg H R. apply (C69_entails ps g c Cl Cg H). exact (C37_refutation_sound _ _ _ R). Qed.

(** The clausifier answers exactly on quantifier-free combinations of predicates, equations and atoms. *)
Lemma atom_var_total c k : exists v c', atom_var c k = (v, c').
Proof. destruct (atom_var c k) as [v c']. eauto. Qed.
Lemma encode_total e : forall c, (forall a, a ∈ atoms e -> is_Some (atom_key a)) -> is_Some (encode c e).
Proof.
  induction e as [p ts w | a b | s | k p IHp q IHq | p IHp | qu x b IHb | o a IHa | o a IHa b IHb | n]; intros c H.
  4: { cbn. destruct (IHp c) as [[a c1] ->]; [intros x Hx; apply H; cbn; apply elem_of_app; auto |]. cbn.
    destruct (IHq c1) as [[b c2] ->]; [intros x Hx; apply H; cbn; apply elem_of_app; auto |]. cbn. destruct k; cbn; try (destruct (order2 a b)); eexists; reflexivity. }
  4: { cbn. destruct (IHp c H) as [[a c1] ->]. eexists. reflexivity. }
  all: rewrite encode_atom by exact I; match goal with |- context [atom_key ?e] => destruct (H e ltac:(left)) as [k ->] end; cbn; destruct (atom_var c k); eexists; reflexivity.
Qed.
Lemma clause_lits_of_total : forall e pos c, (forall a, a ∈ atoms e -> is_Some (atom_key a)) -> is_Some (clause_lits_of pos c e).
Proof.
  assert (forall c e, (forall a, a ∈ atoms e -> is_Some (atom_key a)) ->
    is_Some (match lit_of_atom c e with Some (l, c) => Some ([l], c) | None => '(l, c) ← encode c e; Some ([l], c) end)) as Base.
  { intros c e H. destruct (lit_of_atom c e) as [[l c1] |]; [eexists; reflexivity |]. destruct (encode_total e c H) as [[l c1] ->]. eexists. reflexivity. }
  assert (forall (f1 f2 : cnf -> option (clause * cnf)) c, (forall c, is_Some (f1 c)) -> (forall c, is_Some (f2 c)) ->
    is_Some ('(v, c) ← f1 c; '(w, c) ← f2 c; Some (v ++ w, c))) as Two.
  { intros f1 f2 c H1 H2. destruct (H1 c) as [[v c1] ->]. cbn. destruct (H2 c1) as [[w c2] ->]. eexists. reflexivity. }
  induction e as [p ts w | a b | s | k p IHp q IHq | p IHp | qu x b IHb | o a IHa | o a IHa b IHb | n]; intros pos c H.
  4: { assert (Hp : forall a, a ∈ atoms p -> is_Some (atom_key a)) by (intros x Hx; apply H; cbn; apply elem_of_app; auto).
    assert (Hq : forall a, a ∈ atoms q -> is_Some (atom_key a)) by (intros x Hx; apply H; cbn; apply elem_of_app; auto).
    destruct pos, k; cbn [clause_lits_of]; try (apply Base; exact H);
      match goal with |- is_Some (clause_lits_of ?x c p ≫= _) =>
        match goal with |- context [clause_lits_of ?y _ q] => apply (Two (fun c => clause_lits_of x c p) (fun c => clause_lits_of y c q)); intros; auto end end. }
  4: { destruct pos; [| cbn [clause_lits_of]; apply IHp; exact H].
    rewrite (clause_lits_eq c (ENot p) : clause_lits_of true c (ENot p) = _). destruct (lit_of_atom c (ENot p)) as [[l c1] |]; [eexists; reflexivity |].
    destruct p as [pp ts w | a b | s | k p q | p | qu x b | o a | o a b | n];
      try (match goal with |- is_Some (encode c ?e ≫= _) => destruct (encode_total e c H) as [[l c1] ->] end; eexists; reflexivity).
    - destruct k; try (match goal with |- is_Some (encode c ?e ≫= _) => destruct (encode_total e c H) as [[l c1] ->] end; eexists; reflexivity).
      pose proof (IHp false c H) as F. cbn [clause_lits_of] in F. unfold clause_lits. rewrite <- (clause_lits_of_spec c p false).
      destruct (clause_lits_of false c p) as [[v c1] |]; [| exact F]. cbn in F |- *. rewrite <- (clause_lits_of_spec c1 q false). exact F.
    - exact (IHp false c H). }
  all: destruct pos; apply Base; exact H.
Qed.
Lemma assert_total : forall e c, (forall a, a ∈ atoms e -> is_Some (atom_key a)) -> is_Some (assert_expr c e).
Proof.
  assert (forall c e, (forall a, a ∈ atoms e -> is_Some (atom_key a)) -> is_Some ('(v, c) ← clause_lits c e; Some (push_clause c v))) as One.
  { intros c e H. destruct (clause_lits_of_total e true c H) as [[v c1] E]. unfold clause_lits. rewrite E. eexists. reflexivity. }
  induction e as [p ts w | a b | s | k p IHp q IHq | p IHp | qu x b IHb | o a IHa | o a IHa b IHb | n]; intros c H; try (apply One; exact H).
  assert (Hp : forall a, a ∈ atoms p -> is_Some (atom_key a)) by (intros x Hx; apply H; cbn; apply elem_of_app; auto).
  assert (Hq : forall a, a ∈ atoms q -> is_Some (atom_key a)) by (intros x Hx; apply H; cbn; apply elem_of_app; auto).
  destruct k; try (apply One; exact H); cbn [assert_expr].
  - destruct (IHp c Hp) as [c1 ->]. cbn. apply IHq. exact Hq.
  - unfold clause_lits. destruct (clause_lits_of_total (negate_expr p) true c) as [[v c1] ->]; [rewrite atoms_negate; exact Hp |]. cbn.
    destruct (clause_lits_of_total q true c1 Hq) as [[w c2] ->]. eexists. reflexivity.
Qed.
Theorem C69_answers ps : is_Some (from_premises ps) <->
  forall e a, e ∈ ps -> a ∈ atoms e -> match a with EPred _ _ _ | EIdent _ _ | EAtom _ => True | _ => False end.
Proof.
  assert (forall a, is_Some (atom_key a) <-> match a with EPred _ _ _ | EIdent _ _ | EAtom _ => True | _ => False end) as K.
  { intros a. destruct a; cbn; split; intros H; try (exact I); try (destruct H; discriminate); try contradiction; try (eexists; reflexivity). destruct (String.leb _ _); eexists; reflexivity. }
  split.
  - intros [c H] e a He Ha. apply K. destruct (assert_all_ok ps empty c wf_empty H) as (_ & _ & C & _). destruct (C e He a Ha) as (k & -> & _). eexists. reflexivity.
  - intros H. unfold from_premises. generalize empty. induction ps as [| e ps IH]; intros c; cbn; [eexists; reflexivity |].
    destruct (assert_total e c) as [c1 ->]; [intros a Ha; apply K, (H e a); [left | exact Ha] |]. cbn. apply IH. intros d a Hd Ha. apply (H d a); [right; exact Hd | exact Ha].
Qed.

(** ** Size and shape of the clause set. *)
Fixpoint conns (e : pexpr) : nat := match e with ENot p => conns p | EBin _ p q => S (conns p + conns q) | _ => 0 end.
Definition shape (c : cnf) : Prop := NoDup (clauses c) /\ forall d, d ∈ clauses c -> NoDup (lvar <$> d).
Record sized (c c' : cnf) (vars cls : nat) : Prop := Sized {
  sz_shape : shape c -> shape c'; sz_vars : (num_vars c' <= num_vars c + vars)%nat; sz_clauses : (length (clauses c') <= length (clauses c) + cls)%nat }.

Lemma lit_key_total a b : lit_key_leb a b = false -> lit_key_leb b a = true.
Proof.
  unfold lit_key_leb. destruct (Nat.ltb_spec (lvar a) (lvar b)), (Nat.ltb_spec (lvar b) (lvar a)), (Nat.eqb_spec (lvar a) (lvar b)), (Nat.eqb_spec (lvar b) (lvar a)), (lpos a), (lpos b); cbn; try lia; congruence.
Qed.
Lemma insert_sorted_sorted l c : Sorted (fun a b => lit_key_leb a b = true) c -> Sorted (fun a b => lit_key_leb a b = true) (insert_sorted l c).
Proof.
  induction c as [| m c IH]; cbn; intros H; [repeat constructor |]. destruct (lit_key_leb l m) eqn:E; [constructor; [exact H | constructor; exact E] |].
  apply Sorted_inv in H as [H1 H2]. constructor; [apply IH; exact H1 |]. apply lit_key_total in E. destruct c as [| n c]; cbn; [constructor; exact E |].
  destruct (lit_key_leb l n); constructor; [exact E |]. inversion H2; assumption.
Qed.
Lemma dedup_sorted c : Sorted (fun a b => lit_key_leb a b = true) c -> Sorted (fun a b => lit_key_leb a b = true) (dedup c).
Proof.
  induction c as [| m c IH]; [auto |]. destruct c as [| n c]; [auto |]. intros H. apply Sorted_inv in H as [H1 H2].
  change (dedup (m :: n :: c)) with (if bool_decide (m = n) then dedup (n :: c) else m :: dedup (n :: c)). destruct (bool_decide (m = n)); [apply IH; exact H1 |].
  constructor; [apply IH; exact H1 |]. inversion H2; subst.
  assert (exists t, dedup (n :: c) = n :: t) as [t ->]; [| constructor; assumption].
  clear. revert n. induction c as [| k c IH]; intros n; [exists []; reflexivity |].
  change (dedup (n :: k :: c)) with (if bool_decide (n = k) then dedup (k :: c) else n :: dedup (k :: c)). destruct (bool_decide (n = k)) eqn:E; [| eexists; reflexivity].
  apply bool_decide_eq_true in E. subst k. apply IH.
Qed.
Lemma sorted_vars c : Sorted (fun a b => lit_key_leb a b = true) c -> adjacent_vars c = false -> NoDup (lvar <$> c).
Proof.
  intros H A. assert (Sorted lt (lvar <$> c)) as L.
  { induction c as [| m c IH]; [constructor |]. apply Sorted_inv in H as [H1 H2]. destruct c as [| n c]; [repeat constructor |].
    cbn [adjacent_vars] in A. apply orb_false_iff in A as [A1 A2]. apply Nat.eqb_neq in A1. constructor; [apply IH; assumption |]. constructor.
    inversion H2 as [| ? ? E]; subst. unfold lit_key_leb in E. apply orb_true_iff in E as [E | E]; [apply Nat.ltb_lt in E; exact E |].
    apply andb_true_iff in E as [E _]. apply Nat.eqb_eq in E. contradiction. }
  apply Sorted_StronglySorted in L; [| intros x y z; lia]. revert L. generalize (lvar <$> c). clear. intros l H. induction H as [| a l H IH F]; constructor; [| exact IH].
  intros Ha. rewrite List.Forall_forall in F. apply elem_of_list_In, F in Ha. lia.
Qed.
Lemma push_sized c v : sized c (push_clause c v) 0 1.
Proof.
  assert (sized c c 0 1) as Same by (split; [auto | lia | lia]).
  unfold push_clause. destruct (adjacent_vars _) eqn:A; [exact Same |]. destruct (bool_decide (dedup (sort_clause v) ∈ clauses c)) eqn:D; [exact Same |].
  apply bool_decide_eq_false in D. split; cbn [clauses num_vars]; [| lia | rewrite app_length; cbn; lia]. intros [N S]. split; cbn [clauses].
  - apply NoDup_app. split; [exact N | split; [| apply NoDup_singleton]]. intros x Hx Hv. apply elem_of_list_singleton in Hv. subst x. contradiction.
  - intros d Hd. apply elem_of_app in Hd as [Hd | Hd]; [auto |]. apply elem_of_list_singleton in Hd. subst d. apply sorted_vars; [| exact A].
    apply dedup_sorted. unfold sort_clause. clear. induction v as [| l v IH]; cbn; [constructor | apply insert_sorted_sorted; exact IH].
Qed.
Lemma sized_trans a b c v w x y : sized a b v x -> sized b c w y -> sized a c (v + w) (x + y).
Proof. intros [A1 A2 A3] [B1 B2 B3]. split; [auto | lia | lia]. Qed.
Lemma sized_mono a b v w x y : sized a b v x -> (v <= w)%nat -> (x <= y)%nat -> sized a b w y.
Proof. intros [A1 A2 A3] ? ?. split; [auto | lia | lia]. Qed.
Lemma push_all_sized ds : forall c, sized c (foldl push_clause c ds) 0 (length ds).
Proof. induction ds as [| d ds IH]; intros c; cbn; [split; auto; lia |]. exact (sized_trans _ _ _ 0 0 1 (length ds) (push_sized c d) (IH _)). Qed.
Lemma atom_var_sized c k v c' : atom_var c k = (v, c') -> sized c c' 1 0.
Proof. unfold atom_var. destruct (atom_of c !! k); cbn; intros H; injection H as <- <-; split; cbn; auto; lia. Qed.
Lemma gate_sized c o a b x c' : gate c o a b = (x, c') -> sized c c' 1 4.
Proof.
  unfold gate. destruct (cache_get _ _); [intros H; injection H as <- <-; split; auto; lia |]. cbn [fresh]. intros H. injection H as <- <-.
  match goal with |- context [foldl push_clause ?c0 ?d] => pose proof (push_all_sized d c0) as [A1 A2 A3] end.
  split; cbn [clauses num_vars] in *; [intros S; apply A1; exact S | lia |]. assert (length (definition_of o (Lit (num_vars c) true) a b) <= 4)%nat by (destruct o; cbn; lia). lia.
Qed.
Lemma encode_sized e : forall c l c', encode c e = Some (l, c') -> sized c c' (length (atoms e) + conns e) (4 * conns e).
Proof.
  induction e as [p ts w | a b | s | k p IHp q IHq | p IHp | qu x b IHb | o a IHa | o a IHa b IHb | n]; intros c l c' H.
  4: { cbn [encode] in H. destruct (encode c p) as [[a c1] |] eqn:E1; [| discriminate]. cbn in H. destruct (encode c1 q) as [[b c2] |] eqn:E2; [| discriminate]. cbn in H.
    destruct (match k with CImplies => (a, b) | _ => order2 a b end) as [a' b']. apply (inj Some) in H.
    pose proof (sized_trans _ _ _ _ _ _ _ (sized_trans _ _ _ _ _ _ _ (IHp _ _ _ E1) (IHq _ _ _ E2)) (gate_sized _ _ _ _ _ _ H)) as S.
    eapply sized_mono; [exact S | |]; cbn [atoms conns]; rewrite ?app_length; lia. }
  4: { cbn [encode] in H. destruct (encode c p) as [[a c1] |] eqn:E1; [| discriminate]. cbn in H. injection H as <- <-. exact (IHp _ _ _ E1). }
  all: rewrite encode_atom in H by exact I; match type of H with context [atom_key ?e] => destruct (atom_key e) as [key |]; [| discriminate] end; cbn [mbind option_bind] in H;
    destruct (atom_var c key) as [v c1] eqn:Ev; injection H as <- <-; apply atom_var_sized in Ev; exact Ev.
Qed.
Lemma clause_lits_of_sized : forall e pos c v c', clause_lits_of pos c e = Some (v, c') -> sized c c' (length (atoms e) + conns e) (4 * conns e).
Proof.
  assert (forall c e l c', lit_of_atom c e = Some (l, c') -> sized c c' (length (atoms e) + conns e) (4 * conns e)) as La.
  { intros c e l c' H. assert (exists k v, atom_var c k = (v, c') /\ (1 <= length (atoms e))%nat) as (k & v & Ev & Hl).
    { destruct e as [p ts w | a b | s | k p q | p | qu x b | o a | o a b | n]; try discriminate; cbn [lit_of_atom] in H;
        match type of H with context [atom_key ?e] => destruct (atom_key e) as [key |] eqn:Ek; [| discriminate] end; cbn [mbind option_bind] in H;
        destruct (atom_var c key) as [v c1] eqn:Ev; injection H as <- <-; exists key, v; (split; [exact Ev |]); cbn; try lia; destruct p; try discriminate; cbn; lia. }
    apply atom_var_sized in Ev. eapply sized_mono; [exact Ev | lia | lia]. }
  assert (forall c e v c', match lit_of_atom c e with Some (l, c) => Some ([l], c) | None => '(l, c) ← encode c e; Some ([l], c) end = Some (v, c') ->
    sized c c' (length (atoms e) + conns e) (4 * conns e)) as Base.
  { intros c e v c' H. destruct (lit_of_atom c e) as [[l c1] |] eqn:E; [injection H as <- <-; eapply La; exact E |].
    destruct (encode c e) as [[l c1] |] eqn:E2; [| discriminate]. cbn in H. injection H as <- <-. eapply encode_sized; exact E2. }
  assert (forall (f1 f2 : cnf -> option (clause * cnf)) a b x y c v c', (forall c v c', f1 c = Some (v, c') -> sized c c' a x) -> (forall c v c', f2 c = Some (v, c') -> sized c c' b y) ->
    ('(v, c) ← f1 c; '(w, c) ← f2 c; Some (v ++ w, c)) = Some (v, c') -> sized c c' (a + b) (x + y)) as Two.
  { intros f1 f2 a b x y c v c' H1 H2 H. destruct (f1 c) as [[v1 c1] |] eqn:E1; [| discriminate]. cbn in H. destruct (f2 c1) as [[w c2] |] eqn:E2; [| discriminate]. cbn in H. injection H as <- <-.
    exact (sized_trans _ _ _ _ _ _ _ (H1 _ _ _ E1) (H2 _ _ _ E2)). }
  induction e as [p ts w | a b | s | k p IHp q IHq | p IHp | qu x b IHb | o a IHa | o a IHa b IHb | n]; intros pos c v c' H.
  4: { destruct pos, k; cbn [clause_lits_of] in H; try (apply Base in H; exact H);
      match type of H with clause_lits_of ?x c p ≫= _ = _ =>
        match type of H with context [clause_lits_of ?y _ q] => apply (Two (fun c => clause_lits_of x c p) (fun c => clause_lits_of y c q) (length (atoms p) + conns p) (length (atoms q) + conns q) (4 * conns p) (4 * conns q)) in H end end;
      try (intros; eauto; fail); (eapply sized_mono; [exact H | |]; cbn [atoms conns]; rewrite ?app_length; lia). }
  4: { destruct pos; [| cbn [clause_lits_of] in H; exact (IHp true _ _ _ H)].
    destruct (lit_of_atom c (ENot p)) as [[l c1] |] eqn:E.
    { cbn [clause_lits_of] in H. rewrite E in H. injection H as <- <-. eapply La; exact E. }
    destruct p as [pp ts w | a b | s | k p q | p | qu x b | o a | o a b | n]; try (apply (Base c (ENot _)) in H; exact H).
    - destruct k; try (apply (Base c (ENot _)) in H; exact H). exact (IHp false _ _ _ H).
    - cbn [clause_lits_of] in H. rewrite E in H. exact (IHp false _ _ _ H). }
  all: destruct pos; [apply Base in H; exact H | match type of H with clause_lits_of _ _ ?e = _ => apply (Base c (ENot e)) in H end; exact H].
Qed.
Lemma assert_sized : forall e c c', assert_expr c e = Some c' -> sized c c' (length (atoms e) + conns e) (4 * conns e + 1).
Proof.
  assert (forall c e c', ('(v, c) ← clause_lits c e; Some (push_clause c v)) = Some c' -> sized c c' (length (atoms e) + conns e) (4 * conns e + 1)) as One.
  { intros c e c' H. destruct (clause_lits c e) as [[v c1] |] eqn:E; [| discriminate]. cbn in H. injection H as <-. apply clause_lits_of_sized in E.
    eapply sized_mono; [exact (sized_trans _ _ _ _ _ _ _ E (push_sized c1 v)) | lia | lia]. }
  induction e as [p ts w | a b | s | k p IHp q IHq | p IHp | qu x b IHb | o a IHa | o a IHa b IHb | n]; intros c c' H; try (apply One in H; exact H).
  destruct k; try (apply One in H; exact H); cbn [assert_expr] in H.
  - destruct (assert_expr c p) as [c1 |] eqn:E; [| discriminate]. cbn in H. pose proof (sized_trans _ _ _ _ _ _ _ (IHp _ _ E) (IHq _ _ H)) as S.
    eapply sized_mono; [exact S | |]; cbn [atoms conns]; rewrite ?app_length; lia.
  - destruct (clause_lits c (negate_expr p)) as [[v c1] |] eqn:E1; [| discriminate]. cbn in H. destruct (clause_lits c1 q) as [[w c2] |] eqn:E2; [| discriminate]. cbn in H. injection H as <-.
    apply clause_lits_of_sized in E1, E2. rewrite atoms_negate in E1. assert (conns (negate_expr p) = conns p) as N by (destruct p; reflexivity). rewrite N in E1.
    pose proof (sized_trans _ _ _ _ _ _ _ (sized_trans _ _ _ _ _ _ _ E1 E2) (push_sized c2 (v ++ w))) as S.
    eapply sized_mono; [exact S | |]; cbn [atoms conns]; rewrite ?app_length; lia.
Qed.
(** The clauses use only the allocated variables; no clause is repeated or mentions a variable twice;
    the variables are at most the atoms and connectives, the clauses at most four per connective and
    one per premise. *)
Definition total {A} (f : A -> nat) (l : list A) : nat := foldr (fun a n => (f a + n)%nat) 0%nat l.
Theorem C69_size ps c : from_premises ps = Some c ->
  db_in_range (num_vars c) (clauses c) /\ NoDup (clauses c) /\ (forall d, d ∈ clauses c -> NoDup (lvar <$> d)) /\
  (num_vars c <= total (fun e => length (atoms e) + conns e) ps)%nat /\
  (length (clauses c) <= total (fun e => 4 * conns e + 1) ps)%nat.
Proof.
  intros H. destruct (assert_all_ok ps empty c wf_empty H) as (W & _). split; [apply W |].
  assert (forall ps c0 c, assert_all c0 ps = Some c -> sized c0 c (total (fun e => length (atoms e) + conns e) ps) (total (fun e => 4 * conns e + 1) ps)) as K.
  { clear. induction ps as [| e ps IH]; intros c0 c H; cbn in H; [injection H as <-; split; auto; lia |].
    destruct (assert_expr c0 e) as [c1 |] eqn:E; [| discriminate]. cbn in H. exact (sized_trans _ _ _ _ _ _ _ (assert_sized e c0 c1 E) (IH c1 c H)). }
  destruct (K ps empty c H) as [A1 A2 A3]. destruct A1 as [N S]; [split; [constructor | intros d Hd; apply elem_of_nil in Hd; destruct Hd] |].
  cbn in A2, A3. auto.
Qed.

(** ** What the keys forget. The key of a predicate does not contain its world, and all groups have the
    same key, so entailments that fail are reported when only these differ. *)
Definition P_at (w : string) : pexpr := EPred "P" [PConst "a"] (Some w).
Definition eq_group (x : string) : pexpr := EIdent (PGroup [PConst x; PConst "b"]) (PConst "c").
Lemma units_unsat v : ~ exists f, satisfies f [[Lit v true]; [Lit v false]].
Proof.
  intros [f H]. destruct (H [Lit v true] ltac:(left)) as (l & Hl & T), (H [Lit v false] ltac:(right; left)) as (m & Hm & U).
  apply elem_of_list_singleton in Hl, Hm. subst. unfold lit_true in *. cbn in *. congruence.
Qed.
Theorem C69_world_refuted : exists ps g c, entailment_query ps g = Some c /\ (~ exists f, satisfies f (clauses c)) /\ ~ entails ps g.
Proof.
  exists [P_at "w1"], (P_at "w2"), (Cnf {["P(a)"%string := 0]} 1 [[Lit 0 true]; [Lit 0 false]] []). split; [reflexivity |]. split; [apply units_unsat |].
  intros E. specialize (E (fun a => match a with EPred _ _ (Some w) => String.eqb w "w1" | _ => false end)). cbn in E. discriminate E.
  - intros a b H. destruct a, b; cbn in *; try contradiction; try reflexivity. destruct H as (_ & _ & ->). reflexivity.
  - intros e He. apply elem_of_list_singleton in He. subst e. reflexivity.
Qed.
Theorem C69_group_refuted : exists ps g c, entailment_query ps g = Some c /\ (~ exists f, satisfies f (clauses c)) /\ ~ entails ps g.
Proof.
  exists [eq_group "x"], (eq_group "y"), (Cnf {["=<group>=c"%string := 0]} 1 [[Lit 0 true]; [Lit 0 false]] []). split; [reflexivity |]. split; [apply units_unsat |].
  intros E. specialize (E (fun a => match a with EIdent x y => existsb (fun t => match t with PGroup [PConst s; _] => String.eqb s "x" | _ => false end) [norm x; norm y] | _ => false end)).
  cbn in E. discriminate E.
  - intros a b H. destruct a, b; cbn in H |- *; try contradiction; try reflexivity. destruct H as [[-> ->] | [-> ->]]; [reflexivity |]. rewrite !orb_false_r. apply orb_comm.
  - intros e He. apply elem_of_list_singleton in He. subst e. reflexivity.
Qed.

(** ** Examples: modus tollens with a shared subformula and a symmetric equation. *)
Definition ex_p : pexpr := EPred "P" [PConst "a"; PVar "x"] None.
Definition ex_q : pexpr := EIdent (PConst "b") (PConst "a").
Definition ex_q' : pexpr := EIdent (PConst "a") (PConst "b").
Definition ex_premises : list pexpr := [EBin CImplies (EBin COr ex_p (EAtom "r")) (EBin CAnd ex_q (EAtom "s")); ENot (EBin CAnd ex_q' (EAtom "s"))].
Example C69_example : option_map (fun c => (num_vars c, clauses c)) (from_premises ex_premises)
  = Some (6%nat, [[Lit 0 true; Lit 1 true; Lit 2 false]; [Lit 0 false; Lit 2 true]; [Lit 1 false; Lit 2 true];
                  [Lit 3 true; Lit 5 false]; [Lit 4 true; Lit 5 false]; [Lit 3 false; Lit 4 false; Lit 5 true];
                  [Lit 2 false; Lit 5 true]; [Lit 3 false; Lit 4 false]]).
Proof. vm_compute. reflexivity. Qed.
Lemma ex_clean : Forall clean ex_premises /\ clean (ENot ex_p).
Proof.
  assert (forall s, Forall (fun a => bool_decide (a ∉ punctuation) = true) (chars s) -> Forall plain_char (chars s)) as F.
  { intros s H. eapply Forall_impl; [exact H |]. intros a Ha. apply bool_decide_eq_true in Ha. exact Ha. }
  assert (plain "P" /\ plain "a" /\ plain "b" /\ plain "x") as (A & B & C & D) by (repeat split; try discriminate; apply F; repeat constructor).
  unfold clean. cbn. unfold ex_premises. repeat (rewrite ?Forall_cons, ?Forall_nil; cbn). tauto.
Qed.
Example C69_certified_example : match entailment_query ex_premises (ENot ex_p) with
  | Some c => check_refutation (num_vars c) (clauses c) [] = Some true | None => False end.
Proof. vm_compute. reflexivity. Qed.
Example C69_sound_example : match from_premises ex_premises with
  | Some c => length [false; false; false; true; false; false] = num_vars c /\
      forallb (existsb (value (model_fn [false; false; false; true; false; false]))) (clauses c) = true /\
      atom_value c ex_q' [false; false; false; true; false; false] = Some true
  | None => False end.
Proof. vm_compute. auto. Qed.
