(** Proofs about the clausifier: what each function adds to the clause set. *)
From Coq Require Import String List Arith Bool Lia Sorted.
From stdpp Require Import gmap strings list sorting.
From Verif Require Import UnifyModel RupModel RupProofs CnfModel.
Local Open Scope list_scope.

(** [clause_lits] satisfies the code's recursive equations (cnf.rs:228-259). *)
Lemma clause_lits_of_spec c e pos : clause_lits_of pos c e = clause_lits_of true c (if pos then e else negate_expr e).
Proof.
  destruct pos; [reflexivity |].
  destruct e as [p l w | a b | s | k a b | a | q x b | o a | o a b | n]; try (destruct k); reflexivity.
Qed.
Lemma clause_lits_eq c e : clause_lits c e =
  match lit_of_atom c e with
  | Some (l, c) => Some ([l], c)
  | None =>
      match e with
      | EBin COr a b => '(v, c) ← clause_lits c a; '(w, c) ← clause_lits c b; Some (v ++ w, c)
      | EBin CImplies a b => '(v, c) ← clause_lits c (negate_expr a); '(w, c) ← clause_lits c b; Some (v ++ w, c)
      | ENot (EBin CAnd a b) => '(v, c) ← clause_lits c (negate_expr a); '(w, c) ← clause_lits c (negate_expr b); Some (v ++ w, c)
      | ENot (ENot x) => clause_lits c x
      | _ => '(l, c) ← encode c e; Some ([l], c)
      end
  end.
Proof.
  unfold clause_lits. destruct e as [p l w | a b | s | k a b | a | q x b | o a | o a b | n]; try reflexivity.
  - destruct k; cbn [clause_lits_of lit_of_atom]; try reflexivity. rewrite (clause_lits_of_spec c a false). reflexivity.
  - destruct a as [p l w | a b | s | k a b | a | q x b | o a | o a b | n]; try reflexivity.
    destruct k; try reflexivity. cbn [clause_lits_of lit_of_atom atom_key mbind option_bind]. rewrite (clause_lits_of_spec c a false).
    destruct (clause_lits_of true c (negate_expr a)) as [[v c'] |]; [| reflexivity]. cbn. rewrite (clause_lits_of_spec c' b false). reflexivity.
Qed.

(** The value of a literal. *)
Definition value (f : nat -> bool) (l : lit) : bool := Bool.eqb (f (lvar l)) (lpos l).
Lemma value_true f l : value f l = true <-> lit_true f l.
Proof. unfold value, lit_true. apply eqb_true_iff. Qed.
Lemma value_negated f l : value f (negated l) = negb (value f l).
Proof. unfold value. cbn. destruct (f (lvar l)), (lpos l); reflexivity. Qed.
Lemma clause_true_existsb f c : clause_true f c <-> existsb (value f) c = true.
Proof.
  unfold clause_true. rewrite existsb_exists. split; intros (l & A & B); exists l; (split; [apply elem_of_list_In; exact A |]); apply value_true; exact B.
Qed.
Lemma satisfies_app f a b : satisfies f (a ++ b) <-> satisfies f a /\ satisfies f b.
Proof.
  unfold satisfies. split; [intros H; split; intros c Hc; apply H, elem_of_app; auto |].
  intros [A B] c Hc. apply elem_of_app in Hc as [Hc | Hc]; auto.
Qed.
Lemma satisfies_one f c : satisfies f [c] <-> clause_true f c.
Proof. unfold satisfies. split; [intros H; apply H; left | intros H d Hd; apply elem_of_list_singleton in Hd; subst; exact H]. Qed.

(** ** [push_clause] *)
Lemma insert_sorted_perm l c : insert_sorted l c ≡ₚ l :: c.
Proof. induction c as [| m c IH]; cbn; [reflexivity |]. destruct (lit_key_leb l m); [reflexivity |]. rewrite IH. apply perm_swap. Qed.
Lemma sort_clause_perm c : sort_clause c ≡ₚ c.
Proof. unfold sort_clause. induction c as [| l c IH]; cbn; [reflexivity |]. rewrite insert_sorted_perm, IH. reflexivity. Qed.
Lemma dedup_elem c l : l ∈ dedup c <-> l ∈ c.
Proof.
  induction c as [| m c IH]; [reflexivity |]. destruct c as [| n c]; [reflexivity |]. cbn [dedup].
  destruct (bool_decide (m = n)) eqn:E; [apply bool_decide_eq_true in E; subst n |]; rewrite ?elem_of_cons in *; rewrite IH; rewrite ?elem_of_cons; tauto.
Qed.
Lemma dedup_adjacent c : adjacent_vars (dedup c) = true -> exists l m, l ∈ c /\ m ∈ c /\ l <> m /\ lvar l = lvar m.
Proof.
  induction c as [| m c IH]; [discriminate |]. destruct c as [| n c]; [discriminate |].
  change (dedup (m :: n :: c)) with (if bool_decide (m = n) then dedup (n :: c) else m :: dedup (n :: c)).
  assert (forall l k x y, x ∈ n :: c /\ y ∈ n :: c /\ l <> k /\ lvar l = lvar k -> x ∈ m :: n :: c /\ y ∈ m :: n :: c /\ l <> k /\ lvar l = lvar k) as W
    by (intros; rewrite !(elem_of_cons (n :: c)); tauto).
  destruct (bool_decide (m = n)) eqn:E; [intros H; destruct (IH H) as (l & k & ?); exists l, k; apply W; auto |]. apply bool_decide_eq_false in E.
  assert (exists t, dedup (n :: c) = n :: t) as [t Et].
  { clear. revert n. induction c as [| k c IH]; intros n; [exists []; reflexivity |]. cbn [dedup]. destruct (bool_decide (n = k)) eqn:E; [| eexists; reflexivity].
    apply bool_decide_eq_true in E. subst k. apply IH. }
  rewrite Et in *. cbn [adjacent_vars]. intros H. apply orb_true_iff in H as [H | H].
  - exists m, n. apply Nat.eqb_eq in H. split; [left | split; [right; left | auto]].
  - destruct (IH H) as (l & k & ?). exists l, k. apply W. auto.
Qed.
Lemma push_satisfies f c v : satisfies f (clauses (push_clause c v)) <-> satisfies f (clauses c) /\ clause_true f v.
Proof.
  assert (clause_true f (dedup (sort_clause v)) <-> clause_true f v) as E.
  { unfold clause_true. split; intros (l & A & B); exists l; (split; [| exact B]).
    - apply (proj1 (dedup_elem _ _)) in A. rewrite sort_clause_perm in A. exact A.
    - apply dedup_elem. rewrite sort_clause_perm. exact A. }
  unfold push_clause. destruct (adjacent_vars (dedup (sort_clause v))) eqn:Ea.
  - apply dedup_adjacent in Ea as (l & m & A & B & N & Ev). rewrite sort_clause_perm in A, B.
    assert (clause_true f v).
    { destruct l as [x p], m as [y q]. cbn in Ev. subst y. destruct (bool_decide (f x = p)) eqn:D; [apply bool_decide_eq_true in D | apply bool_decide_eq_false in D].
      - exists (Lit x p). split; [exact A | exact D].
      - exists (Lit x q). split; [exact B |]. unfold lit_true. cbn. destruct (f x), p, q; congruence. }
    tauto.
  - destruct (bool_decide (dedup (sort_clause v) ∈ clauses c)) eqn:D.
    + apply bool_decide_eq_true in D. split; [intros H; split; [exact H | apply E, H, D] | tauto].
    + cbn [clauses]. rewrite satisfies_app, satisfies_one, E. reflexivity.
Qed.
Lemma push_fields c v : atom_of (push_clause c v) = atom_of c /\ num_vars (push_clause c v) = num_vars c /\ expr_cache (push_clause c v) = expr_cache c.
Proof. unfold push_clause. destruct (adjacent_vars _); [auto |]. destruct (bool_decide _); auto. Qed.
Lemma push_range n c v : db_in_range n (clauses c) -> in_range n v -> db_in_range n (clauses (push_clause c v)).
Proof.
  intros R Rv. unfold push_clause. destruct (adjacent_vars _); [exact R |]. destruct (bool_decide _); [exact R |]. cbn [clauses].
  intros d Hd. apply elem_of_app in Hd as [Hd | Hd]; [apply R; exact Hd |]. apply elem_of_list_singleton in Hd. subst d.
  intros l Hl. apply (proj1 (dedup_elem _ _)) in Hl. rewrite sort_clause_perm in Hl. apply Rv. exact Hl.
Qed.
Lemma push_all_spec ds : forall c, let c' := foldl push_clause c ds in
  (forall f, satisfies f (clauses c') <-> satisfies f (clauses c) /\ satisfies f ds) /\
  atom_of c' = atom_of c /\ num_vars c' = num_vars c /\ expr_cache c' = expr_cache c /\
  (forall n, db_in_range n (clauses c) -> db_in_range n ds -> db_in_range n (clauses c')).
Proof.
  induction ds as [| d ds IH]; intros c; cbn.
  - split; [| auto]. intros f. split; [intros H; split; [exact H | intros d Hd; apply elem_of_nil in Hd; destruct Hd] | tauto].
  - destruct (IH (push_clause c d)) as (A & B & C & D & E). destruct (push_fields c d) as (B' & C' & D').
    rewrite B, C, D. split; [| split; [exact B' | split; [exact C' | split; [exact D' |]]]].
    + intros f. rewrite A, push_satisfies. change (d :: ds) with ([d] ++ ds). rewrite satisfies_app, satisfies_one. tauto.
    + intros n Hn Hd. apply E; [apply push_range; [exact Hn | apply Hd; left] | intros x Hx; apply Hd; right; exact Hx].
Qed.

(** ** Truth of expressions over keyed atoms. *)
Fixpoint truth_with (I : pexpr -> bool) (e : pexpr) : bool :=
  match e with
  | ENot p => negb (truth_with I p)
  | EBin CAnd p q => truth_with I p && truth_with I q
  | EBin COr p q => truth_with I p || truth_with I q
  | EBin CImplies p q => implb (truth_with I p) (truth_with I q)
  | EBin CIff p q => Bool.eqb (truth_with I p) (truth_with I q)
  | _ => I e
  end.
Definition keyed (K : string -> bool) (e : pexpr) : bool := match atom_key e with Some k => K k | None => false end.
Notation truth K := (truth_with (keyed K)).
(** The atoms of an expression. *)
Fixpoint atoms (e : pexpr) : list pexpr :=
  match e with ENot p => atoms p | EBin _ p q => atoms p ++ atoms q | _ => [e] end.
Definition covered (c : cnf) (e : pexpr) : Prop := forall a, a ∈ atoms e -> exists k, atom_key a = Some k /\ is_Some (atom_of c !! k).

Definition op_val (o : op) (a b : bool) : bool :=
  match o with OpAnd => a && b | OpOr => a || b | OpImpl => implb a b | OpIff => Bool.eqb a b end.
Definition agree (f : nat -> bool) (K : string -> bool) (c : cnf) : Prop := forall k v, atom_of c !! k = Some v -> f v = K k.

Record wf (c : cnf) : Prop := Wf {
  wf_atoms : forall k v, atom_of c !! k = Some v -> (v < num_vars c)%nat;
  wf_range : db_in_range (num_vars c) (clauses c);
  wf_cache : forall o a b x, cache_get (o, a, b) (expr_cache c) = Some x -> (lvar x < num_vars c)%nat /\
    forall f, satisfies f (clauses c) -> value f x = op_val o (value f a) (value f b) }.
Record grows (c c' : cnf) : Prop := Grows {
  g_atoms : forall k v, atom_of c !! k = Some v -> atom_of c' !! k = Some v;
  g_vars : (num_vars c <= num_vars c')%nat;
  g_clauses : forall f, satisfies f (clauses c') -> satisfies f (clauses c) }.
(** Every model of [c] that agrees with [K] extends to one of [c']. *)
Definition extends (c c' : cnf) : Prop := forall f K, satisfies f (clauses c) -> agree f K c ->
  exists f', satisfies f' (clauses c') /\ agree f' K c' /\ forall v, (v < num_vars c)%nat -> f' v = f v.
Definition step (c c' : cnf) : Prop := wf c' /\ grows c c' /\ extends c c'.

Lemma grows_refl c : grows c c.
Proof. split; auto. Qed.
Lemma grows_trans a b c : grows a b -> grows b c -> grows a c.
Proof. intros [A1 A2 A3] [B1 B2 B3]. split; [auto | lia | auto]. Qed.
Lemma step_refl c : wf c -> step c c.
Proof. intros W. split; [exact W | split; [apply grows_refl |]]. intros f K A B. exists f. auto. Qed.
Lemma step_trans a b c : step a b -> step b c -> step a c.
Proof.
  intros (A1 & A2 & A3) (B1 & B2 & B3). split; [exact B1 | split; [eapply grows_trans; eauto |]]. intros f K Hf Ha.
  destruct (A3 f K Hf Ha) as (f' & X & Y & Z). destruct (B3 f' K X Y) as (f'' & X' & Y' & Z'). exists f''. split; [exact X' | split; [exact Y' |]].
  intros v Hv. pose proof (g_vars _ _ A2). rewrite Z' by lia. apply Z. exact Hv.
Qed.
Lemma covered_grows c c' e : grows c c' -> covered c e -> covered c' e.
Proof. intros G H a Ha. destruct (H a Ha) as (k & E & [v Hv]). exists k. split; [exact E |]. exists v. apply G. exact Hv. Qed.
Lemma agree_grows f K c c' : grows c c' -> agree f K c' -> agree f K c.
Proof. intros G H k v Hv. apply H, G, Hv. Qed.

Lemma wf_empty : wf empty.
Proof. split; cbn; [intros k v H; rewrite lookup_empty in H; discriminate | intros d Hd; apply elem_of_nil in Hd; destruct Hd | discriminate]. Qed.

(** Models only depend on the variables in range. *)
Lemma satisfies_agree n f g ds : db_in_range n ds -> (forall v, (v < n)%nat -> f v = g v) -> satisfies f ds -> satisfies g ds.
Proof.
  intros R E H c Hc. destruct (H c Hc) as (l & Hl & T). exists l. split; [exact Hl |]. unfold lit_true in *. rewrite <- E; [exact T | apply (R c Hc l Hl)].
Qed.

(** ** [atom_var] *)
Lemma atom_var_ok c key v c' : wf c -> atom_var c key = (v, c') -> step c c' /\ atom_of c' !! key = Some v /\ (v < num_vars c')%nat.
Proof.
  intros W. unfold atom_var. destruct (atom_of c !! key) as [u |] eqn:E.
  - intros H. injection H as <- <-. split; [apply step_refl; exact W | split; [exact E | apply (wf_atoms _ W key); exact E]].
  - cbn. intros H. injection H as <- <-. split; [| cbn; split; [apply lookup_insert | lia]].
    split; [| split].
    + split; cbn.
      * intros k u Hk. apply lookup_insert_Some in Hk as [[_ <-] | [_ Hk]]; [lia |]. apply (wf_atoms _ W) in Hk. lia.
      * intros d Hd l Hl. pose proof (wf_range _ W d Hd l Hl). lia.
      * intros o a b x Hx. destruct (wf_cache _ W o a b x Hx) as [A B]. split; [lia | exact B].
    + split; cbn; [| lia | auto]. intros k u Hk. rewrite lookup_insert_ne; [exact Hk | congruence].
    + intros f K Hf Ha. exists (fun u => if u =? num_vars c then K key else f u)%nat. cbn. split; [| split].
      * apply (satisfies_agree (num_vars c) f); [apply W | | exact Hf]. intros u Hu. rewrite (proj2 (Nat.eqb_neq u (num_vars c))) by lia. reflexivity.
      * intros k u Hk. cbn in Hk. apply lookup_insert_Some in Hk as [[<- <-] | [_ Hk]]; [rewrite Nat.eqb_refl; reflexivity |].
        pose proof (wf_atoms _ W k u Hk). rewrite (proj2 (Nat.eqb_neq u (num_vars c))) by lia. apply Ha. exact Hk.
      * intros u Hu. rewrite (proj2 (Nat.eqb_neq u (num_vars c))) by lia. reflexivity.
Qed.

(** ** [gate] *)
Lemma satisfies_forallb f ds : satisfies f ds <-> forallb (existsb (value f)) ds = true.
Proof.
  unfold satisfies. rewrite forallb_forall. split; intros H c Hc; apply clause_true_existsb, H; apply elem_of_list_In; exact Hc.
Qed.
Lemma definition_sound f o x a b : satisfies f (definition_of o x a b) <-> value f x = op_val o (value f a) (value f b).
Proof.
  rewrite satisfies_forallb. destruct o; cbn [definition_of forallb existsb op_val]; rewrite ?value_negated;
  destruct (value f x), (value f a), (value f b); cbn; split; (reflexivity || discriminate || auto).
Qed.
Lemma definition_range n o x a b : (lvar x < n)%nat -> (lvar a < n)%nat -> (lvar b < n)%nat -> db_in_range n (definition_of o x a b).
Proof.
  intros A B C d Hd l Hl.
  assert (lvar l = lvar x \/ lvar l = lvar a \/ lvar l = lvar b) as [-> | [-> | ->]]; [| assumption..].
  apply elem_of_list_In in Hd, Hl. destruct o; cbn in Hd;
  repeat match goal with H : _ \/ _ |- _ => destruct H as [H | H] | H : False |- _ => destruct H end; subst d; cbn in Hl;
  repeat match goal with H : _ \/ _ |- _ => destruct H as [H | H] | H : False |- _ => destruct H end; subst l; cbn; auto.
Qed.
Lemma cache_get_cons k k' x l : cache_get k ((k', x) :: l) = if bool_decide (k = k') then Some x else cache_get k l.
Proof. reflexivity. Qed.
Lemma gate_ok c o a b x c' : wf c -> (lvar a < num_vars c)%nat -> (lvar b < num_vars c)%nat -> gate c o a b = (x, c') ->
  step c c' /\ (lvar x < num_vars c')%nat /\ atom_of c' = atom_of c /\
  forall f, satisfies f (clauses c') -> value f x = op_val o (value f a) (value f b).
Proof.
  intros W Ra Rb. unfold gate. destruct (cache_get (o, a, b) (expr_cache c)) as [y |] eqn:E.
  - intros H. injection H as <- <-. destruct (wf_cache _ W o a b y E) as [A B]. split; [apply step_refl; exact W | auto].
  - cbn [fresh]. set (x0 := Lit (num_vars c) true). set (c0 := Cnf (atom_of c) (S (num_vars c)) (clauses c) (expr_cache c)).
    destruct (push_all_spec (definition_of o x0 a b) c0) as (S1 & S2 & S3 & S4 & S5). set (c1 := foldl push_clause c0 (definition_of o x0 a b)) in *.
    intros H. injection H as <- <-. cbn [clauses atom_of num_vars expr_cache] in *. rewrite S2, S3.
    assert (Hdef : forall f, satisfies f (clauses c1) -> value f x0 = op_val o (value f a) (value f b)).
    { intros f Hf. apply S1 in Hf as [_ Hf]. apply definition_sound in Hf. exact Hf. }
    split; [| split; [cbn; lia | split; [reflexivity | exact Hdef]]].
    split; [| split].
    + split; cbn [clauses atom_of num_vars expr_cache].
      * intros k v Hk. cbn in Hk. apply (wf_atoms _ W) in Hk. cbn. lia.
      * apply S5; [| apply definition_range; cbn; lia]. intros d Hd l Hl. pose proof (wf_range _ W d Hd l Hl). cbn. lia.
      * intros o' a' b' y Hy. rewrite cache_get_cons in Hy. destruct (bool_decide ((o', a', b') = (o, a, b))) eqn:D.
        -- apply bool_decide_eq_true in D. injection D as -> -> ->. injection Hy as <-. split; [cbn; lia | exact Hdef].
        -- rewrite S4 in Hy. destruct (wf_cache _ W o' a' b' y Hy) as [A B]. split; [cbn; lia |]. intros f Hf. apply B. apply S1 in Hf as [Hf _]. exact Hf.
    + split; cbn [clauses atom_of num_vars expr_cache]; [auto | cbn; lia |]. intros f Hf. apply S1 in Hf as [Hf _]. exact Hf.
    + intros f K Hf Ha. set (g := fun u => if (u =? num_vars c)%nat then op_val o (value f a) (value f b) else f u).
      assert (Hg : forall u, (u < num_vars c)%nat -> g u = f u) by (intros u Hu; unfold g; rewrite (proj2 (Nat.eqb_neq u (num_vars c))) by lia; reflexivity).
      exists g. cbn [clauses atom_of num_vars]. split; [| split; [| exact Hg]].
      * apply S1. split; [apply (satisfies_agree (num_vars c) f); [apply W | intros u Hu; symmetry; apply Hg; exact Hu | exact Hf] |].
        apply definition_sound. unfold value at 2 3. rewrite !Hg by assumption. fold (value f a) (value f b). unfold value, x0. cbn [lvar lpos].
        unfold g. rewrite Nat.eqb_refl. destruct (op_val _ _ _); reflexivity.
      * intros k v Hk. cbn in Hk. rewrite Hg by (apply (wf_atoms _ W k); exact Hk). apply Ha. exact Hk.
Qed.

(** ** [encode] *)
Lemma order2_spec o a b a' b' : o <> OpImpl -> order2 a b = (a', b') ->
  (forall f, op_val o (value f a') (value f b') = op_val o (value f a) (value f b)) /\
  ((lvar a' = lvar a /\ lvar b' = lvar b) \/ (lvar a' = lvar b /\ lvar b' = lvar a)).
Proof.
  intros N. unfold order2. destruct (lit_key_leb a b); intros H; injection H as <- <-; [auto |]. split; [| auto].
  intros f. destruct o; [| | congruence |]; destruct (value f a), (value f b); reflexivity.
Qed.
Definition denotes (c : cnf) (l : lit) (e : pexpr) : Prop :=
  (lvar l < num_vars c)%nat /\ forall f K, satisfies f (clauses c) -> agree f K c -> value f l = truth K e.
Lemma denotes_grows c c' l e : grows c c' -> denotes c l e -> denotes c' l e.
Proof. intros G [A B]. pose proof (g_vars _ _ G). split; [lia |]. intros f K Hf Ha. apply B; [apply G; exact Hf | eapply agree_grows; eauto]. Qed.

Definition is_atom (e : pexpr) : Prop := match e with ENot _ | EBin _ _ _ => False | _ => True end.
Lemma encode_atom c e : is_atom e -> encode c e = (key ← atom_key e; let '(v, c) := atom_var c key in Some (Lit v true, c)).
Proof. destruct e; cbn; tauto. Qed.
Lemma truth_atom I e : is_atom e -> truth_with I e = I e.
Proof. destruct e; cbn; tauto. Qed.
Lemma atoms_atom e : is_atom e -> atoms e = [e].
Proof. destruct e; cbn; tauto. Qed.
Lemma atom_ok c e key v c' : is_atom e -> wf c -> atom_key e = Some key -> atom_var c key = (v, c') ->
  step c c' /\ denotes c' (Lit v true) e /\ covered c' e.
Proof.
  intros Ia W E H. destruct (atom_var_ok c key v c' W H) as (St & Hk & Hv). split; [exact St |]. split.
  - split; [exact Hv |]. intros f K Hf Ha. rewrite truth_atom by exact Ia. unfold keyed. rewrite E. unfold value. cbn. rewrite (Ha key v Hk). destruct (K key); reflexivity.
  - intros a Hin. rewrite atoms_atom in Hin by exact Ia. apply elem_of_list_singleton in Hin. subst a. exists key. split; [exact E | eexists; exact Hk].
Qed.
Lemma covered_bin c k p q : covered c p -> covered c q -> covered c (EBin k p q).
Proof. intros A B a Ha. cbn in Ha. apply elem_of_app in Ha as [Ha | Ha]; auto. Qed.
Lemma encode_ok e : forall c l c', wf c -> encode c e = Some (l, c') -> step c c' /\ denotes c' l e /\ covered c' e.
Proof.
  induction e as [p ts w | a b | s | k p IHp q IHq | p IHp | qu x b IHb | o a IHa | o a IHa b IHb | n]; intros c l c' W H.
  4: { cbn [encode] in H. destruct (encode c p) as [[a c1] |] eqn:E1; [| discriminate]. cbn in H.
    destruct (encode c1 q) as [[b c2] |] eqn:E2; [| discriminate]. cbn in H.
    destruct (IHp _ _ _ W E1) as (S1 & D1 & C1). destruct (IHq _ _ _ (proj1 S1) E2) as (S2 & D2 & C2).
    apply (denotes_grows _ _ _ _ (proj1 (proj2 S2))) in D1. apply (covered_grows _ _ _ (proj1 (proj2 S2))) in C1.
    assert (exists a' b', (match k with CImplies => (a, b) | _ => order2 a b end) = (a', b') /\ (lvar a' < num_vars c2)%nat /\ (lvar b' < num_vars c2)%nat /\
      forall f, op_val (op_of k) (value f a') (value f b') = op_val (op_of k) (value f a) (value f b)) as (a' & b' & E & R1 & R2 & V).
    { destruct D1 as [D1 _], D2 as [D2 _]. destruct k.
      1, 2, 4: (destruct (order2 a b) as [a' b'] eqn:E; exists a', b'; split; [reflexivity |];
        match goal with |- _ /\ _ /\ forall f, op_val (op_of ?k) _ _ = _ => destruct (order2_spec (op_of k) a b a' b' ltac:(discriminate) E) as [V [[-> ->] | [-> ->]]] end; auto).
      exists a, b. auto. }
    rewrite E in H. injection H as H. destruct (gate_ok c2 (op_of k) a' b' l c' (proj1 S2) R1 R2 H) as (S3 & Rl & Ea & Vl).
    split; [exact (step_trans _ _ _ (step_trans _ _ _ S1 S2) S3) |]. split.
    - split; [exact Rl |]. intros f K Hf Ha. rewrite (Vl f Hf), V.
      assert (satisfies f (clauses c2)) as Hf2 by (apply S3; exact Hf). assert (agree f K c2) as Ha2 by (eapply agree_grows; [apply S3 | exact Ha]).
      rewrite (proj2 D1 f K Hf2 Ha2), (proj2 D2 f K Hf2 Ha2). destruct k; reflexivity.
    - apply (covered_grows c2 c'); [apply S3 | apply covered_bin; assumption]. }
  4: { cbn [encode] in H. destruct (encode c p) as [[a c1] |] eqn:E1; [| discriminate]. cbn in H. injection H as <- <-.
    destruct (IHp _ _ _ W E1) as (S1 & D1 & C1). split; [exact S1 |]. split; [| exact C1].
    split; [exact (proj1 D1) |]. intros f K Hf Ha. rewrite value_negated, (proj2 D1 f K Hf Ha). reflexivity. }
  all: rewrite encode_atom in H by exact I;
    match type of H with context [atom_key ?e] => destruct (atom_key e) as [key |] eqn:Ek; [| discriminate] end; cbn [mbind option_bind] in H;
    destruct (atom_var c key) as [v c1] eqn:Ev; injection H as <- <-; (eapply atom_ok; [exact I | exact W | exact Ek | exact Ev]).
Qed.

(** ** [clause_lits] and [assert] *)
Definition clause_denotes (c : cnf) (v : clause) (e : pexpr) : Prop :=
  in_range (num_vars c) v /\ forall f K, satisfies f (clauses c) -> agree f K c -> existsb (value f) v = truth K e.
Lemma clause_denotes_grows c c' v e : grows c c' -> clause_denotes c v e -> clause_denotes c' v e.
Proof.
  intros G [A B]. pose proof (g_vars _ _ G). split; [intros l Hl; specialize (A l Hl); lia |].
  intros f K Hf Ha. apply B; [apply G; exact Hf | eapply agree_grows; eauto].
Qed.
Lemma clause_denotes_one c l e : denotes c l e -> clause_denotes c [l] e.
Proof.
  intros [A B]. split; [intros m Hm; apply elem_of_list_singleton in Hm; subst; exact A |]. intros f K Hf Ha. cbn. rewrite orb_false_r. auto.
Qed.
Lemma clause_denotes_app c v w p q e : (forall K, truth K e = truth K p || truth K q) -> clause_denotes c v p -> clause_denotes c w q -> clause_denotes c (v ++ w) e.
Proof.
  intros E [A B] [A' B']. split; [intros l Hl; apply elem_of_app in Hl as [Hl | Hl]; auto |].
  intros f K Hf Ha. rewrite existsb_app, (B f K Hf Ha), (B' f K Hf Ha), E. reflexivity.
Qed.
Definition neg_if (pos : bool) (e : pexpr) : pexpr := if pos then e else ENot e.
Lemma lit_of_atom_ok c e l c' : wf c -> lit_of_atom c e = Some (l, c') -> step c c' /\ denotes c' l e /\ covered c' e.
Proof.
  intros W H. destruct e as [p ts w | a b | s | k p q | p | qu x b | o a | o a b | n]; try discriminate.
  1, 2, 3: (cbn [lit_of_atom] in H;
    match type of H with context [atom_key ?e] => destruct (atom_key e) as [key |] eqn:Ek; [| discriminate] end; cbn [mbind option_bind] in H;
    destruct (atom_var c key) as [v c1] eqn:Ev; injection H as <- <-; (eapply atom_ok; [exact I | exact W | exact Ek | exact Ev])).
  cbn [lit_of_atom] in H. destruct (atom_key p) as [key |] eqn:Ek; [| discriminate]. cbn [mbind option_bind] in H.
  destruct (atom_var c key) as [v c1] eqn:Ev. injection H as <- <-.
  assert (is_atom p) as Ia by (destruct p; try discriminate; exact I).
  destruct (atom_ok c p key v c1 Ia W Ek Ev) as (S1 & D1 & C1). split; [exact S1 |]. split; [| exact C1].
  split; [exact (proj1 D1) |]. intros f K Hf Ha. change (Lit v false) with (negated (Lit v true)). rewrite value_negated, (proj2 D1 f K Hf Ha). reflexivity.
Qed.
Lemma encode_clause_ok c e v c' : wf c ->
  match lit_of_atom c e with Some (l, c) => Some ([l], c) | None => '(l, c) ← encode c e; Some ([l], c) end = Some (v, c') ->
  step c c' /\ clause_denotes c' v e /\ covered c' e.
Proof.
  intros W H. destruct (lit_of_atom c e) as [[l c1] |] eqn:E.
  - injection H as <- <-. destruct (lit_of_atom_ok c e l c1 W E) as (A & B & C). split; [exact A | split; [apply clause_denotes_one; exact B | exact C]].
  - destruct (encode c e) as [[l c1] |] eqn:E2; [| discriminate]. cbn in H. injection H as <- <-.
    destruct (encode_ok e c l c1 W E2) as (A & B & C). split; [exact A | split; [apply clause_denotes_one; exact B | exact C]].
Qed.
Lemma two_clauses (f1 f2 : cnf -> option (clause * cnf)) p q e c v c' :
  (forall K, truth K e = truth K p || truth K q) -> (forall a, a ∈ atoms e -> a ∈ atoms p ++ atoms q) ->
  (forall c v c', wf c -> f1 c = Some (v, c') -> step c c' /\ clause_denotes c' v p /\ covered c' p) ->
  (forall c v c', wf c -> f2 c = Some (v, c') -> step c c' /\ clause_denotes c' v q /\ covered c' q) ->
  wf c -> ('(v, c) ← f1 c; '(w, c) ← f2 c; Some (v ++ w, c)) = Some (v, c') ->
  step c c' /\ clause_denotes c' v e /\ covered c' e.
Proof.
  intros Ht Hat H1 H2 W H. destruct (f1 c) as [[v1 c1] |] eqn:E1; [| discriminate]. cbn in H.
  destruct (f2 c1) as [[v2 c2] |] eqn:E2; [| discriminate]. cbn in H. injection H as <- <-.
  destruct (H1 _ _ _ W E1) as (S1 & D1 & C1). destruct (H2 _ _ _ (proj1 S1) E2) as (S2 & D2 & C2).
  split; [exact (step_trans _ _ _ S1 S2) |]. split.
  - apply (clause_denotes_app c2 v1 v2 p q e Ht); [exact (clause_denotes_grows _ _ _ _ (proj1 (proj2 S2)) D1) | exact D2].
  - intros a Ha. apply Hat, elem_of_app in Ha as [Ha | Ha]; [exact (covered_grows _ _ _ (proj1 (proj2 S2)) C1 a Ha) | exact (C2 a Ha)].
Qed.
Lemma clause_lits_of_ok e : forall pos c v c', wf c -> clause_lits_of pos c e = Some (v, c') ->
  step c c' /\ clause_denotes c' v (neg_if pos e) /\ covered c' (neg_if pos e).
Proof.
  induction e as [p ts w | a b | s | k p IHp q IHq | p IHp | qu x b IHb | o a IHa | o a IHa b IHb | n]; intros pos c v c' W H.
  4: { destruct pos, k; cbn [clause_lits_of] in H; unfold neg_if.
    all: try (apply (encode_clause_ok c _ v c' W); exact H).
    - apply (two_clauses (fun c => clause_lits_of true c p) (fun c => clause_lits_of true c q) p q (EBin COr p q) c v c') in H; [exact H | reflexivity | auto | intros ? ? ? Wx Hx; exact (IHp true _ _ _ Wx Hx) | intros ? ? ? Wx Hx; exact (IHq true _ _ _ Wx Hx) | exact W].
    - apply (two_clauses (fun c => clause_lits_of false c p) (fun c => clause_lits_of true c q) (ENot p) q (EBin CImplies p q) c v c') in H; [exact H | | auto | intros ? ? ? Wx Hx; exact (IHp false _ _ _ Wx Hx) | intros ? ? ? Wx Hx; exact (IHq true _ _ _ Wx Hx) | exact W].
      intros K. cbn. destruct (truth K p), (truth K q); reflexivity.
    - apply (two_clauses (fun c => clause_lits_of false c p) (fun c => clause_lits_of false c q) (ENot p) (ENot q) (ENot (EBin CAnd p q)) c v c') in H; [exact H | | auto | intros ? ? ? Wx Hx; exact (IHp false _ _ _ Wx Hx) | intros ? ? ? Wx Hx; exact (IHq false _ _ _ Wx Hx) | exact W].
      intros K. cbn. destruct (truth K p), (truth K q); reflexivity. }
  4: { destruct pos; unfold neg_if.
    - destruct (lit_of_atom c (ENot p)) as [[l c1] |] eqn:E.
      { cbn [clause_lits_of] in H. rewrite E in H. apply (encode_clause_ok c (ENot p) v c' W). rewrite E. exact H. }
      destruct p as [pp ts w | a b | s | k p q | p | qu x b | o a | o a b | n]; try (apply (encode_clause_ok c _ v c' W); exact H).
      + destruct k; try (apply (encode_clause_ok c _ v c' W); exact H).
        apply (IHp false c v c' W). exact H.
      + cbn [clause_lits_of] in H. rewrite E in H. destruct (IHp false c v c' W H) as (A & B & C). split; [exact A |]. split; [| exact C]. exact B.
    - cbn [clause_lits_of] in H. destruct (IHp true c v c' W H) as (A & B & C). split; [exact A |]. split; [| exact C].
      split; [exact (proj1 B) |]. intros f K Hf Ha. rewrite (proj2 B f K Hf Ha). cbn. rewrite negb_involutive. reflexivity. }
  all: destruct pos; unfold neg_if; apply (encode_clause_ok c _ v c' W); exact H.
Qed.
Lemma clause_lits_ok c e v c' : wf c -> clause_lits c e = Some (v, c') -> step c c' /\ clause_denotes c' v e /\ covered c' e.
Proof. intros W H. exact (clause_lits_of_ok e true c v c' W H). Qed.
Lemma truth_negate K e : truth K (negate_expr e) = negb (truth K e).
Proof. destruct e; cbn; rewrite ?negb_involutive; reflexivity. Qed.
Lemma atoms_negate e : atoms (negate_expr e) = atoms e.
Proof. destruct e; reflexivity. Qed.

(** What asserting an expression does to the models. *)
Record asserted (c c' : cnf) (e : pexpr) : Prop := Asserted {
  as_wf : wf c'; as_grows : grows c c'; as_covered : covered c' e;
  as_true : forall f K, satisfies f (clauses c') -> agree f K c' -> truth K e = true;
  as_extends : forall f K, satisfies f (clauses c) -> agree f K c -> truth K e = true ->
    exists f', satisfies f' (clauses c') /\ agree f' K c' /\ forall v, (v < num_vars c)%nat -> f' v = f v }.
Lemma push_asserted c c1 v e : step c c1 -> clause_denotes c1 v e -> covered c1 e -> asserted c (push_clause c1 v) e.
Proof.
  intros (W & G & X) [R D] C. destruct (push_fields c1 v) as (E1 & E2 & E3).
  assert (forall f K, agree f K (push_clause c1 v) <-> agree f K c1) as Ag by (intros; unfold agree; rewrite E1; reflexivity).
  split.
  - split.
    + intros k u Hk. rewrite E1 in Hk. rewrite E2. apply (wf_atoms _ W k). exact Hk.
    + rewrite E2. apply push_range; [apply W | exact R].
    + intros o a b x Hx. rewrite E3 in Hx. rewrite E2. destruct (wf_cache _ W o a b x Hx) as [A B]. split; [exact A |].
      intros f Hf. apply B. apply push_satisfies in Hf as [Hf _]. exact Hf.
  - apply (grows_trans c c1); [exact G |]. split; [intros k u Hk; rewrite E1; exact Hk | rewrite E2; lia | intros f Hf; apply push_satisfies in Hf as [Hf _]; exact Hf].
  - intros a Ha. destruct (C a Ha) as (k & Ek & Hk). exists k. rewrite E1. auto.
  - intros f K Hf Ha. apply push_satisfies in Hf as [Hf Hv]. rewrite <- (D f K Hf (proj1 (Ag f K) Ha)). apply clause_true_existsb. exact Hv.
  - intros f K Hf Ha T. destruct (X f K Hf Ha) as (f' & A & B & F). exists f'. split; [| split; [apply Ag; exact B | exact F]].
    apply push_satisfies. split; [exact A |]. apply clause_true_existsb. rewrite (D f' K A B). exact T.
Qed.
Lemma assert_ok e : forall c c', wf c -> assert_expr c e = Some c' -> asserted c c' e.
Proof.
  assert (forall c c' e, wf c -> ('(v, c) ← clause_lits c e; Some (push_clause c v)) = Some c' -> asserted c c' e) as One.
  { intros c c' e0 W H. destruct (clause_lits c e0) as [[v c1] |] eqn:E; [| discriminate]. cbn in H. injection H as <-.
    destruct (clause_lits_ok c e0 v c1 W E) as (A & B & C). apply push_asserted; assumption. }
  induction e as [p ts w | a b | s | k p IHp q IHq | p IHp | qu x b IHb | o a IHa | o a IHa b IHb | n]; intros c c' W H; try (apply One; [exact W | exact H]).
  destruct k; try (apply One; [exact W | exact H]); cbn [assert_expr] in H.
  - destruct (assert_expr c p) as [c1 |] eqn:E1; [| discriminate]. cbn in H. pose proof (IHp c c1 W E1) as A1. pose proof (IHq c1 c' (as_wf _ _ _ A1) H) as A2.
    split.
    + apply A2.
    + exact (grows_trans _ _ _ (as_grows _ _ _ A1) (as_grows _ _ _ A2)).
    + apply covered_bin; [exact (covered_grows _ _ _ (as_grows _ _ _ A2) (as_covered _ _ _ A1)) | apply A2].
    + intros f K Hf Ha. cbn. rewrite (as_true _ _ _ A2 f K Hf Ha).
      rewrite (as_true _ _ _ A1 f K (g_clauses _ _ (as_grows _ _ _ A2) f Hf) (agree_grows _ _ _ _ (as_grows _ _ _ A2) Ha)). reflexivity.
    + intros f K Hf Ha T. cbn in T. apply andb_true_iff in T as [T1 T2].
      destruct (as_extends _ _ _ A1 f K Hf Ha T1) as (f1 & X1 & Y1 & Z1). destruct (as_extends _ _ _ A2 f1 K X1 Y1 T2) as (f2 & X2 & Y2 & Z2).
      exists f2. split; [exact X2 | split; [exact Y2 |]]. intros v Hv. pose proof (g_vars _ _ (as_grows _ _ _ A1)). rewrite Z2 by lia. apply Z1. exact Hv.
  - destruct (clause_lits c (negate_expr p)) as [[v c1] |] eqn:E1; [| discriminate]. cbn in H.
    destruct (clause_lits c1 q) as [[w c2] |] eqn:E2; [| discriminate]. cbn in H. injection H as <-.
    destruct (clause_lits_ok _ _ _ _ W E1) as (S1 & D1 & C1). destruct (clause_lits_ok _ _ _ _ (proj1 S1) E2) as (S2 & D2 & C2).
    apply push_asserted.
    + exact (step_trans _ _ _ S1 S2).
    + apply (clause_denotes_app c2 v w (negate_expr p) q); [| exact (clause_denotes_grows _ _ _ _ (proj1 (proj2 S2)) D1) | exact D2].
      intros K. rewrite truth_negate. cbn. destruct (truth K p); reflexivity.
    + apply covered_bin; [| exact C2]. apply (covered_grows c1 c2); [apply S2 |]. intros a Ha. apply C1. rewrite atoms_negate. exact Ha.
Qed.
Lemma assert_all_ok l : forall c c', wf c -> assert_all c l = Some c' ->
  wf c' /\ grows c c' /\ (forall e, e ∈ l -> covered c' e) /\
  (forall f K, satisfies f (clauses c') -> agree f K c' -> forall e, e ∈ l -> truth K e = true) /\
  (forall f K, satisfies f (clauses c) -> agree f K c -> (forall e, e ∈ l -> truth K e = true) ->
    exists f', satisfies f' (clauses c') /\ agree f' K c').
Proof.
  induction l as [| e l IH]; intros c c' W H; cbn in H.
  - injection H as <-. split; [exact W | split; [apply grows_refl |]]. split; [intros e He; apply elem_of_nil in He; destruct He |].
    split; [intros f K _ _ e He; apply elem_of_nil in He; destruct He |]. intros f K A B _. eauto.
  - destruct (assert_expr c e) as [c1 |] eqn:E; [| discriminate]. cbn in H. pose proof (assert_ok e c c1 W E) as A.
    destruct (IH c1 c' (as_wf _ _ _ A) H) as (W' & G & C & T & X). split; [exact W' |]. split; [exact (grows_trans _ _ _ (as_grows _ _ _ A) G) |].
    split; [| split].
    + intros d Hd. apply elem_of_cons in Hd as [-> | Hd]; [exact (covered_grows _ _ _ G (as_covered _ _ _ A)) | auto].
    + intros f K Hf Ha d Hd. apply elem_of_cons in Hd as [-> | Hd]; [| eauto]. apply (as_true _ _ _ A f K); [apply G; exact Hf | eapply agree_grows; eauto].
    + intros f K Hf Ha Hl. destruct (as_extends _ _ _ A f K Hf Ha (Hl e ltac:(left))) as (f1 & X1 & Y1 & _).
      apply (X f1 K X1 Y1). intros d Hd. apply Hl. right. exact Hd.
Qed.
