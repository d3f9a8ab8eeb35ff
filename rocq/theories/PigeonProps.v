(** C76: the pigeonhole recogniser. *)
From Coq Require Import List Arith Bool String Lia.
From stdpp Require Import gmap list list_numbers.
From Verif Require Import UnifyModel CnfProofs PbModel PbRefute MatchModel MatchProofs HallProps PigeonModel PigeonUf.
Local Open Scope list_scope.
Local Open Scope nat_scope.

Lemma split_ok l : forall rows excl, split_clauses l = Some (rows, excl) ->
  (forall row, row ∈ rows -> exists c, c ∈ l /\ positive_disjunction c = Some row) /\ (forall p, p ∈ excl -> exists c, c ∈ l /\ exclusion_pair c = Some p) /\
  (forall c, c ∈ l -> (exists row, row ∈ rows /\ positive_disjunction c = Some row) \/ (exists p, p ∈ excl /\ exclusion_pair c = Some p)).
Proof.
  induction l as [| c l IH]; intros rows excl E; cbn [split_clauses] in E.
  - injection E as <- <-. repeat split; intros x I; apply elem_of_nil in I as [].
  - destruct (positive_disjunction c) as [atoms |] eqn:Ep.
    + destruct (length atoms =? 0); [discriminate |]. destruct (split_clauses l) as [[rows' excl'] |]; [| discriminate]. injection E as <- <-. destruct (IH rows' excl' eq_refl) as (H1 & H2 & H3). split; [| split].
      * intros row I. apply elem_of_cons in I as [-> | I]; [exists c; split; [left | exact Ep] |]. destruct (H1 row I) as (c' & Ic & Ec). exists c'. split; [right; exact Ic | exact Ec].
      * intros p I. destruct (H2 p I) as (c' & Ic & Ec). exists c'. split; [right; exact Ic | exact Ec].
      * intros x I. apply elem_of_cons in I as [-> | I]; [left; exists atoms; split; [left | exact Ep] |]. destruct (H3 x I) as [(row & Ir & Er) | K]; [left; exists row; split; [right; exact Ir | exact Er] | right; exact K].
    + destruct (exclusion_pair c) as [p |] eqn:Ex; [| discriminate]. destruct (split_clauses l) as [[rows' excl'] |]; [| discriminate]. injection E as <- <-. destruct (IH rows' excl' eq_refl) as (H1 & H2 & H3). split; [| split].
      * intros row I. destruct (H1 row I) as (c' & Ic & Ec). exists c'. split; [right; exact Ic | exact Ec].
      * intros q I. apply elem_of_cons in I as [-> | I]; [exists c; split; [left | exact Ex] |]. destruct (H2 q I) as (c' & Ic & Ec). exists c'. split; [right; exact Ic | exact Ec].
      * intros x I. apply elem_of_cons in I as [-> | I]; [right; exists p; split; [left | exact Ex] |]. destruct (H3 x I) as [K | (q & Iq & Eq)]; [left; exact K | right; exists q; split; [right; exact Iq | exact Eq]].
Qed.
(** The formula is true exactly when every row has a true variable and no excluded pair is true. *)
Lemma split_truth e rows excl I : split_clauses (flatten_and e) = Some (rows, excl) ->
  truth_with I e = true <-> (forall row, row ∈ rows -> exists a, a ∈ row /\ I (EAtom a) = true) /\ (forall p, p ∈ excl -> I (EAtom (fst p)) && I (EAtom (snd p)) = false).
Proof.
  intros E. destruct (split_ok _ _ _ E) as (H1 & H2 & H3). rewrite flatten_truth, forallb_forall. split.
  - intros T. split.
    + intros row Ir. destruct (H1 row Ir) as (c & Ic & Ec). apply elem_of_list_In in Ic. specialize (T c Ic). rewrite (disjunction_truth I c row Ec) in T. apply existsb_exists in T as (a & Ia & Ta). exists a. split; [apply elem_of_list_In, Ia | exact Ta].
    + intros [a b] Ip. destruct (H2 (a, b) Ip) as (c & Ic & Ec). apply elem_of_list_In in Ic. specialize (T c Ic). rewrite (exclusion_truth I c a b Ec) in T. apply negb_true_iff in T. exact T.
  - intros [T1 T2] c Ic. apply elem_of_list_In in Ic. destruct (H3 c Ic) as [(row & Ir & Er) | ([a b] & Ip & Ep)].
    + rewrite (disjunction_truth I c row Er). destruct (T1 row Ir) as (a & Ia & Ta). apply existsb_exists. exists a. split; [apply elem_of_list_In, Ia | exact Ta].
    + rewrite (exclusion_truth I c a b Ep). specialize (T2 (a, b) Ip). cbn [fst snd] in T2. rewrite T2. reflexivity.
Qed.
Lemma insert_all_ok l : forall seen, (exists s, insert_all seen l = Some s) <-> NoDup l /\ forall a, a ∈ l -> a ∉ seen.
Proof.
  induction l as [| a l IH]; intros seen; cbn [insert_all].
  - split; [intros _; split; [apply NoDup_nil_2 | intros a I; apply elem_of_nil in I as []] | intros _; exists seen; reflexivity].
  - destruct (bool_decide_reflect (a ∈ seen)) as [D | D].
    + split; [intros [s E]; discriminate |]. intros [_ K]. exfalso. apply (K a); [left | exact D].
    + rewrite IH, NoDup_cons. split.
      * intros [N K]. split; [split; [intros I; apply (K a I); set_solver | exact N] |]. intros b I. apply elem_of_cons in I as [-> | I]; [exact D |]. specialize (K b I). set_solver.
      * intros [[Na N] K]. split; [exact N |]. intros b I. specialize (K b (elem_of_list_further _ _ _ I)). assert (b <> a) by (intros ->; contradiction). set_solver.
Qed.
Lemma number_some vars a v : number vars a = Some v -> vars !! v = Some a.
Proof. unfold number. destruct (list_find (a =.) vars) as [[i x] |] eqn:E; [| discriminate]. cbn. intros [= <-]. apply list_find_Some in E as (E & -> & _). exact E. Qed.
Lemma number_ex vars a : a ∈ vars -> exists v, number vars a = Some v.
Proof. intros I. unfold number. destruct (list_find_elem_of (a =.) vars a I eq_refl) as [[i x] ->]. exists i. reflexivity. Qed.
Lemma slot_some groups v s : slot_of groups v = Some s -> exists g, groups !! s = Some g /\ v ∈ g.
Proof. unfold slot_of. destruct (list_find (fun g => v ∈ g) groups) as [[i x] |] eqn:E; [| discriminate]. cbn. intros [= <-]. apply list_find_Some in E as (E & K & _). exists x. auto. Qed.
Lemma slot_ex groups v g : g ∈ groups -> v ∈ g -> exists s, slot_of groups v = Some s.
Proof. intros I J. unfold slot_of. destruct (list_find_elem_of (fun g => v ∈ g) groups g I J) as [[i x] ->]. exists i. reflexivity. Qed.
Lemma row_slots_in vars groups row : forall acc out, row_slots vars groups acc row = Some out -> forall s, s ∈ out <-> s ∈ acc \/ exists a v, a ∈ row /\ number vars a = Some v /\ slot_of groups v = Some s.
Proof.
  induction row as [| a row IH]; intros acc out E s; cbn [row_slots] in E.
  - injection E as <-. split; [auto |]. intros [K | (a & v & I & _)]; [exact K | apply elem_of_nil in I as []].
  - destruct (number vars a) as [v |] eqn:Ev; [| discriminate]. cbn in E. destruct (slot_of groups v) as [t |] eqn:Et; [| discriminate]. cbn in E. rewrite (IH _ _ E s). split.
    + intros [K | (b & w & I & J)].
      * destruct (bool_decide_reflect (t ∈ acc)) as [D | D]; [left; exact K |]. apply elem_of_app in K as [K | K]; [left; exact K |]. apply elem_of_list_singleton in K as ->. right. exists a, v. split; [left |]. auto.
      * right. exists b, w. split; [right; exact I | exact J].
    + intros [K | (b & w & I & J & H)].
      * left. destruct (bool_decide_reflect (t ∈ acc)) as [D | D]; [exact K | apply elem_of_app; left; exact K].
      * apply elem_of_cons in I as [-> | I]; [| right; exists b, w; auto]. left. assert (w = v) by congruence. subst w. assert (s = t) by congruence. subst s. destruct (bool_decide_reflect (t ∈ acc)) as [D | D]; [exact D | apply elem_of_app; right; left].
Qed.
Lemma row_slots_ex vars groups row : (forall a, a ∈ row -> exists v s, number vars a = Some v /\ slot_of groups v = Some s) -> forall acc, is_Some (row_slots vars groups acc row).
Proof.
  induction row as [| a row IH]; intros H acc; cbn [row_slots]; [eauto |]. destruct (H a) as (v & s & Ev & Es); [left |]. rewrite Ev. cbn. rewrite Es. cbn. apply IH. intros b I. apply H. right. exact I.
Qed.
Lemma clique_spec excl g : NoDup g -> is_clique excl g = true <-> forall x y, x ∈ g -> y ∈ g -> x <> y -> excluded excl x y = true.
Proof.
  assert (Sy : forall x y, excluded excl x y = excluded excl y x). { intros x y. unfold excluded. rewrite Nat.min_comm, Nat.max_comm. reflexivity. }
  induction g as [| a g IH]; intros N; cbn [is_clique]; [split; [intros _ x y I; apply elem_of_nil in I as [] | reflexivity] |]. apply NoDup_cons in N as [Na N]. rewrite andb_true_iff, (IH N), forallb_forall. split.
  - intros [H1 H2] x y Ix Iy D. apply elem_of_cons in Ix as [-> | Ix]; apply elem_of_cons in Iy as [-> | Iy]; [congruence | apply H1, elem_of_list_In, Iy | rewrite Sy; apply H1, elem_of_list_In, Ix | apply H2; assumption].
  - intros H. split; [intros y Iy; apply elem_of_list_In in Iy; apply H; [left | right; exact Iy | intros ->; contradiction] |]. intros x y Ix Iy. apply H; right; assumption.
Qed.
Lemma excluded_pair excl x y : excluded excl x y = true <-> exists p, p ∈ excl /\ ((fst p = x /\ snd p = y) \/ (fst p = y /\ snd p = x)).
Proof.
  unfold excluded. rewrite existsb_exists. split.
  - intros ([p q] & Ip & E). apply bool_decide_eq_true in E. cbn [fst snd] in E. exists (p, q). split; [apply elem_of_list_In, Ip |]. cbn [fst snd]. injection E as E1 E2. lia.
  - intros ([p q] & Ip & E). exists (p, q). split; [apply elem_of_list_In, Ip |]. apply bool_decide_eq_true. cbn [fst snd] in *. f_equal; lia.
Qed.
Lemma choose_list {A} (P : nat -> A -> Prop) k : (forall i, i < k -> exists s, P i s) -> exists l : list A, length l = k /\ forall i s, l !! i = Some s -> P i s.
Proof.
  revert P. induction k as [| k IH]; intros P H; [exists []; split; [reflexivity | discriminate] |]. destruct (IH (fun i => P (S i))) as (l & L & K); [intros i Hi; apply H; lia |]. destruct (H 0) as [s Ps]; [lia |]. exists (s :: l). split; [cbn; lia |]. intros [| i] t E; [injection E as <-; exact Ps | apply K, E].
Qed.
Lemma concat_unique {A} (rows : list (list A)) i j r1 r2 a : NoDup (concat rows) -> rows !! i = Some r1 -> rows !! j = Some r2 -> a ∈ r1 -> a ∈ r2 -> i = j.
Proof.
  revert i j. induction rows as [| row rows IH]; intros i j N E1 E2 I1 I2; [discriminate |]. cbn [concat] in N. apply NoDup_app in N as (_ & N1 & N2).
  assert (In_ : forall k r, rows !! k = Some r -> a ∈ r -> a ∈ concat rows). { intros k r E I. apply elem_of_list_In, in_concat. exists r. split; apply elem_of_list_In; [apply elem_of_list_lookup; exists k; exact E | exact I]. }
  destruct i as [| i]; destruct j as [| j]; cbn in E1, E2; [reflexivity | | | f_equal; apply (IH i j); assumption].
  - injection E1 as ->. exfalso. apply (N1 a I1), (In_ j r2 E2 I2).
  - injection E2 as ->. exfalso. apply (N1 a I2), (In_ i r1 E1 I1).
Qed.

Section order.
Context (order : list string -> list string).
Lemma extract_inv e adj ns : extract_bipartite order e = Some (adj, ns) -> exists rows excl pairs,
  split_clauses (flatten_and e) = Some (rows, excl) /\ rows <> [] /\ NoDup (concat rows) /\ Forall2 (fun p q => number_pair (order (concat rows)) p = Some q) excl pairs /\
  forallb (is_clique pairs) (components (length (order (concat rows))) pairs) = true /\
  Forall2 (fun row slots => row_slots (order (concat rows)) (components (length (order (concat rows))) pairs) [] row = Some slots) rows adj /\ ns = length (components (length (order (concat rows))) pairs).
Proof.
  unfold extract_bipartite. destruct (split_clauses (flatten_and e)) as [[rows excl] |]; [| discriminate]. cbn [mbind option_bind]. destruct (Nat.eqb_spec (length rows) 0) as [_ | D]; [discriminate |].
  destruct (insert_all ∅ (concat rows)) as [s |] eqn:Ei; [| discriminate]. cbn [mbind option_bind]. destruct (mapM (number_pair (order (concat rows))) excl) as [pairs |] eqn:Ep; [| discriminate]. cbn [mbind option_bind].
  destruct (forallb _ _) eqn:Ec; [| discriminate]. destruct (mapM (row_slots _ _ []) rows) as [adj' |] eqn:Ea; [| discriminate]. cbn [mbind option_bind]. intros [= -> <-]. exists rows, excl, pairs. split; [reflexivity |]. split; [intros ->; apply D; reflexivity |].
  split; [apply (insert_all_ok (concat rows) ∅); eauto |]. split; [apply mapM_Some, Ep |]. split; [exact Ec |]. split; [apply mapM_Some, Ea | reflexivity].
Qed.
Lemma number_pair_some vars p q : number_pair vars p = Some q -> vars !! fst q = Some (fst p) /\ vars !! snd q = Some (snd p).
Proof. unfold number_pair. destruct (number vars (fst p)) as [x |] eqn:E1; [| discriminate]. cbn. destruct (number vars (snd p)) as [y |] eqn:E2; [| discriminate]. cbn. intros [= <-]. split; apply number_some; assumption. Qed.
(** A true interpretation places every item. *)
Lemma truth_placement e adj ns I : extract_bipartite order e = Some (adj, ns) -> truth_with I e = true -> exists a, placement adj ns a.
Proof.
  intros E T. destruct (extract_inv e adj ns E) as (rows & excl & pairs & E1 & _ & N & Fp & Cl & Fa & ->). set (vars := order (concat rows)) in *. set (groups := components (length vars) pairs) in *.
  destruct (proj1 (split_truth e rows excl I E1) T) as [T1 T2]. pose proof (Forall2_length _ _ _ Fa) as La.
  destruct (choose_list (fun i s => exists row a v, rows !! i = Some row /\ a ∈ row /\ I (EAtom a) = true /\ number vars a = Some v /\ slot_of groups v = Some s) (length adj)) as (l & Ll & Hl).
  { intros i Hi. destruct (lookup_lt_is_Some_2 rows i) as [row Er]; [lia |]. destruct (T1 row) as (a & Ia & Ta); [apply elem_of_list_lookup; exists i; exact Er |]. destruct (Forall2_lookup_l _ _ _ _ _ Fa Er) as (slots & _ & Es).
    assert (K : exists v s, number vars a = Some v /\ slot_of groups v = Some s).
    { clear -Ia Es. revert Es. generalize (@nil nat). induction row as [| b row IH]; intros acc Es; [apply elem_of_nil in Ia as [] |]. cbn [row_slots] in Es. destruct (number vars b) as [v |] eqn:Ev; [| discriminate]. cbn in Es. destruct (slot_of groups v) as [s |] eqn:Et; [| discriminate]. cbn in Es.
      apply elem_of_cons in Ia as [-> | Ia]; [exists v, s; auto | apply (IH Ia _ Es)]. }
    destruct K as (v & s & Ev & Es'). exists s, row, a, v. auto. }
  exists l. split; [exact Ll |]. split.
  - apply NoDup_alt. intros i j s Ei Ej. destruct (Hl i s Ei) as (r1 & a1 & v1 & R1 & I1 & T1' & N1 & S1). destruct (Hl j s Ej) as (r2 & a2 & v2 & R2 & I2 & T2' & N2 & S2).
    destruct (slot_some groups v1 s S1) as (g & Eg & G1). destruct (slot_some groups v2 s S2) as (g' & Eg' & G2). assert (g' = g) by congruence. subst g'.
    destruct (Nat.eq_dec v1 v2) as [<- | D].
    + apply number_some in N1. apply number_some in N2. assert (a2 = a1) by congruence. subst a2. apply (concat_unique rows i j r1 r2 a1); assumption.
    + exfalso. assert (Ig : g ∈ groups) by (apply elem_of_list_lookup; exists s; exact Eg). rewrite forallb_forall in Cl. assert (C : is_clique pairs g = true) by (apply Cl, elem_of_list_In, Ig).
      apply (proj1 (clique_spec pairs g (components_nodup _ _ _ Ig))) with (x := v1) (y := v2) in C; [| exact G1 | exact G2 | exact D]. apply excluded_pair in C as (q & Iq & Cq). apply elem_of_list_lookup in Iq as [k Ek]. destruct (Forall2_lookup_r _ _ _ _ _ Fp Ek) as (p & Ek' & Ep). apply number_pair_some in Ep as [P1 P2].
      apply number_some in N1. apply number_some in N2. specialize (T2 p (elem_of_list_lookup_2 _ _ _ Ek')). destruct Cq as [[Q1 Q2] | [Q1 Q2]]; rewrite Q1 in P1; rewrite Q2 in P2.
      * assert (fst p = a1) by congruence. assert (snd p = a2) by congruence. subst a1 a2. rewrite T1', T2' in T2. discriminate.
      * assert (fst p = a2) by congruence. assert (snd p = a1) by congruence. subst a1 a2. rewrite T1', T2' in T2. discriminate.
  - intros i s Ei. destruct (Hl i s Ei) as (row & a & v & R & Ia & _ & Nv & Sv). split.
    + destruct (slot_some groups v s Sv) as (g & Eg & _). apply lookup_lt_Some in Eg. exact Eg.
    + destruct (Forall2_lookup_l _ _ _ _ _ Fa R) as (slots & Es & Er). exists slots. split; [exact Es |]. apply (row_slots_in _ _ _ _ _ Er). right. exists a, v. auto.
Qed.
(** A positive verdict is right: the formula is false in every interpretation. *)
Theorem C76_sound e I : decide_pigeonhole_unsat order e = true -> truth_with I e = false.
Proof.
  unfold decide_pigeonhole_unsat. destruct (extract_bipartite order e) as [[adj ns] |] eqn:E; [| discriminate]. destruct (assign_or_hall adj ns) as [[a | w] |] eqn:Ea; try discriminate. intros _. destruct (truth_with I e) eqn:T; [| reflexivity]. exfalso. apply (C75_infeasible adj ns w Ea). apply (truth_placement e adj ns I E T).
Qed.
(** The surfaced witness exists exactly when the verdict is positive. *)
Theorem C76_hall e : (exists w, hall_refutation order e = Some w) <-> decide_pigeonhole_unsat order e = true.
Proof.
  unfold hall_refutation, decide_pigeonhole_unsat. destruct (extract_bipartite order e) as [[adj ns] |]; cbn [mbind option_bind]; [| split; [intros [w K]; discriminate | discriminate]]. destruct (assign_or_hall adj ns) as [[a | w] |]; try (split; [intros [w' K]; discriminate | discriminate]).
  destruct (is_hall_witness adj w); split; [reflexivity | eauto | intros [w' K]; discriminate | discriminate].
Qed.
Lemma adj_in_range e adj ns : extract_bipartite order e = Some (adj, ns) -> forall x v, allowed adj x v -> v < ns.
Proof.
  intros E x v (vs & Ev & Iv). destruct (extract_inv e adj ns E) as (rows & excl & pairs & _ & _ & _ & _ & _ & Fa & ->). destruct (Forall2_lookup_r _ _ _ _ _ Fa Ev) as (row & _ & Er). apply (row_slots_in _ _ _ _ _ Er) in Iv as [K | (a & u & _ & _ & S0)]; [apply elem_of_nil in K as [] |]. destruct (slot_some _ _ _ S0) as (g & Eg & _). apply lookup_lt_Some in Eg. exact Eg.
Qed.
(** The counting certificate is right, checks, and is found only where the verdict is positive. *)
Theorem C76_counting e c I : counting_certificate order e = Some c -> check_counting_cert c = true /\ decide_pigeonhole_unsat order e = true /\ truth_with I e = false.
Proof.
  unfold counting_certificate. destruct (extract_bipartite order e) as [[adj ns] |] eqn:E; [| discriminate]. cbn [mbind option_bind]. unfold certify_pigeonhole_unsat. destruct (Nat.ltb_spec ns (length adj)) as [L | L]; [| discriminate]. intros [= <-].
  assert (D : decide_pigeonhole_unsat order e = true).
  { unfold decide_pigeonhole_unsat. rewrite E. destruct (C75_total adj ns) as [[a | w] Ea]; rewrite Ea; [| apply (C75_infeasible adj ns w Ea), (adj_in_range e adj ns E)]. exfalso. destruct (C75_feasible adj ns a Ea) as [(La & N & H) _].
    assert (K : length a <= length (seq 0 ns)); [| rewrite seq_length in K; lia]. apply nodup_length_le; [exact N |]. intros s Is. apply elem_of_list_lookup in Is as [i Ei]. destruct (H i s Ei) as [Ls _]. apply elem_of_seq. lia. }
  split; [apply Nat.ltb_lt; exact L |]. split; [exact D | apply C76_sound, D].
Qed.

(** From here on the order of the variables is a permutation. *)
Context (order_perm : forall l, order l ≡ₚ l).
Lemma placement_truth e adj ns a : extract_bipartite order e = Some (adj, ns) -> placement adj ns a -> (forall c b, c ∈ flatten_and e -> exclusion_pair c <> Some (b, b)) -> exists I, truth_with I e = true.
Proof.
  intros E (La & N & H) Ns. destruct (extract_inv e adj ns E) as (rows & excl & pairs & E1 & _ & Nr & Fp & Cl & Fa & ->). set (vars := order (concat rows)) in *. set (groups := components (length vars) pairs) in *.
  pose proof (Forall2_length _ _ _ Fa) as Lr.
  destruct (choose_list (fun i b => exists row v s, rows !! i = Some row /\ b ∈ row /\ a !! i = Some s /\ number vars b = Some v /\ slot_of groups v = Some s) (length rows)) as (l & Ll & Hl).
  { intros i Hi. destruct (lookup_lt_is_Some_2 a i) as [s Es]; [lia |]. destruct (H i s Es) as [_ (slots & Ei & Is)]. destruct (Forall2_lookup_r _ _ _ _ _ Fa Ei) as (row & Er & Rr). destruct (proj1 (row_slots_in _ _ _ _ _ Rr s) Is) as [K | (b & v & Ib & Nv & Sv)]; [apply elem_of_nil in K as [] |]. exists b, row, v, s. auto 10. }
  exists (fun e => match e with EAtom b => bool_decide (b ∈ l) | _ => false end). apply (split_truth e rows excl _ E1). split.
  - intros row Ir. apply elem_of_list_lookup in Ir as [i Ei]. destruct (lookup_lt_is_Some_2 l i) as [b Eb]; [rewrite Ll; apply lookup_lt_Some in Ei; exact Ei |]. destruct (Hl i b Eb) as (row' & v & s & Er & Ib & _). assert (row' = row) by congruence. subst row'. exists b. split; [exact Ib |]. apply bool_decide_eq_true, elem_of_list_lookup. exists i. exact Eb.
  - intros [x y] Ip. cbn [fst snd]. apply andb_false_iff. destruct (bool_decide_reflect (x ∈ l)) as [Ix | Nx]; [| left; reflexivity]. destruct (bool_decide_reflect (y ∈ l)) as [Iy | Ny]; [| right; reflexivity]. exfalso.
    apply elem_of_list_lookup in Ix as [i Ei]. apply elem_of_list_lookup in Iy as [j Ej]. destruct (Hl i x Ei) as (r1 & v1 & s1 & R1 & I1 & A1 & N1 & S1). destruct (Hl j y Ej) as (r2 & v2 & s2 & R2 & I2 & A2 & N2 & S2).
    apply elem_of_list_lookup in Ip as [k Ek]. destruct (Forall2_lookup_l _ _ _ _ _ Fp Ek) as ([q1 q2] & Eq & Nq). assert (Nv : NoDup vars) by (unfold vars; rewrite order_perm; exact Nr).
    apply number_pair_some in Nq as [Q1 Q2]. cbn [fst snd] in Q1, Q2. apply number_some in N1. apply number_some in N2. assert (q1 = v1) by (apply (NoDup_lookup vars _ _ x Nv); assumption). assert (q2 = v2) by (apply (NoDup_lookup vars _ _ y Nv); assumption). subst q1 q2.
    assert (Rg : forall q, q ∈ pairs -> fst q < length vars /\ snd q < length vars). { intros q Iq. apply elem_of_list_lookup in Iq as [m Em]. destruct (Forall2_lookup_r _ _ _ _ _ Fp Em) as (p & _ & Np). apply number_pair_some in Np as [P1 P2]. apply lookup_lt_Some in P1. apply lookup_lt_Some in P2. auto. }
    destruct (components_ok (length vars) pairs (fun _ _ => True) Rg) as [C _]. destruct (C (v1, v2)) as (g & Ig & G1 & G2); [apply elem_of_list_lookup; exists k; exact Eq |]. cbn [fst snd] in G1, G2. fold groups in Ig.
    assert (Dj : NoDup (concat groups)) by (unfold groups; rewrite components_partition; apply NoDup_ListNoDup, seq_NoDup). apply elem_of_list_lookup in Ig as [m Em].
    destruct (slot_some _ _ _ S1) as (g1 & M1 & K1). destruct (slot_some _ _ _ S2) as (g2 & M2 & K2). assert (s1 = m) by (apply (concat_unique groups s1 m g1 g v1); assumption). assert (s2 = m) by (apply (concat_unique groups s2 m g2 g v2); assumption). subst s1 s2.
    assert (i = j) by (apply (NoDup_lookup a i j m N); assumption). subst j. assert (x = y) by congruence. subst y. destruct (split_ok _ _ _ E1) as (_ & Sx & _). destruct (Sx (x, x)) as (c & Ic & Ec); [apply elem_of_list_lookup; exists k; exact Ek |]. apply (Ns c x Ic Ec).
Qed.
(** On a recognised formula that excludes no variable with itself the verdict is exact. Missing:
    self-exclusions, for which it is false. *)
Theorem C76_exact_partial e adj ns : extract_bipartite order e = Some (adj, ns) -> (forall c b, c ∈ flatten_and e -> exclusion_pair c <> Some (b, b)) ->
  decide_pigeonhole_unsat order e = true <-> forall I, truth_with I e = false.
Proof.
  intros E Ns. split; [intros D I; apply C76_sound, D |]. intros U. unfold decide_pigeonhole_unsat. rewrite E. destruct (C75_total adj ns) as [[a | w] Ea]; rewrite Ea.
  - exfalso. destruct (C75_feasible adj ns a Ea) as [Pa _]. destruct (placement_truth e adj ns a E Pa Ns) as [I T]. rewrite U in T. discriminate.
  - apply (C75_infeasible adj ns w Ea), (adj_in_range e adj ns E).
Qed.
(** Which formulas are recognised: a conjunction of rows without a common or repeated variable and
    exclusions between their variables, where two variables excluded with a third are excluded. *)
Theorem C76_recognised e : (exists r, extract_bipartite order e = Some r) <-> exists rows excl, split_clauses (flatten_and e) = Some (rows, excl) /\ rows <> [] /\ NoDup (concat rows) /\
  (forall p, p ∈ excl -> fst p ∈ concat rows /\ snd p ∈ concat rows) /\
  (forall x y z, ((x, y) ∈ excl \/ (y, x) ∈ excl) -> ((y, z) ∈ excl \/ (z, y) ∈ excl) -> x <> z -> (x, z) ∈ excl \/ (z, x) ∈ excl).
Proof.
  split.
  - intros [[adj ns] E]. destruct (extract_inv e adj ns E) as (rows & excl & pairs & E1 & Ne & Nr & Fp & Cl & Fa & ->). set (vars := order (concat rows)) in *. exists rows, excl. split; [exact E1 |]. split; [exact Ne |]. split; [exact Nr |].
    assert (Nv : NoDup vars) by (unfold vars; rewrite order_perm; exact Nr).
    assert (Pr : forall x y, (x, y) ∈ excl -> exists u v, vars !! u = Some x /\ vars !! v = Some y /\ (u, v) ∈ pairs). { intros x y Ip. apply elem_of_list_lookup in Ip as [k Ek]. destruct (Forall2_lookup_l _ _ _ _ _ Fp Ek) as ([u v] & Eq & Nq). apply number_pair_some in Nq as [Q1 Q2]. exists u, v. split; [exact Q1 |]. split; [exact Q2 |]. apply elem_of_list_lookup. exists k. exact Eq. }
    assert (Rp : forall u v, (u, v) ∈ pairs -> exists x y, vars !! u = Some x /\ vars !! v = Some y /\ (x, y) ∈ excl). { intros u v Iq. apply elem_of_list_lookup in Iq as [m Em]. destruct (Forall2_lookup_r _ _ _ _ _ Fp Em) as ([x y] & Ep & Np). apply number_pair_some in Np as [P1 P2]. exists x, y. split; [exact P1 |]. split; [exact P2 |]. apply elem_of_list_lookup. exists m. exact Ep. }
    assert (Rg : forall q, q ∈ pairs -> fst q < length vars /\ snd q < length vars). { intros [u v] Iq. destruct (Rp u v Iq) as (x & y & P1 & P2 & _). apply lookup_lt_Some in P1. apply lookup_lt_Some in P2. auto. }
    split.
    + intros [x y] Ip. destruct (Pr x y Ip) as (u & v & Q1 & Q2 & _). cbn [fst snd]. split; rewrite <- (order_perm (concat rows)); apply elem_of_list_lookup; eexists; eassumption.
    + assert (Gr : forall x y, (x, y) ∈ excl \/ (y, x) ∈ excl -> exists u v g, vars !! u = Some x /\ vars !! v = Some y /\ g ∈ components (length vars) pairs /\ u ∈ g /\ v ∈ g).
      { intros x y [K | K]; destruct (Pr _ _ K) as (u & v & Q1 & Q2 & Iq); destruct (components_ok (length vars) pairs (fun _ _ => True) Rg) as [C _]; destruct (C _ Iq) as (g & Ig & G1 & G2); cbn [fst snd] in G1, G2; [exists u, v, g | exists v, u, g]; auto 10. }
      intros x y z Hxy Hyz D. destruct (Gr x y Hxy) as (u & v & g & Eu & Ev & Ig & Gu & Gv). destruct (Gr y z Hyz) as (v' & w & g' & Ev' & Ew & Ig' & Gv' & Gw). assert (v' = v) by (apply (NoDup_lookup vars _ _ y Nv); assumption). subst v'.
      assert (Dj : NoDup (concat (components (length vars) pairs))) by (rewrite components_partition; apply NoDup_ListNoDup, seq_NoDup).
      assert (g' = g). { apply elem_of_list_lookup in Ig as [i Ei]. apply elem_of_list_lookup in Ig' as [j Ej]. assert (i = j) by (apply (concat_unique _ i j g g' v Dj); assumption). subst j. congruence. } subst g'.
      assert (Cg : is_clique pairs g = true) by (rewrite forallb_forall in Cl; apply Cl, elem_of_list_In, Ig). apply (proj1 (clique_spec pairs g (components_nodup _ _ _ Ig))) with (x := u) (y := w) in Cg; [| exact Gu | exact Gw | intros ->; apply D; congruence].
      apply excluded_pair in Cg as ([q1 q2] & Iq & Cq). cbn [fst snd] in Cq. destruct (Rp q1 q2 Iq) as (x' & z' & P1 & P2 & Ip). destruct Cq as [[-> ->] | [-> ->]].
      * left. assert (x' = x) by congruence. assert (z' = z) by congruence. subst. exact Ip.
      * right. assert (x' = z) by congruence. assert (z' = x) by congruence. subst. exact Ip.
  - intros (rows & excl & E1 & Ne & Nr & Hv & Tr). unfold extract_bipartite. rewrite E1. cbn [mbind option_bind]. destruct (Nat.eqb_spec (length rows) 0) as [K | _]; [destruct rows; [congruence | discriminate] |].
    destruct (proj2 (insert_all_ok (concat rows) ∅)) as [s Es]; [split; [exact Nr | intros a _; apply not_elem_of_empty] |]. rewrite Es. cbn [mbind option_bind]. set (vars := order (concat rows)).
    assert (Nv : NoDup vars) by (unfold vars; rewrite order_perm; exact Nr). assert (Vin : forall a, a ∈ concat rows -> a ∈ vars) by (intros a Ia; unfold vars; rewrite order_perm; exact Ia).
    assert (Ps : is_Some (mapM (number_pair vars) excl)).
    { assert (X : forall p, p ∈ excl -> is_Some (number_pair vars p)); [| apply mapM_is_Some, Forall_forall, X]. intros p Ip. destruct (Hv p Ip) as [V1 V2]. destruct (number_ex vars (fst p) (Vin _ V1)) as [u Eu]. destruct (number_ex vars (snd p) (Vin _ V2)) as [v Ev]. unfold number_pair. rewrite Eu. cbn. rewrite Ev. cbn. eauto. }
    destruct Ps as [pairs Ep]. rewrite Ep. cbn [mbind option_bind]. apply mapM_Some in Ep. rename Ep into Fp.
    assert (Rp : forall u v, (u, v) ∈ pairs -> exists x y, vars !! u = Some x /\ vars !! v = Some y /\ (x, y) ∈ excl). { intros u v Iq. apply elem_of_list_lookup in Iq as [m Em]. destruct (Forall2_lookup_r _ _ _ _ _ Fp Em) as ([x y] & Ep & Np). apply number_pair_some in Np as [P1 P2]. exists x, y. split; [exact P1 |]. split; [exact P2 |]. apply elem_of_list_lookup. exists m. exact Ep. }
    assert (Pr : forall x y u v, (x, y) ∈ excl -> vars !! u = Some x -> vars !! v = Some y -> (u, v) ∈ pairs). { intros x y u v Ip Eu Ev. apply elem_of_list_lookup in Ip as [k Ek]. destruct (Forall2_lookup_l _ _ _ _ _ Fp Ek) as ([u' v'] & Eq & Nq). apply number_pair_some in Nq as [Q1 Q2]. cbn [fst snd] in Q1, Q2. assert (u' = u) by (apply (NoDup_lookup vars _ _ x Nv); assumption). assert (v' = v) by (apply (NoDup_lookup vars _ _ y Nv); assumption). subst. apply elem_of_list_lookup. exists k. exact Eq. }
    assert (Rg : forall q, q ∈ pairs -> fst q < length vars /\ snd q < length vars). { intros [u v] Iq. destruct (Rp u v Iq) as (x & y & P1 & P2 & _). apply lookup_lt_Some in P1. apply lookup_lt_Some in P2. auto. }
    assert (Sx : forall u v, excluded pairs u v = true <-> (u, v) ∈ pairs \/ (v, u) ∈ pairs). { intros u v. rewrite excluded_pair. split; [intros ([q1 q2] & Iq & [[<- <-] | [<- <-]]); auto | intros [K | K]; eexists; (split; [exact K |]); auto]. }
    destruct (components_ok (length vars) pairs (fun u v => u = v \/ excluded pairs u v = true) Rg) as [_ C].
    rewrite (proj2 (forallb_forall _ _)).
    + assert (As : is_Some (mapM (row_slots vars (components (length vars) pairs) []) rows)); [| destruct As as [adj ->]; cbn; eauto]. assert (X : forall row, row ∈ rows -> is_Some (row_slots vars (components (length vars) pairs) [] row)); [| apply mapM_is_Some, Forall_forall, X]. intros row Ir. apply row_slots_ex. intros a Ia.
      assert (Iv : a ∈ vars) by (apply Vin, elem_of_list_In, in_concat; exists row; split; apply elem_of_list_In; assumption). destruct (number_ex vars a Iv) as [v Ev]. pose proof (number_some _ _ _ Ev) as Lv. apply lookup_lt_Some in Lv.
      assert (Ic : v ∈ concat (components (length vars) pairs)) by (rewrite components_partition; apply elem_of_seq; lia). apply elem_of_list_In, in_concat in Ic as (g & Ig & Jg). apply elem_of_list_In in Ig, Jg. destruct (slot_ex _ v g Ig Jg) as [s' Es']. exists v, s'. auto.
    + intros g Ig. apply elem_of_list_In in Ig. apply (clique_spec pairs g (components_nodup _ _ _ Ig)). intros u v Iu Iv D. destruct (C) with (g := g) (x := u) (y := v) as [K | K]; [auto | | | | exact Ig | exact Iu | exact Iv | congruence | exact K].
      * intros a b [-> | K]; [auto |]. right. apply Sx. apply Sx in K. tauto.
      * intros a b c [-> | K1] [-> | K2]; auto. destruct (Nat.eq_dec a c) as [-> | Dac]; [auto |]. right. apply Sx. apply Sx in K1. apply Sx in K2.
        assert (X : forall p q, (p, q) ∈ pairs \/ (q, p) ∈ pairs -> exists x y, vars !! p = Some x /\ vars !! q = Some y /\ ((x, y) ∈ excl \/ (y, x) ∈ excl)). { intros p q [K | K]; destruct (Rp _ _ K) as (x & y & P1 & P2 & Ip); [exists x, y | exists y, x]; auto. }
        destruct (X a b K1) as (x & y & Ea & Eb & Xy). destruct (X b c K2) as (y' & z & Eb' & Ec & Yz). assert (y' = y) by congruence. subst y'. destruct (Tr x y z Xy Yz) as [K | K]; [intros ->; apply Dac, (NoDup_lookup vars _ _ z Nv); assumption | left | right]; eapply Pr; eassumption.
      * intros [p q] Iq. right. apply Sx. left. exact Iq.
Qed.
End order.
(** A variable excluded with itself is false, which the recogniser does not see. *)
Theorem C76_self_refuted : exists e r, extract_bipartite id e = Some r /\ (forall I, truth_with I e = false) /\ decide_pigeonhole_unsat id e = false.
Proof. exists ex_self. eexists. split; [vm_compute; reflexivity |]. split; [| vm_compute; reflexivity]. intros I. unfold ex_self. cbn [truth_with]. destruct (I (EAtom "a")); reflexivity. Qed.
(** Counting: the certificate exists exactly when the pigeons cannot be given different holes. *)
Theorem C76_certify_exact pigeons holes : (exists c, certify_pigeonhole_unsat pigeons holes = Some c /\ check_counting_cert c = true) <-> ~ exists f : nat -> nat, (forall i, i < pigeons -> f i < holes) /\ forall i j, i < pigeons -> j < pigeons -> f i = f j -> i = j.
Proof.
  unfold certify_pigeonhole_unsat, check_counting_cert. destruct (Nat.ltb_spec holes pigeons) as [L | L].
  - split; [intros _ | intros _; eexists; split; [reflexivity | apply Nat.ltb_lt, L]]. intros (f & Hf & Inj). assert (K : length (map f (seq 0 pigeons)) <= length (seq 0 holes)); [| rewrite map_length, !seq_length in K; lia]. apply nodup_length_le.
    + apply NoDup_fmap_2_strong; [| apply NoDup_ListNoDup, seq_NoDup]. intros x y Ix Iy. apply elem_of_seq in Ix. apply elem_of_seq in Iy. apply Inj; lia.
    + intros y Iy. apply elem_of_list_fmap in Iy as (x & -> & Ix). apply elem_of_seq in Ix. apply elem_of_seq. pose proof (Hf x). lia.
  - split; [intros (c & E & _); discriminate |]. intros K. exfalso. apply K. exists id. split; [intros i Hi; unfold id; lia | auto].
Qed.
Example C76_example : decide_pigeonhole_unsat id ex_php = true /\ decide_pigeonhole_unsat (@rev string) ex_php = true /\ counting_certificate id ex_php = Some (3, 2) /\ hall_refutation id ex_php = Some (Hall [0; 1; 2] [0; 1]).
Proof. repeat split; vm_compute; reflexivity. Qed.
