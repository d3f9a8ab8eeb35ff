(** C77: the ordering-principle specialist. *)
From Coq Require Import List Arith Bool String Lia.
From stdpp Require Import gmap list list_numbers.
From Verif Require Import RupModel RupProofs UnifyModel CnfModel CnfProofs CnfKeys CnfProps OrderModel.
Local Open Scope list_scope.
Local Open Scope nat_scope.

Lemma key2_cases a b c d : key2 a b = key2 c d <-> (a = c /\ b = d) \/ (a = d /\ b = c).
Proof. unfold key2. destruct (Nat.ltb_spec a b), (Nat.ltb_spec c d); split; intros Q; try (injection Q as Q1 Q2); try (f_equal; lia); lia. Qed.
Lemma pair_keys_in sign cs k : k ∈ pair_keys sign cs <-> exists a b, k = key2 a b /\ [Lit a sign; Lit b sign] ∈ cs.
Proof.
  unfold pair_keys. rewrite elem_of_list_omap. split.
  - intros (c & Ic & E). destruct c as [| [a sa] [| [b sb] [| x c]]]; try discriminate. cbn [lpos lvar] in E. destruct (Bool.eqb sa sign) eqn:E1; [| discriminate]. destruct (Bool.eqb sb sign) eqn:E2; [| discriminate]. injection E as <-. apply eqb_prop in E1, E2. subst. exists a, b. auto.
  - intros (a & b & -> & Ic). exists [Lit a sign; Lit b sign]. split; [exact Ic |]. cbn [lpos lvar]. rewrite eqb_reflx. reflexivity.
Qed.
Lemma pair_keys_sat f sign cs a b : satisfies f cs -> key2 a b ∈ pair_keys sign cs -> f a = sign \/ f b = sign.
Proof.
  intros Sat I. apply pair_keys_in in I as (p & q & E & Ic). destruct (Sat _ Ic) as (l & Il & T). unfold lit_true in T. apply key2_cases in E. apply elem_of_cons in Il as [-> | Il]; [| apply elem_of_list_singleton in Il as ->]; cbn [lvar lpos] in T; destruct E as [[-> ->] | [-> ->]]; auto.
Qed.
Lemma trans_sat f cs a b c : satisfies f cs -> (a, b, c) ∈ omap trans_of cs -> f a = true -> f b = true -> f c = true.
Proof.
  intros Sat I Ta Tb. apply elem_of_list_omap in I as (cl & Ic & E). unfold trans_of in E. destruct (length cl =? 3); [| discriminate]. destruct (map lvar (List.filter (fun l => negb (lpos l)) cl)) as [| a' [| b' [| x r]]] eqn:En; try discriminate. destruct (map lvar (List.filter lpos cl)) as [| c' [| x r]] eqn:Ep; try discriminate. injection E as -> -> ->.
  destruct (Sat cl Ic) as (l & Il & T). unfold lit_true in T. apply elem_of_list_In in Il. destruct (lpos l) eqn:El.
  - assert (K : In (lvar l) [c]) by (rewrite <- Ep; apply in_map, filter_In; auto). destruct K as [K | []]. rewrite K. exact T.
  - assert (K : In (lvar l) [a; b]) by (rewrite <- En; apply in_map, filter_In; rewrite El; auto). destruct K as [K | [K | []]]; subst; congruence.
Qed.
Lemma positives_in cs vs : vs ∈ positives cs <-> exists c, c ∈ cs /\ forallb lpos c = true /\ vs = map lvar c.
Proof.
  unfold positives. rewrite elem_of_list_fmap. split; intros (c & A & B).
  - apply elem_of_list_In, filter_In in B as [B1 B2]. exists c. rewrite elem_of_list_In. auto.
  - destruct B as [B1 B2]. exists c. split; [exact B2 |]. apply elem_of_list_In, filter_In. rewrite <- elem_of_list_In. auto.
Qed.
Lemma positives_sat f cs vs : satisfies f cs -> vs ∈ positives cs -> exists v, v ∈ vs /\ f v = true.
Proof.
  intros Sat I. apply positives_in in I as (c & Ic & P & ->). destruct (Sat c Ic) as (l & Il & T). exists (lvar l). split; [apply elem_of_list_fmap; exists l; auto |]. rewrite forallb_forall in P. unfold lit_true in T. rewrite (P l) in T by (apply elem_of_list_In, Il). exact T.
Qed.
Lemma opairs_in n i j : (i, j) ∈ opairs n <-> i < n /\ j < n /\ i <> j.
Proof. unfold opairs. rewrite elem_of_list_In, filter_In, in_prod_iff, !in_seq. cbn [fst snd]. rewrite negb_true_iff, Nat.eqb_neq. lia. Qed.
Lemma triples_in n i j k : (i, j, k) ∈ triples n <-> i < n /\ j < n /\ k < n /\ i <> j /\ k <> i /\ k <> j.
Proof. unfold triples. rewrite elem_of_list_In, filter_In, !in_prod_iff, !in_seq. cbn [fst snd]. rewrite !andb_true_iff, !negb_true_iff, !Nat.eqb_neq. lia. Qed.
Lemma outgoing_in n edge i v : v ∈ outgoing n edge i <-> exists j, j < n /\ j <> i /\ edge_at n edge i j = Some v.
Proof.
  unfold outgoing. rewrite elem_of_list_omap. split.
  - intros (j & Ij & E). apply elem_of_seq in Ij. destruct (Nat.eqb_spec j i) as [-> | D]; [discriminate |]. exists j. split; [lia | auto].
  - intros (j & Lj & D & E). exists j. split; [apply elem_of_seq; lia |]. apply Nat.eqb_neq in D. rewrite D. exact E.
Qed.
Lemma insert_nat_perm x l : insert_nat x l ≡ₚ x :: l.
Proof. induction l as [| y l IH]; [reflexivity |]. cbn [insert_nat]. destruct (x <=? y); [reflexivity |]. rewrite IH. apply perm_swap. Qed.
Lemma sort_perm l : sort_nat l ≡ₚ l.
Proof. induction l as [| x l IH]; [reflexivity |]. cbn [sort_nat fold_right]. rewrite insert_nat_perm. apply perm_skip, IH. Qed.
Lemma insert_nat_comm x y l : insert_nat x (insert_nat y l) = insert_nat y (insert_nat x l).
Proof.
  induction l as [| z l IH]; cbn [insert_nat].
  - destruct (Nat.leb_spec x y), (Nat.leb_spec y x); try reflexivity; [assert (x = y) by lia; subst; reflexivity | lia].
  - destruct (Nat.leb_spec y z), (Nat.leb_spec x z); cbn [insert_nat]; repeat (match goal with |- context [?a <=? ?b] => destruct (Nat.leb_spec a b); try lia end); try reflexivity; [assert (x = y) by lia; subst; reflexivity |]. f_equal. exact IH.
Qed.
Lemma sort_eq l l' : l ≡ₚ l' -> sort_nat l = sort_nat l'.
Proof.
  induction 1 as [| x l l' P IH | x y l | l l' l'' P1 IH1 P2 IH2]; cbn [sort_nat fold_right]; [reflexivity | | apply insert_nat_comm | congruence]. unfold sort_nat in IH. rewrite IH. reflexivity.
Qed.
(** What the check establishes. *)
Record core (cs : list clause) (n : nat) (e : nat -> nat -> nat) : Prop := Core {
  co_two : 2 <= n;
  co_pos : forall i j, i < n -> j < n -> i <> j -> key2 (e i j) (e j i) ∈ pair_keys true cs;
  co_neg : forall i j, i < n -> j < n -> i <> j -> key2 (e i j) (e j i) ∈ pair_keys false cs;
  co_trans : forall i j k, i < n -> j < n -> k < n -> i <> j -> k <> i -> k <> j -> (e i j, e j k, e i k) ∈ omap trans_of cs \/ (e j k, e i j, e i k) ∈ omap trans_of cs;
  co_max : forall i, i < n -> exists vs, vs ∈ positives cs /\ forall v, v ∈ vs -> exists j, j < n /\ j <> i /\ v = e i j }.
Lemma core_unsat cs n e f : core cs n e -> ~ satisfies f cs.
Proof.
  intros [C1 C2 C3 C4 C5] Sat. set (lt i j := f (e i j) = true).
  assert (M : forall k, 1 <= k <= n -> exists m, m < k /\ forall i, i < k -> i <> m -> lt i m).
  { induction k as [| k IH]; intros Hk; [lia |]. destruct (Nat.eq_dec k 0) as [-> | D]; [exists 0; split; [lia |]; intros i; lia |]. destruct IH as (m & Hm & H); [lia |].
    destruct (pair_keys_sat f true cs _ _ Sat (C2 m k ltac:(lia) ltac:(lia) ltac:(lia))) as [T | T].
    - exists k. split; [lia |]. intros i Hi Di. destruct (Nat.eq_dec i m) as [-> | Dm]; [exact T |]. assert (L : lt i m) by (apply H; lia). unfold lt in *. destruct (C4 i m k) as [K | K]; try lia; [apply (trans_sat f cs _ _ _ Sat K L T) | apply (trans_sat f cs _ _ _ Sat K T L)].
    - exists m. split; [lia |]. intros i Hi Di. destruct (Nat.eq_dec i k) as [-> | Dk]; [exact T | apply H; lia]. }
  destruct (M n) as (m & Hm & H); [lia |]. destruct (C5 m Hm) as (vs & Iv & K). destruct (positives_sat f cs vs Sat Iv) as (v & Jv & Tv). destruct (K v Jv) as (j & Hj & Dj & ->).
  destruct (pair_keys_sat f false cs _ _ Sat (C3 m j Hm Hj ltac:(lia))) as [F | F]; [congruence |]. specialize (H j Hj Dj). unfold lt in H. congruence.
Qed.
Lemma check_core cert cs : check_ordering_cert cert cs = true -> core cs (oc_n cert) (fun i j => default 0 (edge_at (oc_n cert) (oc_edge cert) i j)).
Proof.
  unfold check_ordering_cert. set (n := oc_n cert). set (edge := oc_edge cert). destruct (Nat.ltb_spec n 2) as [L | L]; [discriminate |]. cbn [orb]. destruct (length edge =? n * n); [| discriminate]. cbn [negb].
  destruct (mapM _ (opairs n)) as [vars |] eqn:Ev; [| discriminate]. rewrite !andb_true_iff. intros (((H1 & H2) & H3) & H4). rewrite forallb_forall in H2, H3, H4.
  assert (P : forall i j, i < j -> j < n -> exists a b, edge_at n edge i j = Some a /\ edge_at n edge j i = Some b /\ key2 a b ∈ pair_keys true cs /\ key2 a b ∈ pair_keys false cs).
  { intros i j Hi Hj. specialize (H2 (i, j)). cbn [fst snd] in H2. destruct (edge_at n edge i j) as [a |], (edge_at n edge j i) as [b |]; try (discriminate H2; apply filter_In; split; [apply elem_of_list_In, opairs_in; lia | apply Nat.ltb_lt, Hi]).
    - exists a, b. split; [reflexivity |]. split; [reflexivity |]. apply andb_true_iff in H2 as [A B]; [| apply filter_In; split; [apply elem_of_list_In, opairs_in; lia | apply Nat.ltb_lt, Hi]]. apply bool_decide_eq_true in A, B. auto. }
  assert (P' : forall i j, i < n -> j < n -> i <> j -> exists a b, edge_at n edge i j = Some a /\ edge_at n edge j i = Some b /\ key2 a b ∈ pair_keys true cs /\ key2 a b ∈ pair_keys false cs).
  { intros i j Hi Hj D. destruct (Nat.lt_ge_cases i j) as [K | K]; [apply P; assumption |]. destruct (P j i) as (a & b & Ea & Eb & A & B); [lia | lia |]. exists b, a. assert (Ek : key2 b a = key2 a b) by (apply key2_cases; auto). rewrite Ek. auto. }
  split.
  - exact L.
  - intros i j Hi Hj D. destruct (P' i j Hi Hj D) as (a & b & -> & -> & A & _). exact A.
  - intros i j Hi Hj D. destruct (P' i j Hi Hj D) as (a & b & -> & -> & _ & A). exact A.
  - intros i j k Hi Hj Hk D1 D2 D3. specialize (H3 (i, j, k)). cbv beta iota in H3. assert (It : In (i, j, k) (triples n)) by (apply elem_of_list_In, triples_in; auto 10). specialize (H3 It). destruct (edge_at n edge i j) as [a |]; [| discriminate]. destruct (edge_at n edge j k) as [b |]; [| discriminate]. destruct (edge_at n edge i k) as [c |]; [| discriminate]. cbn [default].
    apply orb_true_iff in H3 as [K | K]; apply bool_decide_eq_true in K; auto.
  - intros i Hi. specialize (H4 i). cbv beta in H4. assert (K : sort_nat (outgoing n edge i) ∈ map sort_nat (positives cs)) by (apply (proj1 (bool_decide_eq_true _)), H4, in_seq; lia). apply elem_of_list_fmap in K as (vs & E & I). exists vs. split; [exact I |]. intros v Iv. assert (Io : v ∈ outgoing n edge i) by (rewrite <- (sort_perm (outgoing n edge i)), E, sort_perm; exact Iv).
    apply outgoing_in in Io as (j & Hj & Dj & Ej). exists j. rewrite Ej. auto.
Qed.
(** A certificate that passes its check shows the clauses unsatisfiable. *)
Theorem C77_check_sound cert cs f : check_ordering_cert cert cs = true -> ~ satisfies f cs.
Proof. intros H. apply (core_unsat _ _ _ f (check_core cert cs H)). Qed.

(** ** The recogniser *)
Lemma partners_ok (L : list (nat * nat)) : (forall e, e ∈ L -> key2 (fst e) (snd e) = e) -> forall l m m', (forall e, e ∈ l -> e ∈ L) -> partners m l = Some m' ->
  (forall a b, m !! a = Some b -> m !! b = Some a /\ key2 a b ∈ L) -> forall a b, m' !! a = Some b -> m' !! b = Some a /\ key2 a b ∈ L.
Proof.
  intros HL. induction l as [| [a b] l IH]; intros m m' Sub E P; cbn [partners] in E; [injection E as <-; exact P |]. destruct (m !! a) eqn:Ea; [discriminate |]. destruct (<[a := b]> m !! b) eqn:Eb; [discriminate |].
  assert (Dab : a <> b) by (intros ->; rewrite lookup_insert in Eb; discriminate). rewrite lookup_insert_ne in Eb by exact Dab. apply (IH _ _ (fun e I => Sub e (elem_of_list_further _ _ _ I)) E). intros x y Ex.
  assert (Kab : key2 a b ∈ L) by (pose proof (HL (a, b) (Sub _ (elem_of_list_here _ _))) as K; cbn [fst snd] in K; rewrite K; apply Sub; left).
  destruct (decide (x = b)) as [-> | Db]; [rewrite lookup_insert in Ex; injection Ex as <-; rewrite lookup_insert_ne, lookup_insert by congruence; split; [reflexivity |]; rewrite (proj2 (key2_cases b a a b)) by auto; exact Kab |]. rewrite lookup_insert_ne in Ex by congruence.
  destruct (decide (x = a)) as [-> | Da]; [rewrite lookup_insert in Ex; injection Ex as <-; rewrite lookup_insert; auto |]. rewrite lookup_insert_ne in Ex by congruence. destruct (P x y Ex) as [Py Pk]. split; [| exact Pk]. assert (y <> a) by (intros ->; congruence). assert (y <> b) by (intros ->; congruence). rewrite !lookup_insert_ne by congruence. exact Py.
Qed.
Lemma groups_ok partner cs l : forall st, (forall pc, pc ∈ l -> pc ∈ positives cs) -> (forall g, g ∈ fst st -> g ∈ positives cs /\ NoDup g) -> forall g, g ∈ fst (fold_left (add_group partner) l st) -> g ∈ positives cs /\ NoDup g.
Proof.
  induction l as [| pc l IH]; intros st Hl Hs; [exact Hs |]. cbn [fold_left]. apply IH; [intros x I; apply Hl; right; exact I |]. intros g. destruct st as [gs go]. unfold add_group. destruct (_ || _); [apply Hs |]. destruct (bool_decide_reflect (NoDup pc)) as [N | N]; cbn [negb]; [| apply Hs]. destruct (existsb _ pc); [apply Hs |]. destruct (existsb _ pc); [apply Hs |]. cbn [fst].
  intros I. apply elem_of_app in I as [I | I]; [apply Hs, I |]. apply elem_of_list_singleton in I as ->. split; [apply Hl; left | exact N].
Qed.
Lemma edges_ok go l : forall m m', edges go m l = Some m' -> (forall k a, m !! k = Some a -> m' !! k = Some a) /\
  (forall a b, (a, b) ∈ l -> exists i j, go !! a = Some i /\ go !! b = Some j /\ m' !! (i, j) = Some a) /\
  (forall i j a, m' !! (i, j) = Some a -> m !! (i, j) = Some a \/ exists b, (a, b) ∈ l /\ go !! a = Some i /\ go !! b = Some j).
Proof.
  induction l as [| [a b] l IH]; intros m m' E; cbn [edges] in E.
  - injection E as <-. split; [auto |]. split; [intros a b I; apply elem_of_nil in I as [] | auto].
  - destruct (go !! a) as [i |] eqn:Ea; [| discriminate]. destruct (go !! b) as [j |] eqn:Eb; [| discriminate]. destruct (i =? j); [discriminate |]. destruct (m !! (i, j)) eqn:Em; [discriminate |]. destruct (IH _ _ E) as (H1 & H2 & H3). split; [| split].
    + intros k x K. apply H1. rewrite lookup_insert_ne; [exact K | congruence].
    + intros x y I. apply elem_of_cons in I as [I | I]; [injection I as -> ->; exists i, j; split; [exact Ea |]; split; [exact Eb |]; apply H1, lookup_insert | apply H2, I].
    + intros i' j' x K. destruct (H3 i' j' x K) as [K' | (y & I & K')]; [| right; exists y; split; [right; exact I | exact K']]. destruct (decide ((i, j) = (i', j'))) as [D | D].
      * injection D as <- <-. rewrite lookup_insert in K'. injection K' as <-. right. exists b. split; [left |]. auto.
      * rewrite lookup_insert_ne in K' by exact D. left. exact K'.
Qed.
Lemma prod_lookup n m : forall s i j, i < m -> j < n -> list_prod (seq s m) (seq 0 n) !! (i * n + j) = Some (s + i, j).
Proof.
  induction m as [| m IH]; intros s i j Hi Hj; [lia |]. cbn [seq list_prod]. assert (Lf : length (map (fun y => (s, y)) (seq 0 n)) = n) by (rewrite map_length, seq_length; reflexivity). destruct i as [| i].
  - rewrite lookup_app_l by (rewrite Lf; lia). rewrite list_lookup_fmap. cbn [Nat.mul Nat.add]. rewrite (proj2 (lookup_seq 0 n j j)) by lia. cbn. rewrite Nat.add_0_r. reflexivity.
  - rewrite lookup_app_r by (rewrite Lf; lia). rewrite Lf. replace (S i * n + j - n) with (i * n + j) by lia. rewrite IH by lia. do 2 f_equal. lia.
Qed.
Lemma prod_nodup {A B} (l : list A) (l' : list B) : NoDup l -> NoDup l' -> NoDup (list_prod l l').
Proof.
  intros N N'. induction l as [| a l IH]; [apply NoDup_nil_2 |]. apply NoDup_cons in N as [Na N]. cbn [list_prod]. apply NoDup_app. split; [apply NoDup_fmap_2_strong; [intros x y _ _ E; congruence | exact N'] |]. split; [| apply IH, N].
  intros [x y] I J. apply elem_of_list_In, in_map_iff in I as (z & E & _). injection E as <- _. apply elem_of_list_In, in_prod_iff in J as [J _]. apply Na, elem_of_list_In, J.
Qed.
(** A certificate that is returned passes its check. *)
Theorem C77_certificate_checks num_vars cs cert : ordering_certificate num_vars cs = Some cert -> check_ordering_cert cert cs = true.
Proof.
  unfold ordering_certificate. destruct (num_vars <? 2); [discriminate |]. set (cmp := List.filter _ _). destruct (length cmp <? 2); [discriminate |]. destruct (partners ∅ cmp) as [partner |] eqn:Ep; [| discriminate]. cbn [mbind option_bind].
  destruct (fold_left (add_group partner) (positives cs) ([], ∅)) as [groups go] eqn:Eg. set (n := length groups). destruct (Nat.ltb_spec n 2) as [L | L]; [discriminate |]. cbn [orb]. destruct (_ || _ || _); [discriminate |].
  destruct (edges go ∅ (map_to_list partner)) as [em |] eqn:Ee; [| discriminate]. cbn [mbind option_bind]. destruct (negb (size em =? _)); [discriminate |].
  destruct (forallb (fun p => bool_decide (is_Some (em !! p))) (opairs n)) eqn:Es; [| discriminate]. cbn [negb]. set (edge := map _ (list_prod (seq 0 n) (seq 0 n))). destruct (forallb _ (zip (seq 0 n) groups)) eqn:Ez; [| discriminate]. cbn [negb].
  set (trans := flat_map _ (omap trans_of cs)). destruct (forallb _ (triples n)) eqn:Et; [| discriminate]. intros [= <-].
  rewrite forallb_forall in Es, Ez, Et.
  assert (At : forall i j, i < n -> j < n -> edge_at n edge i j = if i =? j then None else em !! (i, j)). { intros i j Hi Hj. unfold edge_at, edge. rewrite list_lookup_fmap, (prod_lookup n n 0 i j Hi Hj). reflexivity. }
  assert (At' : forall i j, i < n -> j < n -> i <> j -> exists a, edge_at n edge i j = Some a /\ em !! (i, j) = Some a).
  { intros i j Hi Hj D. rewrite (At i j Hi Hj). destruct (Nat.eqb_spec i j) as [K | _]; [contradiction |]. assert (K : is_Some (em !! (i, j))) by (apply (proj1 (bool_decide_eq_true _)), (Es (i, j)), elem_of_list_In, opairs_in; auto). destruct K as [a K]. exists a. auto. }
  destruct (edges_ok go _ _ _ Ee) as (_ & Ed & Ei).
  assert (Ei' : forall i j a, em !! (i, j) = Some a -> exists b, partner !! a = Some b /\ go !! a = Some i /\ go !! b = Some j). { intros i j a K. destruct (Ei i j a K) as [K' | (b & I & K')]; [rewrite lookup_empty in K'; discriminate |]. exists b. apply elem_of_map_to_list in I. auto. }
  assert (Inj : forall i j i' j' a, em !! (i, j) = Some a -> em !! (i', j') = Some a -> i = i' /\ j = j'). { intros i j i' j' a K K'. destruct (Ei' i j a K) as (b & B1 & B2 & B3). destruct (Ei' i' j' a K') as (b' & B1' & B2' & B3'). assert (b' = b) by congruence. subst b'. split; congruence. }
  assert (Pt : forall a b, partner !! a = Some b -> partner !! b = Some a /\ key2 a b ∈ cmp).
  { apply (partners_ok cmp) with (l := cmp) (m := ∅); [| auto | exact Ep | intros a b K; rewrite lookup_empty in K; discriminate]. intros e I. unfold cmp in I. apply elem_of_list_In, filter_In in I as [I _]. apply elem_of_list_In in I. apply (proj1 (elem_of_remove_dups _ _)), pair_keys_in in I as (a & b & -> & _). clear. unfold key2. destruct (Nat.ltb_spec a b); cbn [fst snd]; [destruct (Nat.ltb_spec a b) | destruct (Nat.ltb_spec b a)]; try reflexivity; try lia. assert (a = b) by lia. subst. reflexivity. }
  assert (Ng : forall i, NoDup (outgoing n edge i) \/ n <= i).
  { intros i. destruct (Nat.lt_ge_cases i n) as [Hi | Hi]; [left | right; exact Hi]. unfold outgoing. assert (G : forall l, NoDup l -> (forall j, j ∈ l -> j < n) -> NoDup (omap (fun j => if j =? i then None else edge_at n edge i j) l)); [| apply G; [apply NoDup_ListNoDup, seq_NoDup | intros j I; apply elem_of_seq in I; lia]].
    induction l as [| j l IH]; intros N B; [apply NoDup_nil_2 |]. apply NoDup_cons in N as [Nj N]. cbn [omap list_omap]. specialize (IH N (fun k I => B k (elem_of_list_further _ _ _ I))). destruct (Nat.eqb_spec j i) as [_ | D]; [exact IH |]. destruct (edge_at n edge i j) as [a |] eqn:Ea; [| exact IH]. apply NoDup_cons. split; [| exact IH].
    intros I. apply elem_of_list_omap in I as (k & Ik & Ek). destruct (Nat.eqb_spec k i) as [_ | Dk]; [discriminate |]. assert (Hj : j < n) by (apply B; left). assert (Hk : k < n) by (apply B; right; exact Ik). rewrite (At i j Hi Hj) in Ea. rewrite (At i k Hi Hk) in Ek. destruct (i =? j); [discriminate |]. destruct (i =? k); [discriminate |]. destruct (Inj i j i k a Ea Ek) as [_ ->]. contradiction. }
  unfold check_ordering_cert. cbn [oc_n oc_edge]. destruct (Nat.ltb_spec n 2) as [K | _]; [lia |]. cbn [orb]. assert (Le : length edge = n * n) by (unfold edge; rewrite map_length, prod_length, seq_length; reflexivity). rewrite Le, Nat.eqb_refl. cbn [negb].
  destruct (mapM (fun p => edge_at n edge (fst p) (snd p)) (opairs n)) as [vars |] eqn:Ev.
  2:{ apply mapM_None, Exists_exists in Ev as ([i j] & I & K). apply opairs_in in I as (Hi & Hj & D). cbn [fst snd] in K. destruct (At' i j Hi Hj D) as (a & A & _). congruence. }
  rewrite !andb_true_iff. split; [split; [split |] |].
  - apply bool_decide_eq_true, NoDup_alt. intros x y v Ex Ey. apply mapM_Some in Ev. destruct (Forall2_lookup_r _ _ _ _ _ Ev Ex) as ([i j] & Ox & Vx). destruct (Forall2_lookup_r _ _ _ _ _ Ev Ey) as ([i' j'] & Oy & Vy). cbn [fst snd] in Vx, Vy.
    assert (Ix : (i, j) ∈ opairs n) by (apply elem_of_list_lookup; eauto). assert (Iy : (i', j') ∈ opairs n) by (apply elem_of_list_lookup; eauto). apply opairs_in in Ix as (A1 & A2 & A3). apply opairs_in in Iy as (B1 & B2 & B3).
    destruct (At' i j A1 A2 A3) as (a & Ea & Ma). destruct (At' i' j' B1 B2 B3) as (b & Eb & Mb). assert (a = v) by congruence. assert (b = v) by congruence. subst a b. destruct (Inj i j i' j' v Ma Mb) as [-> ->].
    apply (NoDup_lookup (opairs n) x y (i', j')); [| exact Ox | exact Oy]. apply NoDup_ListNoDup, List.NoDup_filter, NoDup_ListNoDup, prod_nodup; apply NoDup_ListNoDup, seq_NoDup.
  - apply forallb_forall. intros [i j] I. apply filter_In in I as [I _]. apply elem_of_list_In, opairs_in in I as (Hi & Hj & D). cbn [fst snd]. destruct (At' i j Hi Hj D) as (a & Ea & Ma). destruct (At' j i Hj Hi (not_eq_sym D)) as (b & Eb & Mb). rewrite Ea, Eb.
    destruct (Ei' i j a Ma) as (b' & P1 & G1 & G2). destruct (Pt a b' P1) as [P2 Kc]. destruct (Ed b' a) as (j' & i' & G3 & G4 & M'); [apply elem_of_map_to_list, P2 |]. assert (j' = j) by congruence. assert (i' = i) by congruence. subst i' j'. assert (b' = b) by congruence. subst b'.
    unfold cmp in Kc. apply elem_of_list_In, filter_In in Kc as [K1 K2]. apply elem_of_list_In in K1. apply (proj1 (elem_of_remove_dups _ _)) in K1. apply bool_decide_eq_true in K2. apply andb_true_iff. split; apply bool_decide_eq_true; assumption.
  - apply forallb_forall. intros [[i j] k] I. specialize (Et _ I). cbv beta iota in Et. destruct (edge_at n edge i j) as [a |]; [| discriminate]. destruct (edge_at n edge j k) as [b |]; [| discriminate]. destruct (edge_at n edge i k) as [c |]; [| discriminate]. apply bool_decide_eq_true in Et. apply orb_true_iff. rewrite !bool_decide_eq_true.
    unfold trans in Et. apply elem_of_list_In, in_flat_map in Et as ([[a' b'] c'] & It & J). apply elem_of_list_In in It. destruct J as [J | [J | []]]; injection J as -> -> ->; auto.
  - apply forallb_forall. intros i I. apply in_seq in I. destruct (lookup_lt_is_Some_2 groups i) as [g Eg']; [fold n; lia |]. apply bool_decide_eq_true, elem_of_list_fmap. exists g.
    assert (Gi : g ∈ positives cs /\ NoDup g). { apply (groups_ok partner cs (positives cs) ([], ∅)); [auto | intros h Ih; apply elem_of_nil in Ih as [] |]. rewrite Eg. cbn [fst]. apply elem_of_list_lookup. exists i. exact Eg'. }
    destruct Gi as [Gp Gn]. split; [| exact Gp]. apply sort_eq, NoDup_Permutation; [destruct (Ng i) as [K | K]; [exact K | lia] | exact Gn |].
    assert (Iz : In (i, g) (zip (seq 0 n) groups)). { apply elem_of_list_In, elem_of_list_lookup. exists i. apply lookup_zip_with_Some. exists i, g. split; [reflexivity |]. split; [apply (proj2 (lookup_seq 0 n i i)); lia | exact Eg']. }
    specialize (Ez _ Iz). cbn [fst snd] in Ez. apply andb_true_iff in Ez as [Z1 Z2]. rewrite forallb_forall in Z1, Z2. intros v. split; intros Iv; apply elem_of_list_In in Iv; [apply Z1 in Iv | apply Z2 in Iv]; apply bool_decide_eq_true in Iv; exact Iv.
Qed.
(** So a recognised formula has no solution. *)
Theorem C77_sound num_vars cs f : refute_ordering num_vars cs = true -> ~ satisfies f cs.
Proof. unfold refute_ordering. destruct (ordering_certificate num_vars cs) as [cert |] eqn:E; [| discriminate]. intros _. apply (C77_check_sound cert), (C77_certificate_checks num_vars), E. Qed.
(** For formulas whose atoms are named apart. Missing: the others, for which it is false. *)
Theorem C77_formula_sound_partial e I : clean e -> sensible I -> refutes_ordering_principle e = true -> truth_with I e = false.
Proof.
  intros Cl Se H. unfold refutes_ordering_principle in H. destruct (assert_expr empty e) as [c |] eqn:E; [| discriminate]. destruct (truth_with I e) eqn:T; [| reflexivity]. exfalso.
  assert (F : from_premises [e] = Some c) by (unfold from_premises; cbn [assert_all]; rewrite E; reflexivity).
  destruct (C69_complete [e] c I) as (model & _ & Sat & _); [constructor; [exact Cl | constructor] | exact Se | exact F | intros x Ix; apply elem_of_list_singleton in Ix as ->; exact T |]. apply (C77_sound _ _ _ H Sat).
Qed.
(** Atoms that differ in their world only share a variable, and a true formula is refuted. *)
Theorem C77_formula_refuted : exists e I, refutes_ordering_principle e = true /\ truth_with I e = true.
Proof.
  exists (world_formula (Some "p"%string) (Some "n"%string) gt3), (fun a => match a with EPred _ _ (Some w) => String.eqb w "p" | _ => false end). split; vm_compute; reflexivity.
Qed.
(** An unrelated positive clause hides a core that a certificate shows. *)
Theorem C77_complete_refuted : exists num_vars cs cert, check_ordering_cert cert cs = true /\ ordering_certificate num_vars cs = None.
Proof. exists 6, ([Lit 0 true; Lit 3 true] :: gt3), gt3_cert. split; vm_compute; reflexivity. Qed.
Definition plain_pred (a : pexpr) : bool := match a with EPred p [] None => negb (String.eqb p "") && forallb (fun c => bool_decide (c ∉ punctuation)) (list_ascii_of_string p) | _ => false end.
Lemma plain_preds l : forallb plain_pred l = true -> Forall clean_atom l.
Proof.
  intros H. apply Forall_forall. intros a Ia. rewrite forallb_forall in H. apply elem_of_list_In, H in Ia. destruct a as [p [| t ts] [w |] | | | | | | | |]; try discriminate. cbn [plain_pred] in Ia. apply andb_true_iff in Ia as [A B]. cbn [clean_atom]. split; [| split; [exact I | reflexivity]]. split; [intros ->; discriminate |].
  apply Forall_forall. intros c Ic. rewrite forallb_forall in B. apply elem_of_list_In, B in Ic. apply bool_decide_eq_true in Ic. exact Ic.
Qed.
Example C77_example : ordering_certificate 6 gt3 = Some gt3_cert /\ check_ordering_cert gt3_cert gt3 = true /\ refutes_ordering_principle (world_formula None None gt3) = true /\
  refute_ordering 6 (take 8 gt3 ++ drop 9 gt3) = false /\ clean (world_formula None None gt3).
Proof. split; [vm_compute; reflexivity |]. split; [vm_compute; reflexivity |]. split; [vm_compute; reflexivity |]. split; [vm_compute; reflexivity |]. apply plain_preds. vm_compute. reflexivity. Qed.
