(** C78: exactly-one groups against the parity constraints of the clauses. *)
From Coq Require Import List Arith NArith Bool Lia Sorting.Sorted.
From stdpp Require Import list sorting.
From stdpp Require Import list_numbers.
From Verif Require Import RupModel RupProofs GaussModel GaussProofs XorProps XorParity OrderModel ParCardModel.
Local Open Scope list_scope.

(** ** Clauses over a set of variables *)
Definition over (V : list nat) (c : clause) : Prop := NoDup (map lvar c) /\ forall v, v ∈ map lvar c <-> v ∈ V.
(** The assignment that falsifies a clause. *)
Definition fa (c : clause) (v : nat) : bool := bool_decide (Lit v false ∈ c).
Lemma fst_map c : map fst (map (fun l => (lvar l, lpos l)) c) = map lvar c.
Proof. induction c as [| l c IH]; [reflexivity |]. cbn. rewrite IH. reflexivity. Qed.
Lemma cvars_elem c v : v ∈ cvars c <-> v ∈ map lvar c.
Proof. unfold cvars. rewrite var_set_elem, fst_map. reflexivity. Qed.
Lemma cvars_nodup c : NoDup (cvars c).
Proof. apply var_set_nodup. Qed.
Lemma cvars_len c : length (cvars c) = length c <-> NoDup (map lvar c).
Proof.
  split.
  - intros H. pose proof (clause_nodup (map (fun l => (lvar l, lpos l)) c)) as K. rewrite fst_map in K. apply K. rewrite map_length. exact H.
  - intros H. rewrite <- (map_length lvar c). apply Permutation_length, NoDup_Permutation; [apply cvars_nodup | exact H | apply cvars_elem].
Qed.
Lemma kept_iff n c : kept n c = true <-> NoDup (map lvar c) /\ forall v, v ∈ map lvar c -> v < n.
Proof.
  unfold kept. rewrite andb_true_iff, Nat.eqb_eq, cvars_len, negb_true_iff. split; intros [A B]; (split; [exact A |]).
  - intros v Hv. destruct (Nat.lt_ge_cases v n) as [L | L]; [exact L |]. exfalso. apply not_true_iff_false in B. apply B, existsb_exists. exists v. split; [apply elem_of_list_In, cvars_elem, Hv | apply Nat.leb_le, L].
  - apply not_true_iff_false. intros K. apply existsb_exists in K as (v & Iv & Lv). apply elem_of_list_In, cvars_elem, B in Iv. apply Nat.leb_le in Lv. lia.
Qed.
Lemma fa_lit c l : NoDup (map lvar c) -> l ∈ c -> fa c (lvar l) = negb (lpos l).
Proof.
  intros N I. unfold fa. destruct l as [v [|]]; cbn [lvar lpos negb]; [| apply bool_decide_eq_true_2, I].
  apply bool_decide_eq_false_2. intros J. clear -N I J. induction c as [| m c IH]; [apply elem_of_nil in I; destruct I |]. cbn in N. apply NoDup_cons in N as [N1 N2].
  apply elem_of_cons in I as [I | I], J as [J | J]; [congruence | | | exact (IH N2 I J)].
  - subst m. apply N1. apply elem_of_list_fmap. exists (Lit v false). auto.
  - subst m. apply N1. apply elem_of_list_fmap. exists (Lit v true). auto.
Qed.
(** A clause is false exactly under the assignments that agree with its falsifying one. *)
Lemma false_iff V c f : over V c -> (~ clause_true f c) <-> forall v, v ∈ V -> f v = fa c v.
Proof.
  intros [N E]. split.
  - intros H v Hv. apply E, elem_of_list_fmap in Hv as (l & -> & Il). rewrite (fa_lit c l N Il). destruct (Bool.bool_dec (f (lvar l)) (lpos l)) as [T | T]; [exfalso; apply H; exists l; split; assumption |].
    destruct (f (lvar l)), (lpos l); cbn; congruence.
  - intros H (l & Il & T). unfold lit_true in T. rewrite H in T by (apply E, elem_of_list_fmap; exists l; auto). rewrite (fa_lit c l N Il) in T. destruct (lpos l); discriminate.
Qed.
Lemma parity_perm f l l' : l ≡ₚ l' -> parity f l = parity f l'.
Proof. induction 1 as [| x l l' P IH | x y l | l1 l2 l3 P1 I1 P2 I2]; cbn; [reflexivity | rewrite IH; reflexivity | | congruence]. destruct (f x), (f y), (parity f l); reflexivity. Qed.
Lemma parity_ext f g l : (forall v, v ∈ l -> f v = g v) -> parity f l = parity g l.
Proof. induction l as [| v l IH]; intros H; [reflexivity |]. cbn. rewrite (H v) by left. rewrite IH; [reflexivity |]. intros w Hw. apply H. right. exact Hw. Qed.
Lemma over_perm V c : NoDup V -> over V c -> V ≡ₚ map lvar c.
Proof. intros N [Nc E]. apply NoDup_Permutation; [exact N | exact Nc |]. intros v. symmetry. apply E. Qed.
Lemma fa_parity V c : NoDup V -> over V c -> parity (fa c) V = neg_parity c.
Proof.
  intros N O. rewrite (parity_perm _ _ _ (over_perm V c N O)). destruct O as [Nc _]. unfold neg_parity.
  assert (H : forall d, (forall l, l ∈ d -> fa c (lvar l) = negb (lpos l)) -> parity (fa c) (map lvar d) = Nat.odd (length (List.filter (fun l => negb (lpos l)) d))).
  { induction d as [| l d IH]; intros H; [reflexivity |]. cbn [map parity List.filter]. rewrite (H l) by left. rewrite IH by (intros m Hm; apply H; right; exact Hm). destruct (negb (lpos l)); cbn [length]; [| apply xorb_false_l].
    rewrite Nat.odd_succ, <- Nat.negb_odd. destruct (Nat.odd _); reflexivity. }
  apply H. intros l Il. apply fa_lit; assumption.
Qed.
Lemma mask_inj x y V : mask_of x V 0 = mask_of y V 0 <-> forall v, v ∈ V -> x v = y v.
Proof.
  split.
  - intros E v Hv. apply elem_of_list_lookup in Hv as [i Ei]. apply (f_equal (fun m => N.testbit_nat m i)) in E. rewrite !mask_bits, Nat.sub_0_r, Ei in E. exact E.
  - generalize 0%nat. induction V as [| v V IH]; intros i H; [reflexivity |]. cbn [mask_of]. rewrite (H v) by left. rewrite (IH (S i)); [reflexivity |]. intros w Hw. apply H. right. exact Hw.
Qed.
Lemma code_inj l m : code l = code m -> l = m.
Proof. unfold code. destruct l as [v s], m as [w t]. cbn [lvar lpos]. intros H. assert (v = w /\ s = t) as [-> ->]; [| reflexivity]. destruct s, t; split; try reflexivity; lia. Qed.
Lemma sig_perm c d : c ≡ₚ d -> sig c = sig d.
Proof.
  intros P. unfold sig. apply (StronglySorted_unique le).
  - apply (Sorted_StronglySorted le), (Sorted_merge_sort le).
  - apply (Sorted_StronglySorted le), (Sorted_merge_sort le).
  - rewrite !(merge_sort_Permutation le). apply Permutation_map, P.
Qed.
Lemma sig_inv c d : sig c = sig d -> c ≡ₚ d.
Proof.
  unfold sig. intros E. assert (P : map code c ≡ₚ map code d) by (rewrite <- (merge_sort_Permutation le (map code c)), <- (merge_sort_Permutation le (map code d)), E; reflexivity).
  apply Permutation_map_inv in P as (e & Ee & Pe). rewrite Pe. clear -Ee. revert c Ee. induction e as [| m e IH]; intros [| l c] E; try discriminate; [reflexivity |]. cbn in E. injection E as E1 E2. apply code_inj in E1. rewrite E1. apply Permutation_skip. symmetry. symmetry. apply IH, E2.
Qed.
Lemma same_perm V c d : over V c -> over V d -> (forall v, v ∈ V -> fa c v = fa d v) -> c ≡ₚ d.
Proof.
  assert (K : forall c d, over V c -> over V d -> (forall v, v ∈ V -> fa c v = fa d v) -> forall l, l ∈ c -> l ∈ d).
  { clear. intros c d [Nc Ec] [Nd Ed] H l Il. assert (Iv : lvar l ∈ map lvar c) by (apply elem_of_list_fmap; exists l; auto). pose proof (fa_lit c l Nc Il) as F. rewrite H in F by (apply Ec, Iv).
    apply Ec, Ed, elem_of_list_fmap in Iv as (m & Em & Im). rewrite Em, (fa_lit d m Nd Im) in F. destruct l as [v s], m as [w t]. cbn in Em, F. subst w. destruct s, t; try discriminate; exact Im. }
  intros Oc Od H. apply NoDup_Permutation.
  - apply (NoDup_fmap_1 lvar), Oc.
  - apply (NoDup_fmap_1 lvar), Od.
  - intros l. split; [apply K; assumption |]. apply K; [assumption | assumption |]. intros v Hv. symmetry. apply H, Hv.
Qed.
Lemma perm_over_fa c d : c ≡ₚ d -> forall v, fa c v = fa d v.
Proof. intros P v. unfold fa. apply bool_decide_ext. rewrite P. reflexivity. Qed.

(** ** Counting *)
Lemma remove_dups_id {A} `{EqDecision A} (l : list A) : NoDup l -> remove_dups l = l.
Proof. induction 1 as [| a l N _ IH]; [reflexivity |]. cbn [remove_dups]. case_decide as D; [contradiction |]. rewrite IH. reflexivity. Qed.
Lemma half_count k p (L : list N) : (1 <= k <= 32)%nat -> NoDup L -> (forall a, a ∈ L <-> (a < 2 ^ N.of_nat k)%N /\ odd_bits a = p) -> length L = 2 ^ (k - 1).
Proof.
  intros Hk Nd HL. set (g := fun a => N.lxor a (2 ^ N.of_nat 0)).
  assert (Og : forall b, odd_bits (g b) = negb (odd_bits b)).
  { intros b. unfold odd_bits. rewrite (psum_ext 32 (fun i => N.testbit_nat (g b) i) (fun i => xorb (N.testbit_nat b i) (Nat.eqb i 0))) by (intros i _; unfold g; rewrite tb_lxor, tb_pow; reflexivity).
    rewrite psum_xor, (psum_single 32 (fun i => Nat.eqb i 0) 0) by (try lia; intros i _ Hi; apply Nat.eqb_neq; exact Hi). cbn [Nat.eqb]. apply xorb_true_r. }
  assert (Inv : forall b, g (g b) = b) by (intros b; unfold g; rewrite N.lxor_assoc, N.lxor_nilpotent, N.lxor_0_r; reflexivity).
  assert (Sm : forall b, (b < 2 ^ N.of_nat k)%N -> (g b < 2 ^ N.of_nat k)%N).
  { intros b Hb. apply tb_small. intros c Hc. unfold g. rewrite tb_lxor, tb_pow, (small_tb k b c Hb Hc). destruct (Nat.eqb_spec c 0); [lia | reflexivity]. }
  assert (P : L ++ map g L ≡ₚ map N.of_nat (seq 0 (2 ^ k))).
  { apply NoDup_Permutation.
    - apply NoDup_app. split; [exact Nd |]. split.
      + intros b Hb Hg. apply elem_of_list_fmap in Hg as (c & -> & Hc). apply HL in Hb as [_ P1]. apply HL in Hc as [_ P2]. rewrite Og, P2 in P1. destruct p; discriminate.
      + apply (NoDup_fmap_2_strong g); [| exact Nd]. intros x y _ _ E. rewrite <- (Inv x), E. apply Inv.
    - apply (NoDup_fmap_2_strong N.of_nat); [intros x y _ _ E; apply Nat2N.inj, E | apply NoDup_ListNoDup, seq_NoDup].
    - intros a. pose proof (Nat2N.inj_pow 2 k) as E. change (N.of_nat 2) with 2%N in E.
      assert (R : a ∈ map N.of_nat (seq 0 (2 ^ k)) <-> (a < 2 ^ N.of_nat k)%N).
      { rewrite elem_of_list_In, in_map_iff. split; [intros (i & <- & Hi); apply in_seq in Hi; lia |]. intros Ha. exists (N.to_nat a). split; [apply N2Nat.id | apply in_seq; lia]. }
      rewrite R, elem_of_app. split.
      + intros [Ha | Ha]; [apply HL, Ha |]. apply elem_of_list_fmap in Ha as (c & -> & Hc). apply Sm, HL, Hc.
      + intros Ha. destruct (Bool.bool_dec (odd_bits a) p) as [Q | Q]; [left; apply HL; auto | right]. apply elem_of_list_fmap. exists (g a). split; [symmetry; apply Inv |]. apply HL. split; [apply Sm, Ha |]. rewrite Og. destruct (odd_bits a), p; cbn; congruence. }
  apply Permutation_length in P. rewrite app_length, !map_length, seq_length in P. destruct k as [| k]; [lia |]. replace (S k - 1) with k by lia. cbn [Nat.pow] in P. lia.
Qed.
Lemma mask_small x V : (mask_of x V 0 < 2 ^ N.of_nat (length V))%N.
Proof. apply tb_small. intros i Hi. rewrite mask_bits, Nat.sub_0_r, lookup_ge_None_2 by exact Hi. reflexivity. Qed.
Lemma mask_onto V a : NoDup V -> (a < 2 ^ N.of_nat (length V))%N -> exists x, mask_of x V 0 = a.
Proof.
  intros N L. exists (fun v => match row_of V v with Some i => N.testbit_nat a i | None => false end). apply N.bits_inj. intros j. rewrite <- (N2Nat.id j), !Ntestbit_Nbit, mask_bits, Nat.sub_0_r.
  destruct (V !! N.to_nat j) as [v |] eqn:E; [| symmetry; apply (small_tb _ _ _ L), lookup_ge_None_1, E]. rewrite (row_of_pivot V _ v N E). reflexivity.
Qed.

(** ** A group *)
(** No two clauses are equal up to the order of their literals. *)
Definition distinct (g : list clause) : Prop := forall i j c d, g !! i = Some c -> g !! j = Some d -> c ≡ₚ d -> i = j.
Definition masks (V : list nat) (g : list clause) : list N := map (fun c => mask_of (fa c) V 0) g.
Lemma sigs_distinct g : NoDup (map sig g) <-> distinct g.
Proof.
  rewrite NoDup_alt. split.
  - intros H i j c d Ei Ej P. apply (H i j (sig c)); change (map sig g) with (sig <$> g); rewrite list_lookup_fmap; [rewrite Ei; reflexivity | rewrite Ej; cbn; rewrite (sig_perm c d P); reflexivity].
  - intros H i j s Ei Ej. change (map sig g) with (sig <$> g) in *. rewrite list_lookup_fmap in Ei, Ej. destruct (g !! i) as [c |] eqn:Gi; [| discriminate]. destruct (g !! j) as [d |] eqn:Gj; [| discriminate].
    apply (H i j c d Gi Gj). cbn in Ei, Ej. apply sig_inv. congruence.
Qed.
Lemma masks_distinct V g : (forall c, c ∈ g -> over V c) -> NoDup (masks V g) <-> distinct g.
Proof.
  intros O. unfold masks. rewrite NoDup_alt. split.
  - intros H i j c d Ei Ej P. change (map ?f g) with (f <$> g) in H. apply (H i j (mask_of (fa c) V 0)); rewrite list_lookup_fmap; [rewrite Ei; reflexivity | rewrite Ej; cbn; f_equal; symmetry; apply mask_inj; intros v _; apply perm_over_fa, P].
  - intros H i j s Ei Ej. change (map ?f g) with (f <$> g) in *. rewrite list_lookup_fmap in Ei, Ej. destruct (g !! i) as [c |] eqn:Gi; [| discriminate]. destruct (g !! j) as [d |] eqn:Gj; [| discriminate].
    apply (H i j c d Gi Gj). cbn in Ei, Ej. apply (same_perm V); [apply O; eapply elem_of_list_lookup_2, Gi | apply O; eapply elem_of_list_lookup_2, Gj |]. apply mask_inj. congruence.
Qed.
Lemma in_masks V g f : (forall c, c ∈ g -> over V c) -> mask_of f V 0 ∈ masks V g <-> exists c, c ∈ g /\ ~ clause_true f c.
Proof.
  intros O. unfold masks. rewrite elem_of_list_In, in_map_iff. split.
  - intros (c & E & Ic). apply elem_of_list_In in Ic. exists c. split; [exact Ic |]. apply (false_iff V c f (O c Ic)). apply mask_inj. symmetry. exact E.
  - intros (c & Ic & F). exists c. split; [| apply elem_of_list_In, Ic]. symmetry. apply mask_inj. apply (false_iff V c f (O c Ic)), F.
Qed.
Lemma clause_true_dec f c : clause_true f c \/ ~ clause_true f c.
Proof.
  induction c as [| l c [IH | IH]]; [right; intros (l & I & _); apply elem_of_nil in I; exact I | left; destruct IH as (m & I & T); exists m; split; [right; exact I | exact T] |].
  destruct (Bool.bool_dec (f (lvar l)) (lpos l)) as [T | T]; [left; exists l; split; [left | exact T] | right]. intros (m & I & T'). apply elem_of_cons in I as [-> | I]; [exact (T T') | apply IH; exists m; auto].
Qed.
Lemma all_true_masks V g f : (forall c, c ∈ g -> over V c) -> (forall c, c ∈ g -> clause_true f c) <-> mask_of f V 0 ∉ masks V g.
Proof.
  intros O. rewrite in_masks by exact O. split; [intros H (c & Ic & F); exact (F (H c Ic)) |]. intros H c Ic. destruct (clause_true_dec f c) as [T | T]; [exact T |]. exfalso. apply H. exists c. auto.
Qed.
Lemma group_spec V g b : NoDup V -> (forall c, c ∈ g -> over V c) ->
  group_eq V g = Some (XorEq V b) <-> 1 <= length V <= 12 /\ distinct g /\ forall f, (forall c, c ∈ g -> clause_true f c) <-> parity f V = b.
Proof.
  intros N O. assert (Par : forall c, c ∈ g -> odd_bits (mask_of (fa c) V 0) = neg_parity c \/ 32 < length V).
  { intros c Ic. destruct (Nat.le_gt_cases (length V) 32) as [L | L]; [left | right; exact L]. rewrite parity_mask by exact L. apply fa_parity; auto. }
  split.
  - unfold group_eq. destruct (Nat.eqb_spec (length V) 0) as [| K0]; [discriminate |]. destruct (Nat.ltb_spec 12 (length V)) as [| K1]; [discriminate |]. cbn [orb].
    destruct (map neg_parity g) as [| p ps] eqn:Em; [discriminate |]. rewrite <- Em, map_length. destruct (Nat.eqb_spec (length g) (2 ^ (length V - 1))) as [Len |]; [| discriminate].
    destruct (forallb (fun q => Bool.eqb q p) (map neg_parity g)) eqn:Ef; [| discriminate]. cbn [orb negb]. destruct (Nat.eqb_spec (length (remove_dups (map sig g))) (2 ^ (length V - 1))) as [Ls |]; [| discriminate]. cbn [negb]. intros [= <-].
    assert (D : distinct g) by (apply sigs_distinct, remove_dups_length; rewrite map_length; congruence). split; [lia |]. split; [exact D |]. intros f. rewrite (all_true_masks V g f O).
    assert (HL : forall a, a ∈ masks V g -> (a < 2 ^ N.of_nat (length V))%N /\ odd_bits a = p).
    { intros a Ha. apply elem_of_list_fmap in Ha as (c & -> & Ic). split; [apply mask_small |]. destruct (Par c Ic) as [-> | L]; [| lia]. rewrite forallb_forall in Ef. apply eqb_prop, Ef, in_map, elem_of_list_In, Ic. }
    assert (C : mask_of f V 0 ∈ masks V g <-> parity f V = p).
    { split; [intros M; apply HL in M as [_ M]; rewrite parity_mask in M by lia; exact M |]. intros Q. apply (half_covers (length V) p); [lia | apply masks_distinct; assumption | exact HL | unfold masks; rewrite map_length; exact Len | apply mask_small | rewrite parity_mask by lia; exact Q]. }
    rewrite C. destruct (parity f V), p; cbn; intuition congruence.
  - intros ([K0 K1] & D & H).
    assert (HL : forall a, a ∈ masks V g <-> (a < 2 ^ N.of_nat (length V))%N /\ odd_bits a = negb b).
    { intros a. split.
      - intros Ha. pose proof Ha as Ha'. apply elem_of_list_fmap in Ha as (c & -> & Ic). split; [apply mask_small |]. rewrite parity_mask by lia. destruct (Bool.bool_dec (parity (fa c) V) b) as [Q | Q]; [| destruct (parity (fa c) V), b; cbn; congruence].
        exfalso. exact (proj1 (all_true_masks V g _ O) (proj2 (H _) Q) Ha').
      - intros [La Pa]. destruct (mask_onto V a N La) as [x <-]. rewrite parity_mask in Pa by lia. apply in_masks; [exact O |]. destruct (decide (mask_of x V 0 ∈ masks V g)) as [M | M]; [apply (in_masks V g x O), M |].
        exfalso. rewrite (proj1 (H x) (proj2 (all_true_masks V g x O) M)) in Pa. destruct b; discriminate. }
    assert (Len : length g = 2 ^ (length V - 1)).
    { rewrite <- (map_length (fun c => mask_of (fa c) V 0) g). apply (half_count (length V) (negb b)); [lia | apply masks_distinct; assumption | exact HL]. }
    unfold group_eq. destruct (Nat.eqb_spec (length V) 0) as [| _]; [lia |]. destruct (Nat.ltb_spec 12 (length V)) as [| _]; [lia |]. cbn [orb].
    assert (Np : forall c, c ∈ g -> neg_parity c = negb b). { intros c Ic. destruct (Par c Ic) as [<- | L]; [| lia]. apply HL. apply elem_of_list_fmap. exists c. auto. }
    destruct (map neg_parity g) as [| p ps] eqn:Em.
    { apply map_eq_nil in Em. subst g. cbn in Len. pose proof (Nat.pow_nonzero 2 (length V - 1) ltac:(lia)). lia. }
    assert (Ep : p = negb b). { destruct g as [| c g]; [discriminate |]. cbn in Em. injection Em as <- _. apply Np. left. }
    rewrite <- Em, map_length, Len, Nat.eqb_refl. replace (forallb (fun q => Bool.eqb q p) (map neg_parity g)) with true.
    2: { symmetry. apply forallb_forall. intros q Iq. apply elem_of_list_In, elem_of_list_fmap in Iq as (c & -> & Ic). rewrite (Np c Ic), Ep. apply eqb_reflx. }
    cbn [orb negb]. rewrite remove_dups_id by (apply sigs_distinct, D). rewrite map_length, Len, Nat.eqb_refl. cbn [negb]. rewrite Ep, negb_involutive. reflexivity.
Qed.
Lemma group_vars V g e : group_eq V g = Some e -> xvars e = V.
Proof. unfold group_eq. destruct (_ || _); [discriminate |]. destruct (map neg_parity g); [discriminate |]. destruct (_ || _); [discriminate |]. destruct (negb _); [discriminate |]. intros [= <-]. reflexivity. Qed.

(** ** The extraction *)
Lemma sorted_vars c d : (forall v, v ∈ map lvar c <-> v ∈ map lvar d) -> cvars c = cvars d.
Proof.
  intros E. apply (StronglySorted_unique le).
  - apply (Sorted_StronglySorted le), (Sorted_merge_sort le).
  - apply (Sorted_StronglySorted le), (Sorted_merge_sort le).
  - apply NoDup_Permutation; [apply cvars_nodup | apply cvars_nodup |]. intros v. rewrite !cvars_elem. apply E.
Qed.
Lemma over_cvars c : NoDup (map lvar c) -> over (cvars c) c.
Proof. intros N. split; [exact N |]. intros v. symmetry. apply cvars_elem. Qed.
(** The clauses among [cs] over exactly the variables [V]. *)
Definition clauses_over (V : list nat) (cs : list clause) : list clause :=
  List.filter (fun c => bool_decide (NoDup (map lvar c)) && forallb (fun v => bool_decide (v ∈ V)) (map lvar c) && forallb (fun v => bool_decide (v ∈ map lvar c)) V) cs.
Lemma over_bool V c : bool_decide (NoDup (map lvar c)) && forallb (fun v => bool_decide (v ∈ V)) (map lvar c) && forallb (fun v => bool_decide (v ∈ map lvar c)) V = true <-> over V c.
Proof.
  rewrite !andb_true_iff, !forallb_forall, bool_decide_eq_true. unfold over. split.
  - intros [[A B] C]. split; [exact A |]. intros v. split; intros I; apply elem_of_list_In in I; [apply B in I | apply C in I]; apply bool_decide_eq_true in I; exact I.
  - intros [A B]. split; [split; [exact A |] |]; intros v I; apply elem_of_list_In, B in I; apply bool_decide_eq_true_2, I.
Qed.
Lemma clauses_over_in V cs c : c ∈ clauses_over V cs <-> c ∈ cs /\ over V c.
Proof. unfold clauses_over. rewrite elem_of_list_In, filter_In, over_bool, elem_of_list_In. reflexivity. Qed.
Lemma extract_in n cs e : e ∈ extract_xor n cs <-> exists c0, c0 ∈ cs /\ kept n c0 = true /\ group_eq (cvars c0) (clauses_over (cvars c0) cs) = Some e.
Proof.
  unfold extract_xor. rewrite elem_of_list_omap.
  assert (G : forall c0, kept n c0 = true -> List.filter (fun c => bool_decide (cvars c = cvars c0)) (List.filter (kept n) cs) = clauses_over (cvars c0) cs).
  { intros c0 K0. apply (proj1 (kept_iff n c0)) in K0 as [N0 R0]. unfold clauses_over. induction cs as [| c cs IH]; [reflexivity |]. cbn [List.filter].
    match goal with |- _ = (if ?b then _ else _) => destruct b eqn:Eb end.
    - apply (proj1 (over_bool (cvars c0) c)) in Eb as [N E]. assert (K : kept n c = true). { apply kept_iff. split; [exact N |]. intros v Iv. apply R0, cvars_elem, E, Iv. }
      rewrite K. cbn [List.filter]. rewrite bool_decide_eq_true_2; [f_equal; exact IH |]. apply sorted_vars. intros v. rewrite E. apply cvars_elem.
    - destruct (kept n c) eqn:K; [| exact IH]. cbn [List.filter]. destruct (bool_decide_reflect (cvars c = cvars c0)) as [E | E]; [| exact IH]. exfalso. apply (proj1 (kept_iff n c)) in K as [N R]. apply not_true_iff_false in Eb. apply Eb, over_bool. rewrite <- E. apply over_cvars, N. }
  split.
  - intros (V & IV & E). apply (proj1 (elem_of_remove_dups _ _)), elem_of_list_fmap in IV as (c0 & -> & I0). apply elem_of_list_In, filter_In in I0 as [I0 K0]. exists c0. split; [apply elem_of_list_In, I0 |]. split; [exact K0 |]. rewrite <- (G c0 K0). exact E.
  - intros (c0 & I0 & K0 & E). exists (cvars c0). split; [| rewrite (G c0 K0); exact E]. apply elem_of_remove_dups, elem_of_list_fmap. exists c0. split; [reflexivity |]. apply elem_of_list_In, filter_In. split; [apply elem_of_list_In, I0 | exact K0].
Qed.
(** Every equation extracted is over different known variables and is equivalent to the clauses over
    exactly these variables. *)
Theorem C78_extract_equivalent n cs e : e ∈ extract_xor n cs ->
  NoDup (xvars e) /\ 1 <= length (xvars e) <= 12 /\ (forall v, v ∈ xvars e -> v < n) /\
  forall f, (forall c, c ∈ cs -> over (xvars e) c -> clause_true f c) <-> parity f (xvars e) = xrhs e.
Proof.
  intros H. apply extract_in in H as (c0 & I0 & K0 & E). pose proof (group_vars _ _ _ E) as Ev. destruct e as [V b]. cbn [xvars xrhs] in *. subst V. apply (proj1 (kept_iff n c0)) in K0 as [N0 R0].
  assert (O : forall c, c ∈ clauses_over (cvars c0) cs -> over (cvars c0) c) by (intros c Ic; apply clauses_over_in in Ic as [_ Oc]; exact Oc).
  apply (group_spec _ _ _ (cvars_nodup c0) O) in E as (L & _ & F). split; [apply cvars_nodup |]. split; [exact L |]. split; [intros v Iv; apply R0, cvars_elem, Iv |].
  intros f. rewrite <- F. split; intros K c; [intros Ic; apply clauses_over_in in Ic as [A B]; apply K; assumption | intros A B; apply K, clauses_over_in; auto].
Qed.
(** And every such group of clauses is found: one without repetitions that says a parity. *)
Theorem C78_extract_complete n cs V b : NoDup V -> 1 <= length V <= 12 -> (forall v, v ∈ V -> v < n) -> distinct (clauses_over V cs) ->
  (forall f, (forall c, c ∈ cs -> over V c -> clause_true f c) <-> parity f V = b) -> exists V', V' ≡ₚ V /\ XorEq V' b ∈ extract_xor n cs.
Proof.
  intros N L R D F. destruct (clauses_over V cs) as [| c0 g] eqn:Eg.
  - exfalso. assert (A : forall f, parity f V = b). { intros f. apply F. intros c Ic Oc. assert (M : c ∈ clauses_over V cs) by (apply clauses_over_in; auto). rewrite Eg in M. apply elem_of_nil in M. destruct M. }
    destruct V as [| v V]; [cbn in L; lia |]. apply NoDup_cons in N as [N1 N2]. pose proof (A (fun _ => false)) as A1. pose proof (A (fun w => bool_decide (w = v))) as A2. cbn [parity] in A1, A2. rewrite bool_decide_eq_true_2 in A2 by reflexivity.
    rewrite (parity_ext (fun w => bool_decide (w = v)) (fun _ => false) V) in A2 by (intros w Iw; apply bool_decide_eq_false_2; intros ->; exact (N1 Iw)). destruct (parity (fun _ => false) V), b; discriminate.
  - assert (M : c0 ∈ clauses_over V cs) by (rewrite Eg; left). pose proof (proj1 (clauses_over_in V cs c0) M) as [I0 [N0 E0]].
    assert (Same : clauses_over (cvars c0) cs = clauses_over V cs).
    { unfold clauses_over. apply List.filter_ext. intros c. apply eq_true_iff_eq. rewrite !over_bool. unfold over. split; intros [A B]; (split; [exact A |]); intros v; rewrite B, cvars_elem, E0; reflexivity. }
    assert (P : cvars c0 ≡ₚ V) by (apply NoDup_Permutation; [apply cvars_nodup | exact N |]; intros v; rewrite cvars_elem; apply E0).
    exists (cvars c0). split; [exact P |]. apply extract_in. exists c0. split; [exact I0 |]. split; [apply kept_iff; split; [exact N0 |]; intros v Iv; apply R, E0, Iv |].
    apply group_spec; [apply cvars_nodup | intros c Ic; apply clauses_over_in in Ic as [_ Oc]; exact Oc |]. rewrite (Permutation_length P). split; [exact L |]. split; [rewrite Same, Eg; exact D |].
    intros f. rewrite (parity_perm f _ _ P), <- F, Same. split; intros K c; [intros A B; apply K, clauses_over_in; auto | intros Ic; apply clauses_over_in in Ic as [A B]; apply K; assumption].
Qed.

(** ** The refuter *)
(** Exactly one of the variables of [c] is true. *)
Definition one_of (f : nat -> bool) (l : list nat) : Prop := exists v, v ∈ l /\ f v = true /\ forall w, w ∈ l -> f w = true -> w = v.
(** A clause of at least two positive literals, with different variables any two of which are excluded by another clause. *)
Definition group_clause (cs : list clause) (c : clause) : Prop :=
  2 <= length c /\ (forall l, l ∈ c -> lpos l = true) /\ NoDup (map lvar c) /\
  forall v w, v ∈ map lvar c -> w ∈ map lvar c -> v <> w -> [Lit v false; Lit w false] ∈ cs \/ [Lit w false; Lit v false] ∈ cs.
Lemma amo_in cs v w : v <> w -> key2 v w ∈ pair_keys false cs <-> [Lit v false; Lit w false] ∈ cs \/ [Lit w false; Lit v false] ∈ cs.
Proof.
  intros Ne. unfold pair_keys. rewrite elem_of_list_omap. split.
  - intros (c & Ic & E). destruct c as [| [a [|]] [| [b [|]] [| ? ?]]]; try discriminate. cbn in E. injection E as E. unfold key2 in E. destruct (a <? b) eqn:K1, (v <? w) eqn:K2; injection E as -> ->; auto.
  - assert (S : key2 v w = key2 w v). { unfold key2. destruct (Nat.ltb_spec v w), (Nat.ltb_spec w v); try reflexivity; lia. } intros [I | I]; eexists; (split; [exact I |]); cbn; [reflexivity | rewrite S; reflexivity].
Qed.
Lemma exactly_one_iff cs c : exactly_one (pair_keys false cs) c = true <-> group_clause cs c.
Proof.
  unfold exactly_one, group_clause. rewrite !andb_true_iff, negb_true_iff, Nat.ltb_ge, Nat.eqb_eq, !forallb_forall.
  assert (Nd : length (remove_dups (map lvar c)) = length c <-> NoDup (map lvar c)). { rewrite <- (map_length lvar c). split; [apply remove_dups_length |]. intros N. rewrite remove_dups_id by exact N. reflexivity. }
  rewrite Nd. split.
  - intros [[[A B] N] C]. split; [exact A |]. split; [intros l Il; apply B, elem_of_list_In, Il |]. split; [exact N |].
    assert (K : forall i j v w, i < j -> map lvar c !! i = Some v -> map lvar c !! j = Some w -> [Lit v false; Lit w false] ∈ cs \/ [Lit w false; Lit v false] ∈ cs).
    { intros i j v w Lij Ei Ej. assert (Lj : j < length c) by (apply lookup_lt_Some in Ej; rewrite map_length in Ej; exact Ej). apply amo_in; [intros ->; pose proof (NoDup_lookup _ _ _ _ N Ei Ej); lia |].
      specialize (C i ltac:(apply in_seq; lia)). rewrite forallb_forall in C. specialize (C j ltac:(apply in_seq; lia)). apply bool_decide_eq_true in C. rewrite (nth_lookup_Some _ _ _ _ Ei), (nth_lookup_Some _ _ _ _ Ej) in C. exact C. }
    intros v w Iv Iw Ne. apply elem_of_list_lookup in Iv as [i Ei]. apply elem_of_list_lookup in Iw as [j Ej]. destruct (Nat.lt_trichotomy i j) as [Lt | [E | Lt]]; [eapply K; eassumption | subst j; congruence |].
    destruct (K j i w v Lt Ej Ei); auto.
  - intros (A & B & N & C). split; [split; [split; [exact A |] | exact N] |]; [intros l Il; apply B, elem_of_list_In, Il |]. intros i Ii. apply forallb_forall. intros j Ij. apply in_seq in Ii. apply in_seq in Ij. apply bool_decide_eq_true_2.
    destruct (lookup_lt_is_Some_2 (map lvar c) i) as [v Ei]; [rewrite map_length; lia |]. destruct (lookup_lt_is_Some_2 (map lvar c) j) as [w Ej]; [rewrite map_length; lia |]. rewrite (nth_lookup_Some _ _ _ _ Ei), (nth_lookup_Some _ _ _ _ Ej).
    assert (Ne : v <> w) by (intros ->; pose proof (NoDup_lookup _ _ _ _ N Ei Ej); lia). apply amo_in; [exact Ne |]. apply C; [eapply elem_of_list_lookup_2, Ei | eapply elem_of_list_lookup_2, Ej | exact Ne].
Qed.
(** What makes a clause a group: under the clauses, exactly one of its variables is true. *)
Theorem C78_group cs c f : group_clause cs c -> c ∈ cs -> satisfies f cs -> one_of f (map lvar c) /\ parity f (map lvar c) = true.
Proof.
  intros (_ & B & N & C) Ic Sat. destruct (Sat c Ic) as (l & Il & Tl). unfold lit_true in Tl. rewrite (B l Il) in Tl.
  assert (U : forall w, w ∈ map lvar c -> f w = true -> w = lvar l).
  { intros w Iw Tw. destruct (Nat.eq_dec w (lvar l)) as [E | Ne]; [exact E |]. exfalso. assert (Iv : lvar l ∈ map lvar c) by (apply elem_of_list_fmap; exists l; auto).
    destruct (C w (lvar l) Iw Iv Ne) as [M | M]; destruct (Sat _ M) as (m & Im & Tm); unfold lit_true in Tm; apply elem_of_cons in Im as [-> | Im]; cbn in Tm; try congruence; apply elem_of_list_singleton in Im; subst m; cbn in Tm; congruence. }
  assert (Iv : lvar l ∈ map lvar c) by (apply elem_of_list_fmap; exists l; auto). split; [exists (lvar l); auto |].
  clear -N U Iv Tl. set (v := lvar l) in *. clearbody v. induction (map lvar c) as [| w L IH]; [apply elem_of_nil in Iv; destruct Iv |]. apply NoDup_cons in N as [N1 N2]. cbn [parity]. apply elem_of_cons in Iv as [-> | Iv].
  - rewrite Tl. rewrite (parity_ext f (fun _ => false)).
    + clear. induction L as [| u L IH]; [reflexivity |]. cbn [parity]. rewrite xorb_false_l. exact IH.
    + intros u Iu. destruct (f u) eqn:Fu; [| reflexivity]. exfalso. apply N1. rewrite <- (U u ltac:(right; exact Iu) Fu). exact Iu.
  - rewrite IH; [| exact N2 | intros u Iu; apply U; right; exact Iu | exact Iv]. destruct (f w) eqn:Fw; [| reflexivity]. exfalso. apply N1. rewrite (U w ltac:(left) Fw). exact Iv.
Qed.
(** The verdict is positive exactly when some group's odd parity contradicts the extracted system. *)
Theorem C78_verdict n cs : refute n cs = true <-> extract_xor n cs <> [] /\ 0 < n /\
  exists c, c ∈ cs /\ group_clause cs c /\ ~ exists x, length x = n /\ model (extract_xor n cs) x /\ parity (val x) (map lvar c) = true.
Proof.
  unfold refute. assert (U : forall eqs, is_unsat (xor_solve eqs n) = true <-> ~ exists x, length x = n /\ model eqs x).
  { intros eqs. pose proof (C71_solve_decides eqs n) as D. destruct (xor_solve eqs n) as [x | i]; cbn [is_unsat].
    - split; [discriminate |]. intros H. exfalso. apply H. destruct (proj1 D (ex_intro _ x eq_refl)) as (y & L & S). exists y. split; [exact L | apply satisfies_iff, S].
    - split; [| reflexivity]. intros _ (y & L & S). apply satisfies_iff in S. destruct (proj2 D (ex_intro _ y (conj L S))) as [z E]. discriminate. }
  assert (M : forall eqs c, (exists x, length x = n /\ model (eqs ++ [XorEq (map lvar c) true]) x) <-> exists x, length x = n /\ model eqs x /\ parity (val x) (map lvar c) = true).
  { intros eqs c. split; intros (x & L & H); exists x; (split; [exact L |]).
    - split; [intros e Ie; apply H, elem_of_app; left; exact Ie |]. apply (H (XorEq (map lvar c) true)). apply elem_of_app. right. left.
    - destruct H as [H1 H2]. intros e Ie. apply elem_of_app in Ie as [Ie | Ie]; [apply H1, Ie | apply elem_of_list_singleton in Ie as ->; exact H2]. }
  destruct (Nat.eqb_spec n 0) as [Z | Z]; [split; [discriminate | intros (_ & L & _); lia] |]. destruct (Nat.eqb_spec (length (extract_xor n cs)) 0) as [Le | Le].
  - rewrite orb_true_r. split; [discriminate |]. intros [K _]. apply nil_length_inv in Le. contradiction.
  - rewrite orb_false_r. destruct (Nat.eqb_spec (length (pair_keys false cs)) 0) as [La | La].
    + split; [discriminate |]. intros (_ & _ & c & Ic & (L & _ & N & C) & _). exfalso. destruct c as [| a [| b c]]; cbn in L; try lia. cbn in N, C. apply NoDup_cons in N as [N1 _].
      assert (Ne : lvar a <> lvar b) by (intros E; apply N1; rewrite E; left). apply nil_length_inv in La. specialize (C (lvar a) (lvar b) ltac:(left) ltac:(right; left) Ne). apply amo_in in C; [| exact Ne]. rewrite La in C. apply elem_of_nil in C. exact C.
    + rewrite existsb_exists. split.
      * intros (c & Ic & H). apply andb_true_iff in H as [H1 H2]. split; [intros E; rewrite E in Le; apply Le; reflexivity |]. split; [lia |]. exists c. split; [apply elem_of_list_In, Ic |]. split; [apply exactly_one_iff, H1 |]. rewrite <- M. apply U, H2.
      * intros (_ & _ & c & Ic & G & K). exists c. split; [apply elem_of_list_In, Ic |]. apply andb_true_iff. split; [apply exactly_one_iff, G |]. apply U. rewrite M. exact K.
Qed.
(** On clauses over the declared variables a positive verdict means there is no solution. Missing:
    clauses with other variables, for which it is false. *)
Theorem C78_sound_partial n cs f : (forall c l, c ∈ cs -> l ∈ c -> lvar l < n) -> refute n cs = true -> ~ satisfies f cs.
Proof.
  intros R H Sat. apply C78_verdict in H as (_ & _ & c & Ic & G & K). apply K. exists (map f (seq 0 n)). split; [rewrite map_length, seq_length; reflexivity |].
  assert (V : forall v, v < n -> val (map f (seq 0 n)) v = f v). { intros v Lv. unfold val. change (map f (seq 0 n)) with (f <$> seq 0 n). rewrite list_lookup_fmap. rewrite (proj2 (lookup_seq 0 n v v)) by lia. reflexivity. }
  split.
  - intros e Ie. destruct (C78_extract_equivalent n cs e Ie) as (_ & _ & Re & F). unfold holds. rewrite (parity_ext _ f) by (intros v Iv; apply V, Re, Iv). apply F. intros d Id _. apply Sat, Id.
  - rewrite (parity_ext _ f) by (intros v Iv; apply V; apply elem_of_list_fmap in Iv as (l & -> & Il); apply (R c l Ic Il)). apply (C78_group cs c f G Ic Sat).
Qed.
(** The solver ignores a variable beyond the declared ones: x0 + x5 = 1 and x0 = 0 are refuted. *)
Theorem C78_sound_refuted : exists n cs f, refute n cs = true /\ satisfies f cs.
Proof.
  exists 1, [[Lit 0 true; Lit 5 true]; [Lit 0 false; Lit 5 false]; [Lit 0 false]], (Nat.eqb 5). split; [vm_compute; reflexivity |].
  intros c Ic. apply elem_of_cons in Ic as [-> | Ic]; [exists (Lit 5 true); split; [right; left | reflexivity] |]. apply elem_of_cons in Ic as [-> | Ic]; [exists (Lit 0 false); split; [left | reflexivity] |]. apply elem_of_list_singleton in Ic as ->. exists (Lit 0 false). split; [left | reflexivity].
Qed.
(** Exactly one of x0, x1, x2, and x0 + x1 + x3 = 0, x2 + x3 = 0. *)
Definition ex_clauses : list clause :=
  [[Lit 0 true; Lit 1 true; Lit 2 true]; [Lit 0 false; Lit 1 false]; [Lit 2 false; Lit 0 false]; [Lit 1 false; Lit 2 false];
   [Lit 0 false; Lit 1 true; Lit 3 true]; [Lit 0 true; Lit 1 false; Lit 3 true]; [Lit 3 false; Lit 0 true; Lit 1 true]; [Lit 0 false; Lit 1 false; Lit 3 false];
   [Lit 2 true; Lit 3 false]; [Lit 2 false; Lit 3 true]].
Example C78_example : extract_xor 4 ex_clauses = [XorEq [0; 1; 3] false; XorEq [2; 3] false] /\ refute 4 ex_clauses = true /\ refute 4 (removelast ex_clauses) = false /\
  (forall c l, c ∈ ex_clauses -> l ∈ c -> lvar l < 4).
Proof.
  split; [vm_compute; reflexivity |]. split; [vm_compute; reflexivity |]. split; [vm_compute; reflexivity |].
  assert (K : forallb (fun c => forallb (fun l => lvar l <? 4) c) ex_clauses = true) by (vm_compute; reflexivity). intros c l Ic Il. rewrite forallb_forall in K. apply elem_of_list_In, K in Ic. rewrite forallb_forall in Ic. apply elem_of_list_In, Ic in Il. apply Nat.ltb_lt, Il.
Qed.
