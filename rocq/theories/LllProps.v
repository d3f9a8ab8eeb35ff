(** C121: the local lemma certificate and the resampling search. *)
From Coq Require Import List Arith Bool Lia Reals Lra Permutation.
From Verif Require Import LllModel.
Import ListNotations.
Local Open Scope nat_scope.

(** An assignment satisfies a literal, a clause. *)
Definition sat_lit (a : list bool) (l : lit) : Prop := nth (fst l) a false = snd l.
Definition sat_clause (a : list bool) (c : list lit) : Prop := exists l, In l c /\ sat_lit a l.
Definition satisfiable (n : nat) (cs : list (list lit)) : Prop := exists a, length a = n /\ forall c, In c cs -> sat_clause a c.
Definition in_range (n : nat) (cs : list (list lit)) : Prop := forall c l, In c cs -> In l c -> fst l < n.
(** Two clauses share a variable. *)
Definition share (c c' : list lit) : Prop := exists l l', In l c /\ In l' c' /\ fst l = fst l'.

Lemma violated_spec a c : violated a c = true <-> ~ sat_clause a c.
Proof.
  unfold violated, sat_clause, sat_lit. rewrite forallb_forall. split.
  - intros H (l & Hl & E). specialize (H l Hl). unfold var, is_positive in H. rewrite E, eqb_reflx in H. discriminate.
  - intros H l Hl. destruct (eqb (nth (var l) a false) (is_positive l)) eqn:E; [|reflexivity]. exfalso. apply H. exists l. split; [exact Hl|]. now apply eqb_prop.
Qed.

(** * The degree. *)
Lemma combine_seq_in {A} (l : list A) : forall s i x, In (i, x) (combine (seq s (length l)) l) <-> s <= i /\ nth_error l (i - s) = Some x.
Proof.
  induction l as [|y l IH]; intros s i x; cbn [length seq combine In].
  - split; [easy|]. intros [_ H]. destruct (i - s); discriminate.
  - rewrite IH. split.
    + intros [[= <- <-]|[H1 H2]]; [rewrite Nat.sub_diag; now split|]. split; [lia|]. replace (i - s) with (S (i - S s)) by lia. exact H2.
    + intros [H1 H2]. destruct (Nat.eq_dec i s) as [->|]; [rewrite Nat.sub_diag in H2; injection H2 as ->; now left|right]. split; [lia|].
      replace (i - s) with (S (i - S s)) in H2 by lia. exact H2.
Qed.
Lemma occ_spec cs v j : In j (occ cs v) <-> exists c l, nth_error cs j = Some c /\ In l c /\ fst l = v.
Proof.
  unfold occ. rewrite in_flat_map. split.
  - intros ([i c] & Hi & Hj). apply combine_seq_in in Hi as [_ Hi]. rewrite Nat.sub_0_r in Hi. apply in_flat_map in Hj as (l & Hl & Hj). cbn [fst snd] in *.
    unfold var in Hj. destruct (Nat.eqb_spec (fst l) v) as [E|]; [|destruct Hj]. destruct Hj as [<-|[]]. now exists c, l.
  - intros (c & l & Hc & Hl & E). exists (j, c). split; [apply combine_seq_in; rewrite Nat.sub_0_r; split; [lia|exact Hc]|]. apply in_flat_map. exists l. split; [exact Hl|].
    unfold var. rewrite E, Nat.eqb_refl. now left.
Qed.
Lemma neighbours_spec cs i c j : In j (neighbours cs i c) <-> j <> i /\ exists c', nth_error cs j = Some c' /\ share c c'.
Proof.
  unfold neighbours. rewrite nodup_In, in_flat_map. split.
  - intros (l & Hl & Hj). apply filter_In in Hj as [Hj Hn]. apply negb_true_iff, Nat.eqb_neq in Hn. apply occ_spec in Hj as (c' & l' & Hc & Hl' & E). split; [exact Hn|].
    exists c'. split; [exact Hc|]. exists l, l'. now split; [|split].
  - intros (Hn & c' & Hc & l & l' & Hl & Hl' & E). exists l. split; [exact Hl|]. apply filter_In. split; [|now apply negb_true_iff, Nat.eqb_neq]. apply occ_spec. now exists c', l'.
Qed.
Lemma fold_max_spec {A} (f : A -> nat) : forall l d, let r := fold_left (fun d x => Nat.max d (f x)) l d in
  d <= r /\ (forall x, In x l -> f x <= r) /\ (r = d \/ exists x, In x l /\ r = f x).
Proof.
  induction l as [|y l IH]; intros d; cbn [fold_left]; [cbv zeta; repeat split; [lia|easy|now left]|].
  destruct (IH (Nat.max d (f y))) as (H1 & H2 & H3). cbv zeta in *. set (r := fold_left _ _ _) in *. split; [lia|]. split.
  - intros x [<-|Hx]; [lia|now apply H2].
  - destruct H3 as [H3|(x & Hx & H3)]; [|right; exists x; split; [now right|exact H3]].
    destruct (Nat.max_spec d (f y)) as [[_ E]|[_ E]]; rewrite E in H3; [right; exists y; split; [now left|exact H3]|now left].
Qed.
(** The degree is the largest number of other clauses (by position) that share a variable with a clause. *)
Theorem C121_degree cs :
  (forall i c, nth_error cs i = Some c -> exists js, NoDup js /\ (forall j, In j js <-> j <> i /\ exists c', nth_error cs j = Some c' /\ share c c') /\
     length js <= lll_dependency_degree cs) /\
  (cs <> [] -> exists i c js, nth_error cs i = Some c /\ NoDup js /\ (forall j, In j js <-> j <> i /\ exists c', nth_error cs j = Some c' /\ share c c') /\
     length js = lll_dependency_degree cs).
Proof.
  unfold lll_dependency_degree. destruct (fold_max_spec (fun ic => length (neighbours cs (fst ic) (snd ic))) (combine (seq 0 (length cs)) cs) 0) as (_ & H2 & H3).
  cbv zeta in *. set (r := fold_left _ _ _) in *. split.
  - intros i c Hc. exists (neighbours cs i c). split; [apply NoDup_nodup|]. split; [intros j; apply neighbours_spec|]. apply (H2 (i, c)). apply combine_seq_in. rewrite Nat.sub_0_r. split; [lia|exact Hc].
  - intros Hn. destruct H3 as [H3|([i c] & Hi & H3)].
    + destruct cs as [|c cs']; [congruence|]. set (cs := c :: cs') in *. exists 0, c, (neighbours cs 0 c). split; [reflexivity|]. split; [apply NoDup_nodup|]. split; [intros j; apply neighbours_spec|].
      assert (L : length (neighbours cs 0 c) <= r) by (apply (H2 (0, c)); now left). lia.
    + apply combine_seq_in in Hi as [_ Hi]. rewrite Nat.sub_0_r in Hi. exists i, c, (neighbours cs i c). split; [exact Hi|]. split; [apply NoDup_nodup|]. split; [intros j; apply neighbours_spec|]. now symmetry.
Qed.

(** * Counting assignments. *)
Fixpoint all (n : nat) : list (list bool) := match n with O => [[]] | S n => map (cons true) (all n) ++ map (cons false) (all n) end.
Lemma all_in n : forall a, In a (all n) <-> length a = n.
Proof.
  induction n as [|n IH]; intros a; cbn [all].
  - split; [intros [<-|[]]; reflexivity|]. destruct a; [now left|discriminate].
  - rewrite in_app_iff, !in_map_iff. split.
    + intros [(b & <- & Hb)|(b & <- & Hb)]; cbn; f_equal; now apply IH.
    + destruct a as [|[] a]; [discriminate| |]; intros [= H]; [left|right]; exists a; (split; [reflexivity|now apply IH]).
Qed.
Lemma all_nodup n : NoDup (all n).
Proof.
  induction n as [|n IH]; cbn [all]; [constructor; [easy|constructor]|].
  assert (I : forall b : bool, NoDup (map (cons b) (all n))) by (intros b; apply FinFun.Injective_map_NoDup; [intros x y [= E]; exact E|exact IH]).
  revert I. generalize (all n). intros l I.
  assert (D : forall x, In x (map (cons true) l) -> ~ In x (map (cons false) l)) by (intros x H1 H2; apply in_map_iff in H1 as (y & <- & _), H2 as (z & E & _); discriminate).
  pose proof (I true) as I1. pose proof (I false) as I2. revert D I1. generalize (map (cons true) l). induction l0 as [|x l0 IHl]; intros D I1; [exact I2|].
  inversion I1; subst. cbn [app]. constructor; [rewrite in_app_iff; intros [H|H]; [contradiction|apply (D x); [now left|exact H]]|]. apply IHl; [|assumption]. intros y Hy. apply D. now right.
Qed.
Section counting.
Variable n : nat.
Definition count (P : list bool -> bool) : nat := length (filter P (all n)).
Lemma count_le P Q : (forall a, length a = n -> P a = true -> Q a = true) -> count P <= count Q.
Proof.
  intros H. apply NoDup_incl_length; [apply NoDup_filter, all_nodup|]. intros a Ha. apply filter_In in Ha as [Ha HP]. apply filter_In. split; [exact Ha|]. apply H; [now apply all_in|exact HP].
Qed.
Lemma count_eq P Q : (forall a, length a = n -> P a = Q a) -> count P = count Q.
Proof. intros H. apply Nat.le_antisymm; apply count_le; intros a L E; [rewrite <- H|rewrite H]; assumption. Qed.
Lemma count_split P Q : count (fun a => P a && Q a) + count (fun a => P a && negb (Q a)) = count P.
Proof.
  unfold count. induction (all n) as [|a l IH]; [reflexivity|]. cbn [filter]. destruct (P a), (Q a); cbn [andb negb length]; lia.
Qed.
Definition flip (v : nat) (a : list bool) : list bool := set_nth a v (negb (nth v a false)).
Lemma set_nth_length : forall a v b, length (set_nth a v b) = length a.
Proof. induction a as [|x a IH]; intros [|v] b; cbn; auto. Qed.
Lemma set_nth_nth : forall a v b w, v < length a -> nth w (set_nth a v b) false = if w =? v then b else nth w a false.
Proof.
  induction a as [|x a IH]; intros [|v] b [|w] L; cbn in *; try lia; try reflexivity. apply IH. lia.
Qed.
Lemma set_nth_twice : forall a v b c, set_nth (set_nth a v b) v c = set_nth a v c.
Proof. induction a as [|x a IH]; intros [|v] b c; cbn; [reflexivity..|]. f_equal. apply IH. Qed.
Lemma set_nth_same : forall a v, set_nth a v (nth v a false) = a.
Proof. induction a as [|x a IH]; intros [|v]; cbn; [reflexivity..|]. f_equal. apply IH. Qed.
Lemma flip_flip v a : v < length a -> flip v (flip v a) = a.
Proof. intros L. unfold flip. rewrite set_nth_nth, Nat.eqb_refl by exact L. rewrite negb_involutive, set_nth_twice. apply set_nth_same. Qed.
Definition ignores (v : nat) (P : list bool -> bool) : Prop := forall a, length a = n -> P (flip v a) = P a.
Lemma half P v b : v < n -> ignores v P -> 2 * count (fun a => P a && eqb (nth v a false) b) <= count P.
Proof.
  intros Hv HI. rewrite <- (count_split P (fun a => eqb (nth v a false) b)) at 1.
  assert (L : count (fun a => P a && eqb (nth v a false) b) <= count (fun a => P a && negb (eqb (nth v a false) b))).
  { unfold count at 1. rewrite <- (map_length (flip v)). apply NoDup_incl_length.
    - assert (N : NoDup (filter (fun a => P a && eqb (nth v a false) b) (all n))) by apply NoDup_filter, all_nodup.
      assert (R : forall a, In a (filter (fun a => P a && eqb (nth v a false) b) (all n)) -> length a = n) by (intros a Ha; apply filter_In in Ha as [Ha _]; now apply all_in).
      revert N R. generalize (filter (fun a => P a && eqb (nth v a false) b) (all n)). induction l as [|a l IH]; intros N R; cbn [map]; [constructor|]. inversion N; subst. constructor.
      + intros Hin. apply in_map_iff in Hin as (a' & E & Ha'). apply (f_equal (flip v)) in E. rewrite !flip_flip in E by (rewrite R; [exact Hv|auto using in_cons, in_eq]). subst. contradiction.
      + apply IH; [assumption|]. intros x Hx. apply R. now right.
    - intros a' Ha. apply in_map_iff in Ha as (a & <- & Ha). apply filter_In in Ha as [Ha HP]. apply all_in in Ha. apply andb_true_iff in HP as [H1 H2]. apply filter_In. split.
      + apply all_in. unfold flip. now rewrite set_nth_length.
      + rewrite HI by exact Ha. rewrite H1. cbn [andb]. unfold flip. rewrite set_nth_nth, Nat.eqb_refl by lia. apply eqb_prop in H2. rewrite H2. destruct b; reflexivity. }
  lia.
Qed.
Lemma violated_ignores v c : v < n -> ~ In v (map fst c) -> ignores v (fun a => violated a c).
Proof.
  intros Hv Hn a La. unfold violated. induction c as [|l c IH]; [reflexivity|]. cbn [forallb map In] in *. rewrite IH by tauto. f_equal. f_equal. f_equal. unfold flip, var.
  rewrite set_nth_nth by lia. destruct (Nat.eqb_spec (fst l) v); [tauto|reflexivity].
Qed.
Lemma clause_count c : forall P, NoDup (map fst c) -> (forall l, In l c -> fst l < n) -> (forall l, In l c -> ignores (fst l) P) ->
  2 ^ length c * count (fun a => P a && violated a c) <= count P.
Proof.
  induction c as [|l c IH]; intros P Hd Hr HP.
  - cbn [length Nat.pow]. rewrite Nat.mul_1_l. apply count_le. intros a _ H. now apply andb_true_iff in H.
  - cbn [map] in Hd. inversion Hd as [|? ? Hn Hd']; subst. cbn [length Nat.pow].
    assert (Hh : 2 * count (fun a => P a && violated a (l :: c)) <= count (fun a => P a && violated a c)).
    { etransitivity; [|apply (half (fun a => P a && violated a c) (fst l) (negb (snd l)))].
      - apply Nat.mul_le_mono_l. apply count_le. intros a _ H. unfold violated in *. cbn [forallb] in H. apply andb_true_iff in H as [H1 H]. apply andb_true_iff in H as [H2 H3]. rewrite H1, H3. cbn [andb].
        unfold var, is_positive in H2. destruct (nth (fst l) a false), (snd l); cbn in *; congruence.
      - apply Hr. now left.
      - intros a La. rewrite (HP l (or_introl eq_refl) a La). f_equal. apply violated_ignores; [apply Hr; now left|exact Hn|exact La]. }
    specialize (IH P Hd' (fun l' H => Hr l' (or_intror H)) (fun l' H => HP l' (or_intror H))). nia.
Qed.

(** * The local lemma. *)
Variable cs : list (list lit).
Hypothesis Hrange : in_range n cs.
Variables w d : nat.
Hypothesis Hwidth : forall c, In c cs -> NoDup (map fst c) /\ w <= length c.
Hypothesis Hdegree : lll_dependency_degree cs <= d.
Hypothesis Hd1 : 1 <= d.
Hypothesis Hcond : (d + 1) ^ (d + 1) <= 2 ^ w * d ^ d.
Definition clause (i : nat) : list lit := nth i cs [].
Definition good (s : list nat) (a : list bool) : bool := forallb (fun i => negb (violated a (clause i))) s.
Definition shareb (c c' : list lit) : bool := existsb (fun l => existsb (fun l' => fst l =? fst l') c') c.
Lemma shareb_spec c c' : shareb c c' = true <-> share c c'.
Proof.
  unfold shareb, share. rewrite existsb_exists. split.
  - intros (l & Hl & H). apply existsb_exists in H as (l' & Hl' & E). apply Nat.eqb_eq in E. now exists l, l'.
  - intros (l & l' & Hl & Hl' & E). exists l. split; [exact Hl|]. apply existsb_exists. exists l'. split; [exact Hl'|now apply Nat.eqb_eq].
Qed.
Lemma good_ignores s v : v < n -> (forall j, In j s -> ~ In v (map fst (clause j))) -> ignores v (good s).
Proof.
  intros Hv H a La. unfold good. induction s as [|j s IH]; [reflexivity|]. cbn [forallb]. rewrite IH by (intros; apply H; now right). f_equal. f_equal.
  apply violated_ignores; [exact Hv|apply H; now left|exact La].
Qed.
Lemma local_step : forall k s, length s <= k -> NoDup s -> (forall j, In j s -> j < length cs) -> forall i, i < length cs -> ~ In i s ->
  (d + 1) * count (fun a => good s a && violated a (clause i)) <= count (good s).
Proof.
  induction k as [|k IH].
  all: intros s Hk Hs Hj i Hi Hni.
  all: assert (Ic : In (clause i) cs) by (apply nth_In; exact Hi).
  all: assert (Ec : nth_error cs i = Some (clause i)) by (apply nth_error_nth'; exact Hi).
  all: set (s1 := filter (fun j => shareb (clause i) (clause j)) s); set (s2 := filter (fun j => negb (shareb (clause i) (clause j))) s).
  all: assert (Hp : forall j, In j s <-> In j (s1 ++ s2)) by (intros j; unfold s1, s2; rewrite in_app_iff, !filter_In; destruct (shareb (clause i) (clause j)); cbn; tauto).
  all: assert (Hg : forall a, good s a = good (s1 ++ s2) a) by (intros a; apply eq_true_iff_eq; unfold good; rewrite !forallb_forall; split; intros H j J; apply H; apply Hp; exact J).
  all: assert (Hnd : NoDup (s1 ++ s2)).
  1,3: apply (Permutation_NoDup (l := s)); [|exact Hs]; unfold s1, s2; clear; induction s as [|j s IHs]; [constructor|]; cbn [filter]; destruct (shareb (clause i) (clause j)); cbn [negb app];
       [now constructor|now apply Permutation_cons_app].
  all: assert (Hl1 : length s1 <= d).
  1,3: destruct (C121_degree cs) as [Hdeg _]; destruct (Hdeg i (clause i) Ec) as (js & Nj & Sj & Lj); etransitivity; [|exact Hdegree]; etransitivity; [|exact Lj];
       apply NoDup_incl_length; [now apply NoDup_filter|]; intros j J; apply filter_In in J as [J1 J2]; apply Sj; split; [intros ->; contradiction|]; exists (clause j);
       split; [apply nth_error_nth'; now apply Hj|now apply shareb_spec].
  all: assert (Hlen : length s1 + length s2 = length s).
  1,3: unfold s1, s2; clear; induction s as [|j s IHs]; [reflexivity|]; cbn [filter]; destruct (shareb (clause i) (clause j)); cbn [negb length]; lia.
  all: assert (Hind : 2 ^ w * count (fun a => good s2 a && violated a (clause i)) <= count (good s2)).
  1,3: destruct (Hwidth (clause i) Ic) as [Wd Wl]; etransitivity; [|apply (clause_count (clause i)); [exact Wd|intros l Hl; now apply (Hrange (clause i))|]];
       [apply Nat.mul_le_mono_r; apply Nat.pow_le_mono_r; [discriminate|exact Wl]|];
       intros l Hl; apply good_ignores; [now apply (Hrange (clause i))|]; intros j J K; apply filter_In in J as [_ J]; apply negb_true_iff in J;
       apply in_map_iff in K as (l' & E & K); assert (T : shareb (clause i) (clause j) = true) by (apply shareb_spec; exists l, l'; auto); congruence.
  all: assert (Hchain : d ^ length s1 * count (good s2) <= (d + 1) ^ length s1 * count (good (s1 ++ s2))).
  1: { destruct s1; [cbn; lia|]. cbn in Hlen. lia. }
  2: { assert (Lt : length (s1 ++ s2) <= S k) by (rewrite app_length; lia). assert (Hj' : forall j, In j (s1 ++ s2) -> j < length cs) by (intros j J; apply Hj, Hp, J).
       revert Lt Hj' Hnd. clear - IH Hd1. induction s1 as [|j t IHt]; intros Lt Hj' Hnd; [cbn; lia|]. cbn [app length] in *. inversion Hnd as [|? ? N1 N2]; subst.
       specialize (IHt ltac:(lia) (fun x H => Hj' x (or_intror H)) N2).
       pose proof (IH (t ++ s2) ltac:(lia) N2 (fun x H => Hj' x (or_intror H)) j (Hj' j (or_introl eq_refl)) N1) as V.
       pose proof (count_split (good (t ++ s2)) (fun a => violated a (clause j))) as Sp.
       assert (E : count (good (j :: t ++ s2)) = count (fun a => good (t ++ s2) a && negb (violated a (clause j)))) by (apply count_eq; intros a _; unfold good; cbn [forallb]; apply andb_comm).
       rewrite E. set (x := count (fun a => _ && violated _ _)) in *. set (y := count (fun a => _ && negb _)) in *. set (z := count (good (t ++ s2))) in *. cbn [Nat.pow].
       assert (Q : d * z <= (d + 1) * y) by nia. set (p := d ^ length t) in *. set (q := (d + 1) ^ length t) in *. set (c2 := count (good s2)) in *. clearbody x y z p q c2.
       assert (d * (p * c2) <= d * (q * z)) by (apply Nat.mul_le_mono_l; exact IHt). assert (q * (d * z) <= q * ((d + 1) * y)) by (apply Nat.mul_le_mono_l; exact Q). nia. }
  all: assert (Hpad : d ^ d * count (good s2) <= (d + 1) ^ d * count (good (s1 ++ s2))).
  1,3: replace d with (length s1 + (d - length s1)) at 2 by lia; replace (d + 1) with (d + 1) by lia; rewrite Nat.pow_add_r;
       assert (Pw : (d + 1) ^ d = (d + 1) ^ length s1 * (d + 1) ^ (d - length s1)) by (rewrite <- Nat.pow_add_r; f_equal; lia); rewrite Pw;
       assert (Pm : d ^ (d - length s1) <= (d + 1) ^ (d - length s1)) by (apply Nat.pow_le_mono_l; lia);
       set (p := d ^ length s1) in *; set (q := (d + 1) ^ length s1) in *; set (p' := d ^ (d - length s1)) in *; set (q' := (d + 1) ^ (d - length s1)) in *;
       set (u := count (good s2)) in *; set (v := count (good (s1 ++ s2))) in *; clearbody p q p' q' u v;
       assert (p' * (p * u) <= p' * (q * v)) by (apply Nat.mul_le_mono_l; exact Hchain); assert (p' * (q * v) <= q' * (q * v)) by (apply Nat.mul_le_mono_r; exact Pm); lia.
  all: assert (Hv : count (fun a => good s a && violated a (clause i)) <= count (fun a => good s2 a && violated a (clause i))).
  1,3: apply count_le; intros a _ H; apply andb_true_iff in H as [H1 H2]; rewrite H2, andb_true_r; rewrite Hg in H1; unfold good in *; rewrite forallb_app in H1; now apply andb_true_iff in H1.
  all: rewrite (count_eq (good s) (good (s1 ++ s2))) by (intros a _; apply Hg).
  all: set (x := count (fun a => good s a && _)) in *; set (y := count (fun a => good s2 a && _)) in *; set (u := count (good s2)) in *; set (v := count (good (s1 ++ s2))) in *.
  all: rewrite Nat.pow_add_r, Nat.pow_1_r in Hcond; assert (Pos : 0 < (d + 1) ^ d) by (apply Nat.neq_0_lt_0, Nat.pow_nonzero; lia).
  all: set (D := (d + 1) ^ d) in *; set (p := d ^ d) in *; set (W := 2 ^ w) in *; clearbody x y u v D p W.
  all: apply (Nat.mul_le_mono_pos_l _ _ D Pos).
  all: assert (A1 : D * (d + 1) * x <= W * p * x) by (apply Nat.mul_le_mono_r; exact Hcond).
  all: assert (A2 : p * (W * x) <= p * (W * y)) by (apply Nat.mul_le_mono_l, Nat.mul_le_mono_l; exact Hv).
  all: assert (A3 : p * (W * y) <= p * u) by (apply Nat.mul_le_mono_l; exact Hind).
  all: lia.
Qed.
Lemma local_all : forall s, NoDup s -> (forall j, In j s -> j < length cs) -> 0 < count (good s).
Proof.
  induction s as [|j s IH]; intros Hs Hj.
  - unfold count, good. cbn [forallb]. destruct (filter (fun _ => true) (all n)) as [|a l] eqn:E; [|cbn; lia]. exfalso.
    assert (In (repeat false n) (filter (fun _ => true) (all n))) by (apply filter_In; split; [apply all_in, repeat_length|reflexivity]). rewrite E in H. destruct H.
  - inversion Hs; subst. specialize (IH H2 (fun x H => Hj x (or_intror H))). pose proof (local_step (length s) s (le_n _) H2 (fun x H => Hj x (or_intror H)) j (Hj j (or_introl eq_refl)) H1) as V.
    pose proof (count_split (good s) (fun a => violated a (clause j))) as Sp. cbv beta in Sp.
    assert (E : count (good (j :: s)) = count (fun a => good s a && negb (violated a (clause j)))) by (apply count_eq; intros a _; unfold good; cbn [forallb]; apply andb_comm).
    rewrite E. set (x := count (fun a => _ && violated _ _)) in *. set (y := count (fun a => _ && negb _)) in *. set (z := count (good s)) in *. clearbody x y z. assert (Q : 2 * x <= (d + 1) * x) by (apply Nat.mul_le_mono_r; clear - Hd1; lia). clear - V Sp IH Q. lia.
Qed.
Lemma local_satisfiable : satisfiable n cs.
Proof.
  pose proof (local_all (seq 0 (length cs)) (seq_NoDup _ _) ltac:(intros j H; apply in_seq in H; lia)) as H.
  unfold count in H. destruct (filter _ (all n)) as [|a l] eqn:E; [cbn in H; lia|]. assert (Ha : In a (filter (good (seq 0 (length cs))) (all n))) by (rewrite E; now left).
  apply filter_In in Ha as [Ha Hg]. exists a. split; [now apply all_in|]. intros c Hc. apply In_nth with (d := []) in Hc as (i & Hi & <-).
  unfold good in Hg. rewrite forallb_forall in Hg. specialize (Hg i ltac:(apply in_seq; lia)). apply negb_true_iff in Hg. fold (clause i).
  destruct (violated a (clause i)) eqn:Ev; [discriminate|]. assert (Hx : ~ ~ sat_clause a (clause i)) by (intros Hn; apply violated_spec in Hn; congruence).
  unfold sat_clause, sat_lit in *. destruct (existsb (fun l => eqb (nth (fst l) a false) (snd l)) (clause i)) eqn:Ex.
  - apply existsb_exists in Ex as (l' & Hl & El). exists l'. split; [exact Hl|now apply eqb_prop].
  - exfalso. apply Hx. intros (l' & Hl & El). assert (existsb (fun l => eqb (nth (fst l) a false) (snd l)) (clause i) = true); [|congruence].
    apply existsb_exists. exists l'. split; [exact Hl|]. rewrite El. apply eqb_reflx.
Qed.
End counting.

Lemma fold_min_spec : forall cs w, let r := fold_left (fun w (c : list lit) => Nat.min w (length c)) cs w in r <= w /\ forall c, In c cs -> r <= length c.
Proof.
  induction cs as [|c cs IH]; intros w; cbn [fold_left]; [cbv zeta; split; [lia|easy]|]. destruct (IH (Nat.min w (length c))) as [H1 H2]. cbv zeta in *. split; [lia|].
  intros c' [<-|H]; [lia|now apply H2].
Qed.
Lemma certified fits cs k : lll_certifies_sat fits cs = Some k ->
  cs = [] \/ exists w, min_width k = Some w /\ 1 <= w /\ (forall c, In c cs -> w <= length c) /\ max_degree k = lll_dependency_degree cs /\ fits w (lll_dependency_degree cs) = true.
Proof.
  unfold lll_certifies_sat. destruct cs as [|c cs]; [now left|]. right. revert H. cbv zeta. destruct (fold_min_spec cs (length c)) as [M1 M2]. cbv zeta in *. set (w := fold_left _ cs (length c)) in *.
  destruct (Nat.eqb_spec w 0); [discriminate|]. destruct (fits w (lll_dependency_degree (c :: cs))) eqn:E; [|discriminate]. intros [= <-]. exists w. cbn [min_width max_degree].
  split; [reflexivity|]. split; [lia|]. split; [intros c' [<-|H]; [exact M1|now apply M2]|]. split; [reflexivity|exact E].
Qed.
(** A certificate whose numbers meet [(d+1)^(d+1) <= 2^w * d^d], or [d = 0] and [w >= 2], is sound for clauses without
    repeated variables. *)
Theorem C121_sound fits n cs k : (forall w d, 1 <= w -> fits w d = true -> (1 <= d /\ (d + 1) ^ (d + 1) <= 2 ^ w * d ^ d) \/ (d = 0 /\ 2 <= w)) ->
  in_range n cs -> (forall c, In c cs -> NoDup (map fst c)) -> lll_certifies_sat fits cs = Some k -> satisfiable n cs.
Proof.
  intros Hf Hr Hnd E. apply certified in E as [->|(w & _ & W1 & W2 & _ & E)].
  - exists (repeat false n). split; [apply repeat_length|easy].
  - assert (Hw : forall c, In c cs -> NoDup (map fst c) /\ w <= length c) by (intros c Hc; split; [now apply Hnd|now apply W2]).
    destruct (Hf w _ W1 E) as [[Hd Hc]|[Hd Hc]].
    + apply (local_satisfiable n cs Hr w (lll_dependency_degree cs) Hw (le_n _) Hd Hc).
    + apply (local_satisfiable n cs Hr w 1 Hw); [lia|lia|]. change ((1 + 1) ^ (1 + 1)) with 4. change (1 ^ 1) with 1. rewrite Nat.mul_1_r. change 4 with (2 ^ 2). now apply Nat.pow_le_mono_r.
Qed.
Lemma exp_pow_aux (d : nat) x : (exp x ^ d = exp (INR d * x))%R.
Proof. induction d as [|d IH]; [cbn; now rewrite Rmult_0_l, exp_0|]. cbn [pow]. rewrite IH, <- exp_plus, S_INR. f_equal. ring. Qed.
Lemma exp_power (d : nat) : 1 <= d -> (INR (d + 1) ^ d <= exp 1 * INR d ^ d)%R.
Proof.
  intros Hd. assert (P : (0 < INR d)%R) by (apply lt_0_INR; lia).
  assert (E : INR (d + 1) = (INR d * (1 + / INR d))%R) by (rewrite plus_INR; cbn [INR]; field; apply Rgt_not_eq; exact P).
  rewrite E, Rpow_mult_distr, Rmult_comm. apply Rmult_le_compat_r; [apply pow_le; lra|].
  assert (I : (0 < / INR d)%R) by (apply Rinv_0_lt_compat; exact P). replace 1%R with (INR d * / INR d)%R at 2 by (field; apply Rgt_not_eq; exact P).
  rewrite <- exp_pow_aux. apply pow_incr. split; [lra|]. pose proof (exp_ineq1 (/ INR d)). lra.
Qed.
(** In particular if the test implies the real inequality [e * (d + 1) <= 2^w] of the documentation. *)
Theorem C121_sound_real fits n cs k : (forall w d, fits w d = true -> (exp 1 * INR (d + 1) <= 2 ^ w)%R) ->
  in_range n cs -> (forall c, In c cs -> NoDup (map fst c)) -> lll_certifies_sat fits cs = Some k -> satisfiable n cs.
Proof.
  intros Hf. apply C121_sound. intros w d Hw E. specialize (Hf w d E). destruct (Nat.eq_dec d 0) as [->|Hd].
  - right. split; [reflexivity|]. destruct (Nat.eq_dec w 1) as [->|]; [exfalso|lia]. cbn [Nat.add INR pow] in Hf. pose proof (exp_ineq1 1). lra.
  - left. split; [lia|]. apply INR_le. rewrite mult_INR, !pow_INR. change (INR 2) with (1 + 1)%R. replace (1 + 1)%R with 2%R by lra.
    rewrite Rdef_pow_add, pow_1. pose proof (exp_power d ltac:(lia)) as P. assert (Q : (0 <= INR (d + 1))%R) by apply pos_INR. assert (Q' : (0 <= INR d ^ d)%R) by (apply pow_le, pos_INR).
    apply Rle_trans with (exp 1 * INR d ^ d * INR (d + 1))%R; [apply Rmult_le_compat_r; assumption|].
    replace (exp 1 * INR d ^ d * INR (d + 1))%R with ((exp 1 * INR (d + 1)) * INR d ^ d)%R by ring. apply Rmult_le_compat_r; assumption.
Qed.
(** With repeated literals the certificate is wrong: [x or x or x] and [not x or not x or not x] have width 3 and degree 1, and
    [e * 2 <= 8], but no assignment satisfies both. *)
Theorem C121_repeated_refuted : exists cs k, (forall fits : nat -> nat -> bool, fits 3 1 = true -> lll_certifies_sat fits cs = Some k) /\
  (exp 1 * INR (1 + 1) <= 2 ^ 3)%R /\ in_range 1 cs /\ forall n, ~ satisfiable n cs.
Proof.
  exists [[(0, true); (0, true); (0, true)]; [(0, false); (0, false); (0, false)]], (Cert (Some 3) 1). split; [|split; [|split]].
  - intros fits E. unfold lll_certifies_sat. cbv zeta. change (fold_left _ _ _) with 3. cbn [Nat.eqb]. change (lll_dependency_degree _) with 1. now rewrite E.
  - cbn [Nat.add INR pow]. pose proof exp_le_3. lra.
  - intros c l [<-|[<-|[]]] H; cbn [In] in H; repeat destruct H as [<-|H]; try destruct H; cbn; lia.
  - intros n (a & _ & H). destruct (H [(0, true); (0, true); (0, true)]) as (l & Hl & E); [now left|]. destruct (H [(0, false); (0, false); (0, false)]) as (l' & Hl' & E'); [right; now left|].
    unfold sat_lit in *. cbn [In] in *. repeat destruct Hl as [<-|Hl]; try destruct Hl; repeat destruct Hl' as [<-|Hl']; try destruct Hl'; cbn [fst snd] in *; congruence.
Qed.
(** No set with an empty clause is certified. *)
Theorem C121_empty_clause fits cs : In [] cs -> lll_certifies_sat fits cs = None.
Proof.
  intros H. destruct (lll_certifies_sat fits cs) as [k|] eqn:E; [|reflexivity]. apply certified in E as [->|(w & _ & W1 & W2 & _)]; [destruct H|]. apply W2 in H. cbn in H. lia.
Qed.

(** * Resampling. *)
Lemma sat_not_violated a c : violated a c = false -> sat_clause a c.
Proof.
  unfold violated, sat_clause, sat_lit. induction c as [|l c IH]; [discriminate|]. cbn [forallb]. intros H. apply andb_false_iff in H as [H|H].
  - exists l. split; [now left|]. apply negb_false_iff in H. now apply eqb_prop.
  - destruct (IH H) as (l' & Hl & E). exists l'. split; [now right|exact E].
Qed.
(** A returned assignment has one value per variable and satisfies every clause, for any random bits; and if the clauses are
    not satisfiable nothing is returned. *)
Theorem C121_witness n cs next rounds :
  (forall a, moser_tardos_witness n cs next rounds = Some a -> length a = n /\ forall c, In c cs -> sat_clause a c) /\
  (~ satisfiable n cs -> moser_tardos_witness n cs next rounds = None).
Proof.
  assert (G : forall a, moser_tardos_witness n cs next rounds = Some a -> length a = n /\ forall c, In c cs -> sat_clause a c).
  { intros r. unfold moser_tardos_witness.
    cut (forall a k, length a = n -> resample_loop rounds next k cs a = Some r -> length r = n /\ forall c, In c cs -> sat_clause r c); [intros C; apply C; rewrite map_length; apply seq_length|].
    induction rounds as [|m IH]; intros a k L; cbn [resample_loop].
    - destruct (forallb _ cs) eqn:E; [|discriminate]. intros [= <-]. split; [exact L|]. intros c Hc. rewrite forallb_forall in E. specialize (E c Hc). apply sat_not_violated. now apply negb_true_iff.
    - destruct (find (violated a) cs) as [c|] eqn:E.
      + assert (R : forall c k a, length (snd (resample next k c a)) = length a) by (clear; induction c as [|l c IHc]; intros k a; cbn [resample]; [reflexivity|]; rewrite IHc; apply set_nth_length).
        specialize (R c k a). destruct (resample next k c a) as [k' a']. cbn [snd] in R. apply IH. congruence.
      + intros [= <-]. split; [exact L|]. intros c Hc. apply sat_not_violated. now apply (find_none _ _ E). }
  split; [exact G|]. intros Hn. destruct (moser_tardos_witness n cs next rounds) as [a|] eqn:E; [|reflexivity]. exfalso. apply Hn. exists a. now apply G.
Qed.
(** Resampling a clause changes only its own variables. *)
Theorem C121_resample_local next k c a v : ~ In v (map fst c) -> nth v (snd (resample next k c a)) false = nth v a false.
Proof.
  revert k a. induction c as [|l c IH]; intros k a H; cbn [resample map In] in *; [reflexivity|]. rewrite IH by tauto. unfold var.
  destruct (Nat.lt_ge_cases (fst l) (length a)) as [L|L].
  - rewrite set_nth_nth by exact L. destruct (Nat.eqb_spec v (fst l)) as [->|]; [tauto|reflexivity].
  - f_equal. clear - L. revert L. generalize (fst l). induction a as [|x a IH]; intros [|m] L; cbn in *; try lia; try reflexivity. f_equal. apply IH. lia.
Qed.

Definition three : list (list lit) := [[(0, true); (1, true); (2, true)]; [(2, false); (3, true); (4, true)]; [(5, false); (6, false); (7, false)]].
Example C121_example :
  lll_dependency_degree three = 1 /\ lll_certifies_sat (fun w d => Nat.leb (3 * (d + 1)) (2 ^ w)) three = Some (Cert (Some 3) 1) /\
  in_range 8 three /\ Forall (fun c => NoDup (map fst c)) three /\
  moser_tardos_witness 8 three (fun k => Nat.even (k / 8)) 5 = Some [true; true; true; true; true; false; false; false].
Proof. split; [reflexivity|]. split; [vm_compute; reflexivity|]. split; [|split; [|vm_compute; reflexivity]].
  - intros c l [<-|[<-|[<-|[]]]] H; cbn [In] in H; repeat destruct H as [<-|H]; try destruct H; cbn; lia.
  - repeat constructor; cbn; intuition discriminate.
Qed.
