(** C123: the counting-principle refuter; C124: size bounds from rank annotations. *)
From Coq Require Import List Arith Bool Lia Permutation Sorted.
From Verif Require Import CountingModel.
Import ListNotations.

Definition holds (f : nat -> bool) (c : list lit) : Prop := exists l, In l c /\ f (fst l) = snd l.
Definition satisfiable (cs : list (list lit)) : Prop := exists f, forall c, In c cs -> holds f c.

(** ** The recognised shape, on the clauses themselves *)
Definition positive (c : list lit) : Prop := forall l, In l c -> snd l = true.
Definition exclusion (x y : nat) : list lit := [(x, false); (y, false)].
(** The coverage clauses: the all-positive ones, in order. *)
Definition covers (cs : list (list lit)) : list (list lit) := filter (forallb snd) cs.
(** In how many coverage clauses the block [v] occurs, with repetitions. *)
Definition incidence (cs : list (list lit)) (v : nat) : nat := count_occ Nat.eq_dec (map fst (concat (covers cs))) v.
Record counting_shape (cs : list (list lit)) (q : nat) : Prop := {
  s_clean : forall c, In c cs -> (positive c /\ c <> []) \/ exists x y, c = exclusion x y;
  s_nodup : forall c, In c cs -> positive c -> NoDup c;
  s_clique : forall c x y, In c cs -> positive c -> In (x, true) c -> In (y, true) c -> x <> y ->
    In (exclusion x y) cs \/ In (exclusion y x) cs;
  s_uniform : forall v, In v (map fst (concat (covers cs))) -> incidence cs v = q }.

Lemma key2_comm x y : key2 x y = key2 y x.
Proof. unfold key2. destruct (Nat.ltb_spec x y), (Nat.ltb_spec y x); try reflexivity; try lia. assert (x = y) by lia. subst. reflexivity. Qed.
Lemma key2_inj x y u v : key2 x y = key2 u v -> (x = u /\ y = v) \/ (x = v /\ y = u).
Proof. unfold key2. destruct (Nat.ltb_spec x y), (Nat.ltb_spec u v); intros [= -> ->]; auto. Qed.
Lemma has_pair_In d p : has_pair d p = true <-> In p d.
Proof.
  unfold has_pair. rewrite existsb_exists. split.
  - intros ([a b] & I & E). cbn in E. apply andb_true_iff in E as [A B]. apply Nat.eqb_eq in A. apply Nat.eqb_eq in B. subst. destruct p. exact I.
  - intros I. exists p. rewrite !Nat.eqb_refl. auto.
Qed.
Lemma positive_iff c : forallb snd c = true <-> positive c.
Proof. apply forallb_forall. Qed.

Lemma classify_spec cs : forall cov dis,
  match classify cs cov dis with
  | Some (cov', dis') => (forall c, In c cs -> (positive c /\ c <> []) \/ exists x y, c = exclusion x y) /\
      cov' = cov ++ map (map fst) (covers cs) /\
      (forall p, In p dis' <-> In p dis \/ exists x y, In (exclusion x y) cs /\ p = key2 x y)
  | None => ~ forall c, In c cs -> (positive c /\ c <> []) \/ exists x y, c = exclusion x y
  end.
Proof.
  induction cs as [|c cs IH]; intros cov dis; cbn [classify].
  - split; [intros c []|]. split; [cbn; rewrite app_nil_r; reflexivity|]. intros p. split; [auto|]. intros [H | (x & y & [] & _)]. exact H.
  - unfold covers. cbn [filter]. destruct (forallb snd c) eqn:P.
    + destruct c as [|l c].
      * intros H. destruct (H [] (or_introl eq_refl)) as [[_ N] | (x & y & E)]; [congruence|discriminate].
      * specialize (IH (cov ++ [map fst (l :: c)]) dis). destruct (classify cs _ dis) as [[cov' dis']|].
        -- destruct IH as (A & -> & B). split.
           { intros d [<- | I]; [|auto]. left. split; [apply positive_iff, P|discriminate]. }
           split; [rewrite <- app_assoc; reflexivity|]. intros p. rewrite B. split; (intros [H | (x & y & I & E)]; [left; exact H|]).
           ++ right. exists x, y. split; [right; exact I|exact E].
           ++ destruct I as [E' | I]; [|right; eauto]. unfold exclusion in E'. rewrite E' in P. discriminate.
        -- intros H. apply IH. intros d I. apply H. right. exact I.
    + assert (Np : ~ positive c) by (rewrite <- positive_iff; congruence).
      assert (K : (exists x y, c = exclusion x y) \/ ~ (exists x y, c = exclusion x y)).
      { destruct c as [|[x [|]] [|[y [|]] [|? ?]]]; first [left; exists x, y; reflexivity|right; intros (a & b & E); discriminate]. }
      destruct K as [(x & y & ->) | Nk].
      * unfold exclusion at 1. specialize (IH cov (key2 x y :: dis)). destruct (classify cs cov _) as [[cov' dis']|].
        -- destruct IH as (A & -> & B). split; [|split; [reflexivity|]].
           { intros d [<- | I]; [right; exists x, y; reflexivity|auto]. }
           intros p. rewrite B. cbn [In]. split.
           ++ intros [[<- | H] | (a & b & I & E)]; [right; exists x, y; auto|auto|right; exists a, b; auto].
           ++ intros [H | (a & b & [E' | I] & E)]; [auto| |right; exists a, b; auto]. injection E' as <- <-. left. left. symmetry. exact E.
        -- intros H. apply IH. intros d I. apply H. right. exact I.
      * replace (match c with [(x, false); (y, false)] => classify cs cov (key2 x y :: dis) | _ => None end) with (@None (list (list nat) * list (nat * nat))).
        -- intros H. destruct (H c (or_introl eq_refl)) as [[Q _] | Q]; contradiction.
        -- destruct c as [|[x [|]] [|[y [|]] [|? ?]]]; try reflexivity. elim Nk. exists x, y. reflexivity.
Qed.

Lemma pairs_disjoint_spec d cov : NoDup cov -> (pairs_disjoint d cov = true <-> forall x y, In x cov -> In y cov -> x <> y -> In (key2 x y) d).
Proof.
  induction cov as [|x cov IH]; intros N; cbn [pairs_disjoint].
  - split; [intros _ ? ? []|reflexivity].
  - inversion N; subst. rewrite andb_true_iff, forallb_forall, IH by assumption. split.
    + intros [A B] u v [<- | Iu] [<- | Iv] Ne.
      * congruence.
      * apply has_pair_In, A, Iv.
      * rewrite key2_comm. apply has_pair_In, A, Iu.
      * auto.
    + intros A. split.
      * intros y I. apply has_pair_In. apply A; [left; reflexivity|right; exact I|]. intros ->. contradiction.
      * intros u v Iu Iv. apply A; right; assumption.
Qed.

Lemma map_concat {A B} (f : A -> B) ls : concat (map (map f) ls) = map f (concat ls).
Proof. induction ls as [|l ls IH]; cbn; [reflexivity|]. rewrite map_app, IH. reflexivity. Qed.

Lemma nodup_len_iff (l : list nat) : (length (nodup Nat.eq_dec l) =? length l) = true <-> NoDup l.
Proof.
  rewrite Nat.eqb_eq. split.
  - intros E. apply (NoDup_incl_NoDup (NoDup_nodup Nat.eq_dec l)); [lia|]. intros x I. apply nodup_In in I. exact I.
  - intros N. rewrite nodup_fixed_point; [reflexivity|exact N].
Qed.
Lemma positive_fst_nodup c : positive c -> (NoDup (map fst c) <-> NoDup c).
Proof.
  intros P. split; [apply NoDup_map_inv|]. induction c as [|[v s] c IH]; intros N; [constructor|]. inversion N; subst. cbn. constructor.
  - intros I. apply in_map_iff in I as ([u t] & E & I). cbn in E. subst u.
    assert (s = true) by (apply (P (v, s)); left; reflexivity). assert (t = true) by (apply (P (v, t)); right; exact I). subst. contradiction.
  - apply IH; [|assumption]. intros l I. apply P. right. exact I.
Qed.

(** The certificate is issued exactly on the shape with [q >= 2] not dividing the number of coverage clauses. *)
Theorem C123_issued num_vars cs n q r : counting_certificate num_vars cs = Some (Cert n q r) <->
  2 <= num_vars /\ 2 <= n /\ 2 <= q /\ n = length (covers cs) /\ counting_shape cs q /\ r = n mod q /\ r <> 0.
Proof.
  unfold counting_certificate. pose proof (classify_spec cs [] []) as CS.
  destruct (Nat.ltb_spec num_vars 2) as [L | L].
  { split; [discriminate|]. intros H. lia. }
  destruct (classify cs [] []) as [[cov dis]|].
  2:{ split; [discriminate|]. intros (_ & _ & _ & _ & S & _). elim CS. apply (s_clean _ _ S). }
  destruct CS as (Cl & -> & D). cbn [app]. set (cov := map (map fst) (covers cs)) in *.
  assert (Lc : length cov = length (covers cs)) by apply map_length. rewrite Lc.
  assert (In_cov : forall k, In k cov <-> exists c, In c cs /\ positive c /\ k = map fst c).
  { intros k. unfold cov, covers. rewrite in_map_iff. split.
    - intros (c & <- & I). apply filter_In in I as [I P]. exists c. split; [exact I|]. split; [apply positive_iff, P|reflexivity].
    - intros (c & I & P & ->). exists c. split; [reflexivity|]. apply filter_In. split; [exact I|]. apply positive_iff, P. }
  assert (Cc : concat cov = map fst (concat (covers cs))) by apply map_concat.
  assert (OK : forallb (cov_ok dis) cov = true <->
    (forall c, In c cs -> positive c -> NoDup c) /\
    (forall c x y, In c cs -> positive c -> In (x, true) c -> In (y, true) c -> x <> y -> In (exclusion x y) cs \/ In (exclusion y x) cs)).
  { rewrite forallb_forall. unfold cov_ok.
    assert (Im : forall c x, positive c -> (In x (map fst c) <-> In (x, true) c)).
    { intros c x P. rewrite in_map_iff. split; [|intros I; exists (x, true); auto]. intros ([u s] & <- & I). pose proof (P _ I) as E. cbn in E. subst. exact I. }
    assert (Dk : forall x y, In (key2 x y) dis <-> In (exclusion x y) cs \/ In (exclusion y x) cs).
    { intros x y. rewrite D. split.
      - intros [[] | (a & b & I & E)]. apply key2_inj in E as [[-> ->] | [-> ->]]; auto.
      - intros [I | I]; right; [exists x, y; auto|exists y, x; split; [exact I|apply key2_comm]]. }
    split.
    - intros A.
      assert (N : forall c, In c cs -> positive c -> NoDup (map fst c)).
      { intros c I P. assert (J : In (map fst c) cov) by (apply In_cov; eauto). specialize (A _ J). apply andb_true_iff in A as [A _]. apply nodup_len_iff, A. }
      split.
      + intros c I P. apply positive_fst_nodup; auto.
      + intros c x y I P Ix Iy Ne. assert (J : In (map fst c) cov) by (apply In_cov; eauto). specialize (A _ J). apply andb_true_iff in A as [_ A].
        apply pairs_disjoint_spec with (x := x) (y := y) in A; [apply Dk, A|auto|apply Im; assumption|apply Im; assumption|exact Ne].
    - intros [N A] k J. apply In_cov in J as (c & I & P & ->). assert (Nk : NoDup (map fst c)) by (apply positive_fst_nodup; auto).
      apply andb_true_iff. split; [apply nodup_len_iff, Nk|]. apply pairs_disjoint_spec; [exact Nk|]. intros x y Ix Iy Ne. apply Dk.
      apply (A c x y); auto; apply Im; assumption. }
  destruct (Nat.ltb_spec (length (covers cs)) 2) as [L2 | L2].
  { split; [discriminate|]. intros H. lia. }
  destruct (forallb (cov_ok dis) cov) eqn:F; cbn [negb].
  2:{ split; [discriminate|]. intros (_ & _ & _ & _ & S & _). assert (X : false = true); [|discriminate]. apply OK. split; [apply (s_nodup _ _ S)|apply (s_clique _ _ S)]. }
  destruct (proj1 OK eq_refl) as [Nd Cq]. unfold degrees. rewrite Cc.
  assert (Nonempty : exists v, In v (map fst (concat (covers cs)))).
  { destruct (covers cs) as [|c k] eqn:E; [cbn in L2; lia|]. assert (I : In c (covers cs)) by (rewrite E; left; reflexivity).
    apply filter_In in I as [I P]. apply positive_iff in P. destruct (Cl c I) as [[_ Ne] | (x & y & Ex)].
    - destruct c as [|l c]; [congruence|]. exists (fst l). cbn. left. reflexivity.
    - exfalso. rewrite Ex in P. specialize (P (x, false) (or_introl eq_refl)). discriminate. }
  set (all := map fst (concat (covers cs))) in *.
  assert (Deg : forall d, In d (map (count_occ Nat.eq_dec all) (nodup Nat.eq_dec all)) <-> exists v, In v all /\ d = incidence cs v).
  { intros d. rewrite in_map_iff. split; [intros (v & <- & I)|intros (v & I & ->)]; exists v; apply nodup_In in I || rewrite nodup_In; auto. }
  destruct (map (count_occ Nat.eq_dec all) (nodup Nat.eq_dec all)) as [|q0 ds].
  { destruct Nonempty as [v I]. exfalso. apply (proj2 (Deg (incidence cs v))). eauto. }
  assert (Uni : existsb (fun d => negb (d =? q0)) (q0 :: ds) = false <-> forall v, In v all -> incidence cs v = q0).
  { split.
    - intros E v I. destruct (Nat.eq_dec (incidence cs v) q0) as [|Ne]; [assumption|]. exfalso.
      assert (X : existsb (fun d => negb (d =? q0)) (q0 :: ds) = true); [|congruence]. apply existsb_exists. exists (incidence cs v).
      split; [apply Deg; eauto|]. apply negb_true_iff, Nat.eqb_neq, Ne.
    - intros H. destruct (existsb _ _) eqn:E; [|reflexivity]. apply existsb_exists in E as (d & I & Ne). apply Deg in I as (v & I & ->).
      apply negb_true_iff, Nat.eqb_neq in Ne. elim Ne. auto. }
  destruct (proj1 (Deg q0) (or_introl eq_refl)) as (v0 & I0 & E0).
  destruct ((q0 <? 2) || existsb (fun d => negb (d =? q0)) (q0 :: ds)) eqn:O.
  { split; [discriminate|]. intros (_ & _ & Lq & _ & S & _). exfalso. assert (q0 = q) by (rewrite E0; apply (s_uniform _ _ S), I0). subst q.
    apply orb_true_iff in O as [O | O]; [apply Nat.ltb_lt in O; lia|]. assert (X : existsb (fun d => negb (d =? q0)) (q0 :: ds) = false); [|congruence].
    apply Uni, (s_uniform _ _ S). }
  apply orb_false_iff in O as [O1 O2]. apply Nat.ltb_ge in O1. pose proof (proj1 Uni O2) as U.
  assert (S : counting_shape cs q0) by (constructor; assumption).
  assert (Qeq : forall q, counting_shape cs q -> q = q0) by (intros q' S'; rewrite E0; symmetry; apply (s_uniform _ _ S'), I0).
  destruct (Nat.eqb_spec (length (covers cs) mod q0) 0) as [Z | Nz].
  - split; [discriminate|]. intros (_ & _ & _ & -> & S' & -> & Nz). rewrite (Qeq q S') in Nz. contradiction.
  - split.
    + intros [= <- <- <-]. repeat (split; [assumption || lia || reflexivity|]). exact Nz.
    + intros (_ & _ & _ & -> & S' & -> & _). rewrite (Qeq q S'). reflexivity.
Qed.

Lemma divides_count q (l : list nat) : (forall v, In v l -> count_occ Nat.eq_dec l v = q) -> Nat.divide q (length l).
Proof.
  remember (length l) as k eqn:K. revert l K. induction k as [k IH] using lt_wf_ind. intros l -> H. destruct l as [|v l]; [exists 0; reflexivity|].
  assert (R : forall l, length l = count_occ Nat.eq_dec l v + length (remove Nat.eq_dec v l)).
  { induction l0 as [|x m IHm]; [reflexivity|]. cbn [remove count_occ length]. destruct (Nat.eq_dec x v) as [Ex | Ne], (Nat.eq_dec v x); try congruence; cbn [length]; lia. }
  rewrite (R (v :: l)), (H v (or_introl eq_refl)). apply Nat.divide_add_r; [apply Nat.divide_refl|].
  assert (Cp : 0 < count_occ Nat.eq_dec (v :: l) v) by (apply count_occ_In; left; reflexivity).
  refine (IH _ _ (remove Nat.eq_dec v (v :: l)) eq_refl _).
  - rewrite (R (v :: l)). lia.
  - intros u I. apply in_remove in I as [I Ne]. rewrite <- (H u I). clear -Ne. induction (v :: l) as [|x m IHm]; [reflexivity|]. cbn [remove count_occ].
    destruct (Nat.eq_dec v x) as [-> | Nx]; [destruct (Nat.eq_dec x u); [congruence|exact IHm]|]. cbn [count_occ]. rewrite IHm. reflexivity.
Qed.

(** A certificate is issued only for unsatisfiable clause sets, and passes its own check. *)
Theorem C123_sound num_vars cs c : counting_certificate num_vars cs = Some c -> ~ satisfiable cs /\ check c = true.
Proof.
  destruct c as [n q r]. intros E. apply C123_issued in E as (_ & _ & Lq & -> & S & -> & Nz). split.
  2:{ unfold check. cbn [c_n c_q c_remainder]. rewrite Nat.eqb_refl, andb_true_r. apply andb_true_iff. split; [apply Nat.leb_le, Lq|]. apply negb_true_iff, Nat.eqb_neq, Nz. }
  intros (f & M). apply Nz. apply Nat.mod_divide; [lia|].
  assert (One : forall c, In c cs -> positive c -> length (filter f (map fst c)) = 1).
  { intros c I P. assert (N : NoDup (map fst c)) by (apply positive_fst_nodup, (s_nodup _ _ S); assumption).
    destruct (M c I) as ([v s] & J & F). cbn in F. pose proof (P _ J) as Es. cbn in Es. rewrite Es in J, F. clear Es s.
    change 1 with (length [v]). apply Permutation_length, NoDup_Permutation; [apply NoDup_filter, N|repeat constructor; intros []|].
    intros u. rewrite filter_In, in_map_iff. split.
    - intros [([u' t] & <- & K) Fu]. cbn [fst] in *. pose proof (P _ K) as Et. cbn in Et. subst t. left. destruct (Nat.eq_dec v u') as [|Ne]; [assumption|]. exfalso.
      destruct (s_clique _ _ S c v u' I P J K Ne) as [X | X]; destruct (M _ X) as (l & [<- | [<- | []]] & Fl); cbn in Fl; congruence.
    - intros [<- | []]. split; [exists (v, true); auto|exact F]. }
  assert (Len : forall ks, (forall c, In c ks -> In c cs /\ positive c) -> length (filter f (map fst (concat ks))) = length ks).
  { induction ks as [|c ks IH]; intros H; [reflexivity|]. cbn [concat]. rewrite map_app, filter_app, app_length.
    destruct (H c (or_introl eq_refl)) as [Ic Pc]. refine (f_equal2 Nat.add (One c Ic Pc) (IH _)). intros d I. apply H. right. exact I. }
  rewrite <- (Len (covers cs)).
  2:{ intros c I. apply filter_In in I as [I P]. split; [exact I|apply positive_iff, P]. }
  apply divides_count. intros v I. apply filter_In in I as [I F]. rewrite <- (s_uniform _ _ S v I). unfold incidence.
  clear -F. induction (map fst (concat (covers cs))) as [|x m IHm]; [reflexivity|]. cbn [filter count_occ]. destruct (Nat.eq_dec x v) as [-> | Ne].
  - rewrite F. cbn [count_occ]. destruct (Nat.eq_dec v v); [|congruence]. rewrite IHm. reflexivity.
  - destruct (f x); [|exact IHm]. cbn [count_occ]. destruct (Nat.eq_dec x v); [congruence|exact IHm].
Qed.
(** The check of the certificate alone is the arithmetic statement. *)
Theorem C123_check c : check c = true <-> 2 <= c_q c /\ c_remainder c = c_n c mod c_q c /\ ~ Nat.divide (c_q c) (c_n c).
Proof.
  unfold check. rewrite !andb_true_iff, negb_true_iff, Nat.leb_le, Nat.eqb_neq, Nat.eqb_eq. split.
  - intros [[A B] C]. split; [exact A|]. split; [auto|]. intros D. apply Nat.mod_divide in D; lia.
  - intros (A & B & C). split; [split; [exact A|]|auto]. intros Z. apply C, Nat.mod_divide; lia.
Qed.
Theorem C123_refute num_vars cs : refute_counting num_vars cs = true <-> exists c, counting_certificate num_vars cs = Some c.
Proof.
  unfold refute_counting. destruct (counting_certificate num_vars cs) as [c|] eqn:E; split; try discriminate; eauto.
  - intros _. apply (C123_sound num_vars cs c E).
  - intros (c & E'). discriminate.
Qed.

(** ** Example: three elements in blocks of two (edges of a triangle); four elements are not refuted *)
Definition pos (l : list nat) : list lit := map (fun v => (v, true)) l.
Definition count_2_3 : list (list lit) := [pos [0; 1]; pos [0; 2]; pos [1; 2]; exclusion 0 1; exclusion 2 0; exclusion 1 2].
Definition count_2_4 : list (list lit) := [pos [0; 1]; pos [0; 1]; exclusion 0 1].
Example C123_example : counting_certificate 3 count_2_3 = Some (Cert 3 2 1) /\ refute_counting 3 count_2_3 = true /\
  counting_certificate 2 count_2_4 = None /\ counting_certificate 3 (removelast count_2_3) = None /\ counting_certificate 3 ([(0, true); (1, false)] :: count_2_3) = None.
Proof. vm_compute. auto 6. Qed.

(** ** Size bounds *)
Definition non_increasing (ranks : list nat) : Prop := forall i j, i <= j < length ranks -> nth j ranks 0 <= nth i ranks 0.
Lemma increases_spec ranks : increases ranks = false <-> non_increasing ranks.
Proof.
  induction ranks as [|a [|b rest] IH].
  - split; [|reflexivity]. intros _ i j H. cbn in H. lia.
  - split; [|reflexivity]. intros _ i j H. cbn in H. assert (i = 0 /\ j = 0) as [-> ->] by lia. lia.
  - change (increases (a :: b :: rest)) with ((a <? b) || increases (b :: rest)). rewrite orb_false_iff, IH, Nat.ltb_ge. split.
    + intros [L H] i j R. destruct j as [|j].
      * assert (i = 0) by lia. subst. lia.
      * destruct i as [|i]; [|apply (H i j); cbn in *; lia]. cbn [nth]. specialize (H 0 j). cbn in *. lia.
    + intros H. split; [apply (H 0 1); cbn; lia|]. intros i j R. apply (H (S i) (S j)). cbn in *. lia.
Qed.
Lemma max_ge l x : In x l -> x <= fold_right Nat.max 0 l.
Proof. induction l as [|y l IH]; intros []; cbn; [lia|]. specialize (IH H). lia. Qed.
Lemma max_in l : l <> [] -> In (fold_right Nat.max 0 l) l.
Proof.
  induction l as [|y l IH]; [congruence|]. intros _. cbn. destruct l as [|z l]; [left; cbn; lia|].
  destruct (Nat.max_spec y (fold_right Nat.max 0 (z :: l))) as [[_ ->] | [_ ->]]; [right; apply IH; discriminate|left; reflexivity].
Qed.
Lemma count_total (l : list nat) : forall vs m, NoDup vs -> incl l vs -> (forall v, count_occ Nat.eq_dec l v <= m) -> length l <= length vs * m.
Proof.
  intros vs. revert l. induction vs as [|v vs IH]; intros l m N I H.
  - destruct l as [|x l]; [cbn; lia|]. destruct (I x (or_introl eq_refl)).
  - inversion N; subst.
    assert (R : forall l, length l = count_occ Nat.eq_dec l v + length (remove Nat.eq_dec v l)).
    { induction l0 as [|x k IHk]; [reflexivity|]. cbn [remove count_occ length]. destruct (Nat.eq_dec x v) as [Ex | Ne], (Nat.eq_dec v x); try congruence; cbn [length]; lia. }
    rewrite (R l). cbn [length]. specialize (IH (remove Nat.eq_dec v l) m H3).
    assert (length (remove Nat.eq_dec v l) <= length vs * m).
    { apply IH.
      - intros x J. apply in_remove in J as [J Ne]. destruct (I x J); [congruence|assumption].
      - intros u. apply Nat.le_trans with (count_occ Nat.eq_dec l u); [|apply H]. clear. induction l as [|x k IHk]; [reflexivity|]. cbn [remove count_occ].
        destruct (Nat.eq_dec v x), (Nat.eq_dec x u); cbn [count_occ]; try destruct (Nat.eq_dec x u); try congruence; lia. }
    specialize (H v). lia.
Qed.
(** A bound is issued exactly for non-increasing ranks; it counts the distinct ranks and the fullest level, and is between
    the number of steps and its square. *)
Theorem C124_issued ranks : (exists b, certify_size_bound ranks = Some b) <-> non_increasing ranks.
Proof.
  rewrite <- increases_spec. destruct ranks as [|a rest]; [cbn; split; eauto|]. unfold certify_size_bound. destruct (increases (a :: rest)); split; eauto; try discriminate.
  intros [b E]. discriminate.
Qed.
Theorem C124_bound ranks b : certify_size_bound ranks = Some b ->
  actual b = length ranks /\ bound b = levels b * max_width b /\ length ranks <= bound b <= length ranks * length ranks /\
  (exists ls, NoDup ls /\ (forall r, In r ls <-> In r ranks) /\ levels b = length ls) /\
  (forall r, count_occ Nat.eq_dec ranks r <= max_width b) /\ (ranks <> [] -> exists r, In r ranks /\ count_occ Nat.eq_dec ranks r = max_width b).
Proof.
  intros E. destruct ranks as [|a rest].
  { injection E as <-. cbn. repeat split; auto; try lia; try congruence. exists []. repeat split; [constructor|auto|auto]. }
  set (ranks := a :: rest) in *. assert (Ne : ranks <> []) by discriminate. unfold certify_size_bound in E. unfold ranks at 1 in E.
  destruct (increases ranks); [discriminate|]. injection E as <-. cbn [actual bound levels max_width].
  set (vs := nodup Nat.eq_dec ranks). rewrite map_length.
  assert (H : forall r, count_occ Nat.eq_dec ranks r <= fold_right Nat.max 0 (map (count_occ Nat.eq_dec ranks) vs)).
  { intros r. destruct (in_dec Nat.eq_dec r ranks) as [I | N].
    - apply max_ge, in_map, nodup_In, I.
    - apply (count_occ_not_In Nat.eq_dec) in N. lia. }
  assert (X : exists r, In r ranks /\ count_occ Nat.eq_dec ranks r = fold_right Nat.max 0 (map (count_occ Nat.eq_dec ranks) vs)).
  { assert (I : In (fold_right Nat.max 0 (map (count_occ Nat.eq_dec ranks) vs)) (map (count_occ Nat.eq_dec ranks) vs)).
    { apply max_in. assert (J : In a vs) by (apply nodup_In; left; reflexivity). destruct vs; [destruct J|discriminate]. }
    apply in_map_iff in I as (r & Er & I). exists r. split; [apply nodup_In in I; exact I|exact Er]. }
  assert (Nv : NoDup vs) by apply NoDup_nodup.
  assert (Iv : forall r, In r vs <-> In r ranks) by (intros r; apply nodup_In).
  split; [reflexivity|]. split; [reflexivity|]. split.
  - split.
    + apply count_total; [exact Nv| |exact H]. intros r I. apply Iv, I.
    + apply Nat.mul_le_mono.
      * apply NoDup_incl_length; [exact Nv|]. intros x I. apply Iv, I.
      * enough (Q : forall r, count_occ Nat.eq_dec ranks r <= length ranks) by (destruct X as (r & _ & Er); specialize (Q r); rewrite Er in Q; exact Q).
        intros r. generalize ranks. clear. intros ranks. induction ranks as [|x k IHk]; [reflexivity|]. cbn [count_occ length]. destruct (Nat.eq_dec x r); lia.
  - split; [|split; [exact H|intros _; exact X]]. exists vs. split; [exact Nv|]. split; [exact Iv|reflexivity].
Qed.
(** [certify]: the final comparison never rejects. *)
Theorem C124_certify {Step} accepted (steps : list Step) ranks b : certify accepted steps ranks = Some b <->
  accepted = true /\ length ranks = length steps /\ certify_size_bound ranks = Some b.
Proof.
  unfold certify. destruct (Nat.eqb_spec (length ranks) (length steps)) as [L | L]; cbn [negb].
  2:{ split; [discriminate|]. intros (_ & H & _). contradiction. }
  destruct accepted; cbn [negb]; [|split; [discriminate|intros (H & _); discriminate]].
  destruct (certify_size_bound ranks) as [b'|] eqn:E.
  - destruct (C124_bound ranks b' E) as (A & _ & B & _). rewrite A. destruct (Nat.leb_spec (length ranks) (bound b')); [|lia]. intuition.
  - intuition discriminate.
Qed.
Example C124_example : certify_size_bound [3; 3; 2; 1; 1; 1] = Some (SizeBound 3 3 9 6) /\ certify_size_bound [3; 2; 3] = None /\
  certify true [tt; tt] [5; 5] = Some (SizeBound 1 2 2 2) /\ certify true [tt] [5; 5] = None /\ certify false [tt; tt] [5; 5] = None.
Proof. vm_compute. auto 6. Qed.
