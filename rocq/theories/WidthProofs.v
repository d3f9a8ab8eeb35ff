(** Lemmas about the resolution-width model. *)
From Coq Require Import List Arith NArith Bool Lia Permutation.
From Verif Require Import WidthModel.
Import ListNotations.

Definition bit (m : mask) (l : lit) : bool := N.testbit_nat (if snd l : bool then fst m else snd m) (fst l).
Lemma lit_dec (a b : lit) : {a = b} + {a <> b}.
Proof. decide equality; [apply bool_dec|apply Nat.eq_dec]. Defined.

Lemma mask_ext a b : (forall l, bit a l = bit b l) -> a = b.
Proof.
  intros H. destruct a as [a1 a2], b as [b1 b2]. f_equal; apply Nbit_faithful; intro i.
  - exact (H (i, true)).
  - exact (H (i, false)).
Qed.

Lemma bit_pow v i : N.testbit_nat (N.shiftl 1 (N.of_nat v)) i = (i =? v).
Proof.
  rewrite <- Ntestbit_Nbit, N.shiftl_1_l, N.pow2_bits_eqb.
  destruct (Nat.eqb_spec i v) as [-> | Ne]; [apply N.eqb_refl|]. apply N.eqb_neq. lia.
Qed.

Lemma bit_mask_clause c l : bit (mask_clause c) l = true <-> In l c.
Proof.
  unfold mask_clause.
  enough (G : forall c m, bit (fold_left (fun m l => if snd l : bool then (N.lor (fst m) (N.shiftl 1 (N.of_nat (fst l))), snd m)
    else (fst m, N.lor (snd m) (N.shiftl 1 (N.of_nat (fst l))))) c m) l = true <-> bit m l = true \/ In l c).
  { rewrite G. unfold bit. cbn. destruct (snd l); cbn; intuition congruence. }
  clear c. induction c as [|x c IH]; intros m; cbn [fold_left In]; [intuition|]. rewrite IH.
  assert (A : bit (if snd x : bool then (N.lor (fst m) (N.shiftl 1 (N.of_nat (fst x))), snd m)
    else (fst m, N.lor (snd m) (N.shiftl 1 (N.of_nat (fst x))))) l = true <-> bit m l = true \/ x = l).
  { destruct x as [v s], l as [u t]. unfold bit. destruct s, t; cbn [fst snd]; rewrite ?Nor_semantics, ?bit_pow.
    - rewrite orb_true_iff, Nat.eqb_eq. intuition congruence.
    - intuition congruence.
    - intuition congruence.
    - rewrite orb_true_iff, Nat.eqb_eq. intuition congruence. }
  rewrite A. intuition.
Qed.

Definition small (m : mask) : Prop := forall l, bit m l = true -> fst l < 63.
Definition clause_of (m : mask) : list lit :=
  map (fun i => (i, true)) (filter (fun i => N.testbit_nat (fst m) i) (seq 0 64)) ++
  map (fun i => (i, false)) (filter (fun i => N.testbit_nat (snd m) i) (seq 0 64)).

Lemma in_clause_of m l : small m -> In l (clause_of m) <-> bit m l = true.
Proof.
  intros S. unfold clause_of. rewrite in_app_iff, !in_map_iff. split.
  - intros [[i [<- I]] | [i [<- I]]]; apply filter_In in I; exact (proj2 I).
  - intros B. pose proof (S l B) as Lt. destruct l as [v s]. cbn [fst] in Lt. destruct s; [left|right]; exists v;
      (split; [reflexivity|]); apply filter_In; (split; [apply in_seq; lia|exact B]).
Qed.

Lemma nodup_clause_of m : NoDup (clause_of m).
Proof.
  assert (G : forall s f, NoDup (map (fun i : nat => (i, s : bool)) (filter f (seq 0 64)))).
  { intros s f. apply FinFun.Injective_map_NoDup; [intros x y; congruence|]. apply NoDup_filter, seq_NoDup. }
  assert (A : forall l1 l2 : list lit, NoDup l1 -> NoDup l2 -> (forall x, In x l1 -> ~ In x l2) -> NoDup (l1 ++ l2)).
  { induction l1 as [|x l1 IH]; cbn; intros l2 N1 N2 D; [exact N2|]. inversion N1; subst. constructor.
    - rewrite in_app_iff. intros [I | I]; [auto|]. exact (D x (or_introl eq_refl) I).
    - apply IH; auto. }
  apply A; [apply G|apply G|]. intros x I J. apply in_map_iff in I. apply in_map_iff in J.
  destruct I as [i [<- _]]. destruct J as [j [E _]]. discriminate.
Qed.

Lemma width_clause_of m : mask_width m = length (clause_of m).
Proof. unfold mask_width, count_ones, clause_of. rewrite app_length, !map_length. reflexivity. Qed.

Lemma same_length (a b : list lit) : NoDup a -> NoDup b -> (forall l, In l a <-> In l b) -> length a = length b.
Proof. intros A B E. apply Permutation_length. apply NoDup_Permutation; assumption. Qed.

Lemma width_mask_clause c : (forall l, In l c -> fst l < 63) -> mask_width (mask_clause c) = length (nodup lit_dec c).
Proof.
  intros S. rewrite width_clause_of. apply same_length; [apply nodup_clause_of|apply NoDup_nodup|].
  intros l. rewrite nodup_In, in_clause_of, bit_mask_clause; [reflexivity|]. intros k B. apply S, bit_mask_clause, B.
Qed.

Lemma count_one_elim x : count_ones x = 1 -> exists v, N.testbit_nat x v = true /\ forall u, u < 64 -> N.testbit_nat x u = true -> u = v.
Proof.
  unfold count_ones. intros E. destruct (filter _ _) as [|v [|? ?]] eqn:F; try discriminate. exists v. split.
  - assert (I : In v [v]) by (left; reflexivity). rewrite <- F in I. apply filter_In in I. apply I.
  - intros u Lu B. assert (I : In u [v]). { rewrite <- F. apply filter_In. split; [apply in_seq; lia|exact B]. }
    destruct I as [-> | []]. reflexivity.
Qed.
Lemma count_one_intro x v : v < 64 -> N.testbit_nat x v = true -> (forall u, N.testbit_nat x u = true -> u = v) -> count_ones x = 1.
Proof.
  intros Lv B U. unfold count_ones. change 1 with (length [v]). apply Permutation_length, NoDup_Permutation.
  - apply NoDup_filter, seq_NoDup.
  - constructor; [intros []|constructor].
  - intros u. rewrite filter_In, in_seq. cbn. split.
    + intros [_ H]. left. symmetry. apply U, H.
    + intros [<- | []]. split; [lia|exact B].
Qed.

(** The clashing variables and the resolvent, bit by bit. *)
Definition clashes (a b : mask) (v : nat) : Prop :=
  exists s, bit a (v, s) = true /\ bit b (v, negb s) = true.
Lemma clash_bit a b v :
  N.testbit_nat (N.lor (N.land (fst a) (snd b)) (N.land (snd a) (fst b))) v = true <-> clashes a b v.
Proof.
  rewrite Nor_semantics, !Nand_semantics, orb_true_iff, !andb_true_iff. unfold clashes, bit. split.
  - intros [H | H]; [exists true|exists false]; exact H.
  - intros [[|] H]; [left|right]; exact H.
Qed.

Lemma resolve_elim a b r : small a -> small b -> resolve_masks a b = Some r ->
  exists v, clashes a b v /\ (forall u, clashes a b u -> u = v) /\
    forall l, bit r l = true <-> (bit a l = true \/ bit b l = true) /\ fst l <> v.
Proof.
  intros Sa Sb. unfold resolve_masks. set (cl := N.lor _ _). destruct (count_ones cl =? 1) eqn:E; cbn [negb]; [|discriminate].
  intros [= <-]. apply Nat.eqb_eq in E. destruct (count_one_elim cl E) as (v & B & U). exists v.
  assert (Un : forall u, clashes a b u -> u = v).
  { intros u C. apply U; [|apply clash_bit, C]. destruct C as (s & A & _). apply Sa in A. cbn in A. lia. }
  split; [apply clash_bit, B|]. split; [exact Un|].
  assert (N : forall u, negb (N.testbit_nat cl u) = true <-> u <> v).
  { intros u. rewrite negb_true_iff. split.
    - intros F ->. congruence.
    - intros Ne. destruct (N.testbit_nat cl u) eqn:T; [|reflexivity]. elim Ne. apply Un, clash_bit, T. }
  intros [u [|]]; unfold bit; cbn [fst snd]; rewrite Ndiff_semantics, Nor_semantics, andb_true_iff, orb_true_iff, N; reflexivity.
Qed.

Lemma resolve_intro a b v : v < 64 -> clashes a b v -> (forall u, clashes a b u -> u = v) ->
  exists r, resolve_masks a b = Some r /\
    forall l, bit r l = true <-> (bit a l = true \/ bit b l = true) /\ fst l <> v.
Proof.
  intros Lv C U. unfold resolve_masks. set (cl := N.lor _ _).
  assert (E : count_ones cl = 1).
  { apply (count_one_intro cl v Lv); [apply clash_bit, C|]. intros u B. apply U, clash_bit, B. }
  rewrite E, Nat.eqb_refl. cbn [negb]. eexists. split; [reflexivity|].
  assert (N : forall u, negb (N.testbit_nat cl u) = true <-> u <> v).
  { intros u. rewrite negb_true_iff. split.
    - intros F ->. enough (N.testbit_nat cl v = true) by congruence. apply clash_bit, C.
    - intros Ne. destruct (N.testbit_nat cl u) eqn:T; [|reflexivity]. elim Ne. apply U, clash_bit, T. }
  intros [u [|]]; unfold bit; cbn [fst snd]; rewrite Ndiff_semantics, Nor_semantics, andb_true_iff, orb_true_iff, N; reflexivity.
Qed.

Lemma resolve_comm a b : resolve_masks a b = resolve_masks b a.
Proof.
  unfold resolve_masks.
  assert (E : N.lor (N.land (fst a) (snd b)) (N.land (snd a) (fst b)) = N.lor (N.land (fst b) (snd a)) (N.land (snd b) (fst a))).
  { rewrite N.lor_comm. f_equal; apply N.land_comm. }
  rewrite E, (N.lor_comm (fst a)), (N.lor_comm (snd a)). reflexivity.
Qed.

Lemma mask_eqb_eq a b : mask_eqb a b = true <-> a = b.
Proof.
  unfold mask_eqb. rewrite andb_true_iff, !N.eqb_eq. destruct a, b; cbn. split; [intros [-> ->]; reflexivity|]. intros [= -> ->]. auto.
Qed.
Lemma contains_In m s : contains m s = true <-> In m s.
Proof.
  unfold contains. rewrite existsb_exists. split.
  - intros (x & I & E). apply mask_eqb_eq in E. subst. exact I.
  - intros I. exists m. split; [exact I|]. apply mask_eqb_eq. reflexivity.
Qed.
Lemma insert_In m s x : In x (insert m s) <-> x = m \/ In x s.
Proof.
  unfold insert. destruct (contains m s) eqn:C.
  - apply contains_In in C. split; [auto|]. intros [-> | I]; assumption.
  - rewrite in_app_iff. cbn. intuition.
Qed.
Lemma nodup_app_one (m : mask) s : ~ In m s -> NoDup s -> NoDup (s ++ [m]).
Proof.
  intros N D. apply NoDup_Add with (a := m) (l := s); [|auto]. rewrite <- (app_nil_r s) at 1. apply Add_app.
Qed.
Lemma insert_NoDup m s : NoDup s -> NoDup (insert m s).
Proof.
  intros N. unfold insert. destruct (contains m s) eqn:C; [exact N|]. apply nodup_app_one; [|exact N].
  rewrite <- contains_In. congruence.
Qed.
Lemma inserts l : forall s, NoDup s -> NoDup (fold_left (fun s m => insert m s) l s) /\
  forall x, In x (fold_left (fun s m => insert m s) l s) <-> In x l \/ In x s.
Proof.
  induction l as [|m l IH]; intros s N; cbn [fold_left In]; [intuition|].
  destruct (IH (insert m s) (insert_NoDup m s N)) as [A B]. split; [exact A|]. intros x. rewrite B, insert_In. intuition.
Qed.

Lemma taut_zero m : N.eqb (N.land (fst m) (snd m)) 0 = true <-> (forall v, ~ (bit m (v, true) = true /\ bit m (v, false) = true)).
Proof.
  rewrite N.eqb_eq. unfold bit. cbn [fst snd]. split.
  - intros E v [A B]. assert (T : N.testbit_nat (N.land (fst m) (snd m)) v = true) by (rewrite Nand_semantics, A, B; reflexivity).
    rewrite E in T. discriminate.
  - intros H. apply Nbit_faithful. intros v. rewrite Nand_semantics. cbn.
    destruct (N.testbit_nat (fst m) v) eqn:A, (N.testbit_nat (snd m) v) eqn:B; try reflexivity. elim (H v). auto.
Qed.

Lemma seed_spec cs w cv m : In m (seed cs w cv) <->
  (exists c, In c cs /\ mask_clause c = m) /\ (forall v, ~ (bit m (v, true) = true /\ bit m (v, false) = true)) /\
  (cv = Strict -> mask_width m <= w).
Proof.
  unfold seed. rewrite (proj2 (inserts _ [] (NoDup_nil _))), !filter_In, in_map_iff, taut_zero, orb_true_iff, Nat.leb_le.
  cbn [In]. assert (W : wide cv = true <-> cv <> Strict) by (destruct cv; cbn; intuition congruence). rewrite W.
  split.
  - intros [[[(c & E & I) T] O] | []]. split; [exists c; auto|]. split; [exact T|]. intros ->. destruct O as [O | O]; congruence || exact O.
  - intros ((c & I & E) & T & O). left. split; [split; [exists c; auto|exact T]|]. destruct cv; [right; auto|left; discriminate].
Qed.
Lemma seed_NoDup cs w cv : NoDup (seed cs w cv).
Proof. apply inserts. constructor. Qed.

(** The loop. *)
Lemma fold_left_cons {A B} (f : A -> B -> A) b l x : fold_left f (b :: l) x = fold_left f l (f x b).
Proof. reflexivity. Qed.
Opaque mask_width count_ones resolve_masks visit.
Lemma pass_cons w a b snap st : pass w a (b :: snap) st = pass w a snap (visit w a st b).
Proof. exact (fold_left_cons (visit w a) b snap st). Qed.
Transparent visit.
Lemma visit_none w a st b : resolve_masks a b = None -> visit w a st b = st.
Proof. unfold visit. intros ->. reflexivity. Qed.
Lemma visit_some w a st b r : resolve_masks a b = Some r ->
  visit w a st b = if (mask_width r <=? w) && negb (contains r (fst st)) then (insert r (fst st), r :: snd st) else st.
Proof. unfold visit. intros ->. reflexivity. Qed.
Lemma pass_spec w a snap : forall set wl set' wl', NoDup set -> pass w a snap (set, wl) = (set', wl') ->
  exists new, set' = set ++ new /\ wl' = rev new ++ wl /\ NoDup set' /\
    (forall r, In r new -> mask_width r <= w /\ exists b, In b snap /\ resolve_masks a b = Some r) /\
    (forall b r, In b snap -> resolve_masks a b = Some r -> mask_width r <= w -> In r set').
Proof.
  induction snap as [|b snap IH]; intros set wl set' wl' N E.
  - cbn in E. injection E as <- <-. exists []. rewrite app_nil_r. split; [reflexivity|]. split; [reflexivity|]. split; [exact N|]. split; intros ? ? ; contradiction.
  - rewrite pass_cons in E.
    destruct (resolve_masks a b) as [r|] eqn:R.
    + rewrite (visit_some _ _ _ _ _ R) in E. cbn [fst snd] in E. destruct ((mask_width r <=? w) && negb (contains r set)) eqn:C.
      * apply andb_true_iff in C as [C1 C2]. apply Nat.leb_le in C1. apply negb_true_iff in C2.
        assert (I : insert r set = set ++ [r]) by (unfold insert; rewrite C2; reflexivity). rewrite I in E.
        destruct (IH (set ++ [r]) (r :: wl) set' wl') as (new & -> & -> & N' & P & Q); [|exact E|].
        { rewrite <- I. apply insert_NoDup, N. }
        exists (r :: new). repeat split.
        -- rewrite <- app_assoc. reflexivity.
        -- cbn. rewrite <- app_assoc. reflexivity.
        -- exact N'.
        -- destruct H as [<- | H]; [exact C1|]. apply (P _ H).
        -- destruct H as [<- | H]; [exists b; split; [left; reflexivity|exact R]|]. destruct (P _ H) as [_ (b' & J & F)]. exists b'. split; [right|]; assumption.
        -- intros b' r' [<- | J] F L; [|exact (Q b' r' J F L)]. assert (r' = r) by congruence. subst. rewrite !in_app_iff. cbn. auto.
      * destruct (IH _ _ _ _ N E) as (new & -> & -> & N' & P & Q). exists new. repeat split; auto.
        -- apply (P _ H).
        -- destruct (P _ H) as [_ (b' & J & F)]. exists b'. split; [right|]; assumption.
        -- intros b' r' [<- | J] F L; [|exact (Q b' r' J F L)]. assert (r' = r) by congruence. subst.
           apply andb_false_iff in C as [C | C]; [apply Nat.leb_gt in C; lia|]. apply negb_false_iff, contains_In in C. rewrite in_app_iff. auto.
    + rewrite (visit_none _ _ _ _ R) in E. destruct (IH _ _ _ _ N E) as (new & -> & -> & N' & P & Q). exists new. repeat split; auto.
      * apply (P _ H).
      * destruct (P _ H) as [_ (b' & J & F)]. exists b'. split; [right|]; assumption.
      * intros b' r' [<- | J] F L; [congruence|]. exact (Q b' r' J F L).
Qed.

Definition closed_off (w : nat) (set wl : list mask) : Prop :=
  forall a b r, In a set -> In b set -> ~ In a wl -> ~ In b wl -> resolve_masks a b = Some r -> mask_width r <= w -> In r set.

Lemma mask_dec (a b : mask) : {a = b} + {a <> b}.
Proof. decide equality; apply N.eq_dec. Defined.

Lemma close_spec w (P : mask -> Prop) fuel : forall set wl out,
  (forall a b r, P a -> P b -> resolve_masks a b = Some r -> mask_width r <= w -> P r) ->
  NoDup set -> (forall m, In m set -> P m) -> incl wl set -> closed_off w set wl ->
  close fuel w set wl = Some out ->
  incl set out /\ (forall m, In m out -> P m) /\ closed_off w out [].
Proof.
  induction fuel as [|f IH]; intros set wl out Pr N S I C E; [discriminate|]. cbn [close] in E. destruct wl as [|a rest].
  - injection E as <-. split; [apply incl_refl|]. split; [exact S|exact C].
  - destruct (pass w a set (set, rest)) as [set' wl'] eqn:F.
    destruct (pass_spec w a set set rest set' wl' N F) as (new & -> & -> & N' & Q & R).
    assert (Ia : In a set) by (apply I; left; reflexivity).
    destruct (IH (set ++ new) (rev new ++ rest) out) as (G1 & G2 & G3).
    + exact Pr.
    + exact N'.
    + intros m J. apply in_app_iff in J as [J | J]; [exact (S m J)|]. destruct (Q m J) as [L (b & Jb & Rb)]. exact (Pr a b m (S a Ia) (S b Jb) Rb L).
    + intros m J. apply in_app_iff in J as [J | J]; apply in_app_iff; [right; apply in_rev, J|left; apply I; right; exact J].
    + intros x y r Jx Jy Nx Ny Rr L.
      rewrite in_app_iff in Nx, Ny. rewrite <- in_rev in Nx, Ny.
      assert (Kx : In x set) by (apply in_app_iff in Jx as [Jx | Jx]; [exact Jx|elim Nx; auto]).
      assert (Ky : In y set) by (apply in_app_iff in Jy as [Jy | Jy]; [exact Jy|elim Ny; auto]).
      destruct (mask_dec x a) as [-> | Nxa]; [exact (R y r Ky Rr L)|].
      destruct (mask_dec y a) as [-> | Nya]; [rewrite resolve_comm in Rr; exact (R x r Kx Rr L)|].
      apply in_app_iff. left. apply (C x y r Kx Ky); [| |exact Rr|exact L]; intros [H | H]; auto.
    + exact E.
    + split; [|auto]. intros m J. apply G1, in_app_iff. auto.
Qed.

(** Termination: the sets stay within a finite universe. *)
Lemma close_total w (U : list mask) fuel : forall set wl,
  (forall a b r, In a U -> In b U -> resolve_masks a b = Some r -> In r U) ->
  NoDup set -> incl set U -> incl wl set ->
  length wl + (length U - length set) < fuel -> exists out, close fuel w set wl = Some out.
Proof.
  induction fuel as [|f IH]; intros set wl Pr N S I L; [lia|]. cbn [close]. destruct wl as [|a rest]; [eauto|].
  destruct (pass w a set (set, rest)) as [set' wl'] eqn:F.
  destruct (pass_spec w a set set rest set' wl' N F) as (new & -> & -> & N' & Q & R).
  assert (Ia : In a set) by (apply I; left; reflexivity).
  assert (S' : incl (set ++ new) U).
  { intros m J. apply in_app_iff in J as [J | J]; [exact (S m J)|]. destruct (Q m J) as [_ (b & Jb & Rb)]. exact (Pr a b m (S a Ia) (S b Jb) Rb). }
  apply IH; auto.
  - intros m J. apply in_app_iff in J as [J | J]; apply in_app_iff; [right; apply in_rev, J|left; apply I; right; exact J].
  - pose proof (NoDup_incl_length N' S') as LU. rewrite app_length in LU |- *. rewrite app_length, rev_length. cbn [length] in L. lia.
Qed.
