(** C125: the orbits of assignments under literal permutations. *)
From Coq Require Import List Arith Bool Lia Relations Permutation.
From Verif Require Import OrbitModel.
Import ListNotations.

(** ** The action, bit by bit *)
(** A literal permutation of [nv] variables: images in range, no variable hit twice. *)
Definition valid (nv : nat) (g : perm) : Prop :=
  length g = nv /\ (forall v, v < nv -> fst (image g v) < nv) /\ (forall v u, v < nv -> u < nv -> fst (image g v) = fst (image g u) -> v = u).

Lemma act_bit_gen g a w : forall vs b,
  Nat.testbit (fold_left (fun b v => let val := Nat.testbit a v in let img := apply g (v, true) in
    let new_val := if snd img then val else negb val in if new_val then Nat.lor b (Nat.shiftl 1 (fst img)) else b) vs b) w = true <->
  Nat.testbit b w = true \/ exists v, In v vs /\ fst (image g v) = w /\ Nat.testbit a v = snd (image g v).
Proof.
  induction vs as [|v vs IH]; intros b; cbn [fold_left].
  - split; [auto|]. intros [H | (v & [] & _)]. exact H.
  - cbv zeta. rewrite IH. unfold apply. cbn [fst snd].
    assert (E : Nat.testbit (if (if snd (image g v) then Nat.testbit a v else negb (Nat.testbit a v)) then Nat.lor b (Nat.shiftl 1 (fst (image g v))) else b) w = true <->
                Nat.testbit b w = true \/ (fst (image g v) = w /\ Nat.testbit a v = snd (image g v))).
    { assert (B : Nat.testbit (Nat.shiftl 1 (fst (image g v))) w = (fst (image g v) =? w)).
      { rewrite Nat.shiftl_1_l. apply Nat.pow2_bits_eqb. }
      destruct (snd (image g v)), (Nat.testbit a v); cbn [negb]; rewrite ?Nat.lor_spec, ?B, ?orb_true_iff, ?Nat.eqb_eq; intuition congruence. }
    rewrite E. split.
    + intros [[H | H] | (u & I & H)]; [auto|right; exists v; split; [left; reflexivity|exact H]|right; exists u; split; [right; exact I|exact H]].
    + intros [H | (u & [<- | I] & H)]; [auto|auto|right; exists u; auto].
Qed.
Lemma act_bit nv g a w : Nat.testbit (act nv g a) w = true <-> exists v, v < nv /\ fst (image g v) = w /\ Nat.testbit a v = snd (image g v).
Proof.
  unfold act. rewrite act_bit_gen, Nat.bits_0. split.
  - intros [H | (v & I & H)]; [discriminate|]. apply in_seq in I. exists v. split; [lia|exact H].
  - intros (v & L & H). right. exists v. split; [apply in_seq; lia|exact H].
Qed.

(** The value of variable [v] is carried to the variable of [g (+v)], flipped iff that literal is negative. *)
Theorem C125_act nv g a v : valid nv g -> v < nv ->
  Nat.testbit (act nv g a) (fst (image g v)) = (if snd (image g v) then Nat.testbit a v else negb (Nat.testbit a v)).
Proof.
  intros (_ & _ & Inj) L. apply eq_true_iff_eq. rewrite act_bit. split.
  - intros (u & Lu & E & B). assert (u = v) by (apply Inj; assumption). subst. rewrite B. destruct (snd (image g v)); reflexivity.
  - intros H. exists v. split; [exact L|]. split; [reflexivity|]. destruct (snd (image g v)), (Nat.testbit a v); cbn in H; congruence.
Qed.
Lemma below_pow nv x : (forall w, Nat.testbit x w = true -> w < nv) -> x < 2 ^ nv.
Proof.
  intros H. destruct (Nat.eq_dec x 0) as [-> | N]; [apply Nat.neq_0_lt_0, Nat.pow_nonzero; lia|].
  assert (L : Nat.log2 x < nv) by (apply H, Nat.bit_log2, N). apply Nat.log2_lt_pow2; [lia|exact L].
Qed.
Lemma pow_below nv x w : x < 2 ^ nv -> Nat.testbit x w = true -> w < nv.
Proof.
  intros L T. destruct (le_lt_dec nv w) as [G|]; [|assumption]. rewrite Nat.bits_above_log2 in T; [discriminate|].
  destruct (Nat.eq_dec x 0) as [-> | N]; [rewrite Nat.bits_0 in T; discriminate|]. apply Nat.lt_le_trans with nv; [|exact G]. apply Nat.log2_lt_pow2; [lia|exact L].
Qed.
Lemma act_range nv g a : (forall v, v < nv -> fst (image g v) < nv) -> act nv g a < 2 ^ nv.
Proof. intros H. apply below_pow. intros w B. apply act_bit in B as (v & L & <- & _). apply H, L. Qed.

Lemma image_map f n v : v < n -> image (map f (seq 0 n)) v = f v.
Proof. intros L. unfold image. rewrite nth_indep with (d' := f 0) by (rewrite map_length, seq_length; exact L). rewrite map_nth, seq_nth by exact L. reflexivity. Qed.
(** It is an action: the identity acts trivially and composition acts by composition. *)
Theorem C125_act_identity nv a : a < 2 ^ nv -> act nv (identity nv) a = a.
Proof.
  intros La. apply Nat.bits_inj. intros w. apply eq_true_iff_eq. rewrite act_bit. split.
  - intros (v & L & E & B). unfold identity in *. rewrite image_map in E, B by exact L. cbn in E, B. subst. exact B.
  - intros B. exists w. pose proof (pow_below nv a w La B) as L. split; [exact L|]. unfold identity. rewrite image_map by exact L. auto.
Qed.
Lemma compose_image nv g e v : length g = nv -> v < nv -> image (compose g e) v = apply g (image e v).
Proof.
  intros <- L. unfold compose. rewrite image_map by exact L. reflexivity.
Qed.
Theorem C125_act_compose nv g e a : valid nv g -> valid nv e -> valid nv (compose g e) /\ act nv (compose g e) a = act nv g (act nv e a).
Proof.
  intros Vg Ve. pose proof Vg as (Lg & Rg & Ig). pose proof Ve as (Le & Re & Ie).
  assert (Im : forall v, v < nv -> fst (image (compose g e) v) = fst (image g (fst (image e v))) /\
                snd (image (compose g e) v) = Bool.eqb (snd (image e v)) (snd (image g (fst (image e v))))).
  { intros v L. rewrite (compose_image nv) by assumption. unfold apply. destruct (snd (image e v)) eqn:S; cbn [fst snd]; (split; [reflexivity|]);
      destruct (snd (image g (fst (image e v)))); reflexivity. }
  split.
  - split; [|split].
    + unfold compose. rewrite map_length, seq_length. exact Lg.
    + intros v L. rewrite (proj1 (Im v L)). apply Rg, Re, L.
    + intros v u L L' E. rewrite (proj1 (Im v L)), (proj1 (Im u L')) in E. apply Ie; auto.
  - apply Nat.bits_inj. intros w. apply eq_true_iff_eq. rewrite !act_bit. split.
    + intros (v & L & E & B). destruct (Im v L) as [E1 E2]. rewrite E1 in E. rewrite E2 in B. exists (fst (image e v)). split; [apply Re, L|]. split; [exact E|].
      rewrite (C125_act nv e a v Ve L), B. destruct (snd (image e v)), (snd (image g (fst (image e v)))); reflexivity.
    + intros (u & L & E & B). destruct (Nat.testbit (act nv e a) u) eqn:T.
      * apply act_bit in T as (v & Lv & Ev & Bv). exists v. destruct (Im v Lv) as [E1 E2]. split; [exact Lv|]. rewrite E1, E2, Ev. split; [exact E|]. rewrite Bv, <- B. destruct (snd (image e v)); reflexivity.
      * (* [u] is hit by some variable, by counting *)
        assert (Su : exists v, v < nv /\ fst (image e v) = u).
        { assert (In u (map (fun v => fst (image e v)) (seq 0 nv))) as I.
          { assert (N : NoDup (map (fun v => fst (image e v)) (seq 0 nv))).
            { assert (G : forall l, NoDup l -> (forall v, In v l -> v < nv) -> NoDup (map (fun v => fst (image e v)) l)).
              { induction l as [|x l IHl]; intros N H; [constructor|]. inversion N; subst. cbn. constructor.
                - intros J. apply in_map_iff in J as (y & Ey & J). apply Ie in Ey; [subst; contradiction|apply H; right; exact J|apply H; left; reflexivity].
                - apply IHl; [assumption|]. intros v J. apply H. right. exact J. }
              apply G; [apply seq_NoDup|]. intros v J. apply in_seq in J. lia. }
            assert (Inc : incl (map (fun v => fst (image e v)) (seq 0 nv)) (seq 0 nv)).
            { intros x J. apply in_map_iff in J as (v & <- & J). apply in_seq in J. apply in_seq. split; [lia|]. apply Re. lia. }
            apply (@NoDup_length_incl nat _ (seq 0 nv) N); [rewrite map_length; lia|exact Inc|apply in_seq; lia]. }
          apply in_map_iff in I as (v & Ev & I). apply in_seq in I. exists v. split; [lia|exact Ev]. }
        destruct Su as (v & Lv & Ev). exists v. destruct (Im v Lv) as [E1 E2]. split; [exact Lv|]. rewrite E1, E2, Ev. split; [exact E|].
        rewrite <- Ev, (C125_act nv e a v Ve Lv) in T. rewrite <- B. destruct (snd (image e v)), (Nat.testbit a v); cbn in *; congruence.
Qed.

(** ** Union-find *)
Definition down (p : nat -> nat) : Prop := forall x, p x <= x.
Inductive rt (p : nat -> nat) : nat -> nat -> Prop :=
| rt_root r : p r = r -> rt p r r
| rt_step x r : p x <> x -> rt p (p x) r -> rt p x r.
Lemma rt_det p x r s : rt p x r -> rt p x s -> r = s.
Proof. intros H. revert s. induction H as [r E | x r N H IH]; intros s H'; inversion H'; subst; try congruence. apply IH. assumption. Qed.
Lemma rt_is_root p x r : rt p x r -> p r = r.
Proof. induction 1; assumption. Qed.
Lemma rt_le p x r : down p -> rt p x r -> r <= x.
Proof. intros D. induction 1 as [|x r N H IH]; [lia|]. specialize (D x). lia. Qed.
Lemma rt_total p x : down p -> exists r, rt p x r.
Proof.
  intros D. induction x as [x IH] using lt_wf_ind. destruct (Nat.eq_dec (p x) x) as [E | N]; [exists x; constructor; exact E|].
  specialize (D x). destruct (IH (p x)) as [r R]; [lia|]. exists r. apply rt_step; assumption.
Qed.
Lemma climb_spec fuel : forall p x, down p -> x < fuel -> rt p x (climb fuel p x).
Proof.
  induction fuel as [|f IH]; intros p x D L; [lia|]. cbn [climb]. destruct (Nat.eqb_spec (p x) x) as [E | N]; [constructor; exact E|].
  apply rt_step; [exact N|]. apply IH; [exact D|]. specialize (D x). lia.
Qed.
Definition same_roots (p p' : nat -> nat) : Prop := down p' /\ forall y s, rt p' y s <-> rt p y s.
Lemma same_roots_intro p p' : down p -> down p' -> (forall y s, rt p y s -> rt p' y s) -> same_roots p p'.
Proof.
  intros D D' H. split; [exact D'|]. intros y s. split; [|apply H]. intros R'. destruct (rt_total p y D) as [s0 R0].
  rewrite (rt_det p' y s s0 R' (H y s0 R0)). exact R0.
Qed.
Lemma shortcut p c r : down p -> rt p c r -> c <> r -> same_roots p (upd p c r).
Proof.
  intros D R N. assert (Nc : p c <> c) by (inversion R; subst; congruence). pose proof (rt_is_root p c r R) as Rr.
  assert (Rr' : upd p c r r = r) by (unfold upd; destruct (Nat.eqb_spec r c); congruence).
  apply same_roots_intro; [exact D| |].
  - intros x. unfold upd. destruct (Nat.eqb_spec x c) as [-> | _]; [apply (rt_le p c r D R)|apply D].
  - intros y s H. induction H as [s E | y s Ny H IH].
    + apply rt_root. unfold upd. destruct (Nat.eqb_spec s c) as [-> |]; [congruence|exact E].
    + destruct (Nat.eq_dec y c) as [-> | Ne].
      * assert (s = r) by (apply (rt_det p c); [apply rt_step; assumption|exact R]). subst s.
        assert (U : upd p c r c = r) by (unfold upd; rewrite Nat.eqb_refl; reflexivity).
        apply rt_step; [rewrite U; congruence|]. rewrite U. apply rt_root, Rr'.
      * assert (U : upd p c r y = p y) by (unfold upd; destruct (Nat.eqb_spec y c); congruence). apply rt_step; rewrite U; assumption.
Qed.
Lemma compress_spec fuel : forall p c r, down p -> rt p c r -> c < fuel -> same_roots p (compress fuel p c r).
Proof.
  induction fuel as [|f IH]; intros p c r D R L; [lia|]. cbn [compress]. destruct (Nat.eqb_spec (p c) r) as [E | N].
  - split; [exact D|reflexivity].
  - assert (Nc : p c <> c) by (inversion R; subst; congruence).
    assert (Nr : c <> r) by (intros ->; apply N, (rt_is_root p r r R)).
    assert (Rn : rt p (p c) r) by (inversion R; subst; [congruence|assumption]).
    destruct (shortcut p c r D R Nr) as [D' S].
    destruct (IH (upd p c r) (p c) r D') as [D'' S'']; [apply S, Rn|specialize (D c); lia|]. split; [exact D''|]. intros y s. rewrite S'', S. reflexivity.
Qed.
Lemma find_spec p x p' r : down p -> find p x = (p', r) -> rt p x r /\ same_roots p p'.
Proof.
  intros D E. assert (R : rt p x (climb (S x) p x)) by (apply climb_spec; [exact D|lia]).
  assert (S : same_roots p (compress (S x) p x (climb (S x) p x))) by (apply compress_spec; [exact D|exact R|lia]).
  unfold find in E. cbv zeta in E. remember (climb (Datatypes.S x) p x) as r0 eqn:Er. remember (compress (Datatypes.S x) p x r0) as p0 eqn:Ep.
  assert (p0 = p' /\ r0 = r) as [<- <-] by (split; congruence). auto.
Qed.

(** Linking the larger root below the smaller one. *)
Lemma link p lo hi : down p -> p lo = lo -> p hi = hi -> lo < hi ->
  down (upd p hi lo) /\ forall y s, rt p y s -> rt (upd p hi lo) y (if s =? hi then lo else s).
Proof.
  intros D El Eh L. split.
  - intros x. unfold upd. destruct (Nat.eqb_spec x hi) as [-> |]; [lia|apply D].
  - assert (Ul : upd p hi lo lo = lo) by (unfold upd; destruct (Nat.eqb_spec lo hi); [lia|exact El]).
    intros y s H. induction H as [s E | y s N H IH].
    + destruct (Nat.eqb_spec s hi) as [-> | Ne].
      * assert (U : upd p hi lo hi = lo) by (unfold upd; rewrite Nat.eqb_refl; reflexivity). apply rt_step; rewrite U; [lia|apply rt_root, Ul].
      * apply rt_root. unfold upd. destruct (Nat.eqb_spec s hi); [contradiction|exact E].
    + assert (U : upd p hi lo y = p y) by (unfold upd; destruct (Nat.eqb_spec y hi); congruence). apply rt_step; rewrite U; assumption.
Qed.

(** The invariant: the classes of the forest are the components of the relation [R]. *)
Definition forest (R : nat -> nat -> Prop) (p : nat -> nat) : Prop :=
  down p /\ forall x y, (exists r, rt p x r /\ rt p y r) <-> clos_refl_sym_trans _ R x y.

Lemma forest_same R p p' : same_roots p p' -> forest R p -> forest R p'.
Proof.
  intros [D' S] [_ F]. split; [exact D'|]. intros x y. rewrite <- F. split; intros (r & A & B); exists r; split; apply S; assumption.
Qed.
Lemma clos_ext (R R' : nat -> nat -> Prop) : (forall x y, R x y <-> R' x y) -> forall x y, clos_refl_sym_trans _ R x y -> clos_refl_sym_trans _ R' x y.
Proof.
  intros E x y H. induction H as [x y H | x | x y H IH | x y z H IH H' IH']; [apply rst_step, E, H|apply rst_refl|apply rst_sym, IH|eapply rst_trans; eassumption].
Qed.
Lemma forest_ext R R' p : (forall x y, R x y <-> R' x y) -> forest R p -> forest R' p.
Proof.
  intros E [D F]. split; [exact D|]. intros x y. rewrite F. split; apply clos_ext; [exact E|]. intros u v. symmetry. apply E.
Qed.
Lemma forest_link R p a b ra rb lo hi : forest R p -> rt p a ra -> rt p b rb -> (lo = ra /\ hi = rb \/ lo = rb /\ hi = ra) -> lo < hi ->
  forest (fun x y => R x y \/ (x = a /\ y = b)) (upd p hi lo).
Proof.
  intros [D F] Ra Rb O L.
  assert (El : p lo = lo) by (destruct O as [[-> _] | [-> _]]; eapply rt_is_root; eassumption).
  assert (Eh : p hi = hi) by (destruct O as [[_ ->] | [_ ->]]; eapply rt_is_root; eassumption).
  destruct (link p lo hi D El Eh L) as [D' Lk]. split; [exact D'|].
  set (R' := fun x y => R x y \/ (x = a /\ y = b)).
  assert (Mono : forall x y, clos_refl_sym_trans _ R x y -> clos_refl_sym_trans _ R' x y).
  { intros x y H. induction H as [x y H | x | x y H IH | x y z H IH H' IH']; [apply rst_step; left; exact H|apply rst_refl|apply rst_sym, IH|eapply rst_trans; eassumption]. }
  assert (Root : forall x r, rt p x r -> clos_refl_sym_trans _ R' x r).
  { intros x r H. apply Mono, F. exists r. split; [exact H|]. apply rt_root, (rt_is_root p x r H). }
  assert (LH : clos_refl_sym_trans _ R' lo hi).
  { assert (AB : clos_refl_sym_trans _ R' ra rb).
    { eapply rst_trans; [apply rst_sym, Root, Ra|]. eapply rst_trans; [apply rst_step; right; split; reflexivity|apply Root, Rb]. }
    destruct O as [[-> ->] | [-> ->]]; [exact AB|apply rst_sym, AB]. }
  intros x y. split.
  - intros (r & A & B). destruct (rt_total p x D) as [sx Sx]. destruct (rt_total p y D) as [sy Sy].
    pose proof (rt_det _ _ _ _ A (Lk x sx Sx)) as E1. pose proof (rt_det _ _ _ _ B (Lk y sy Sy)) as E2.
    assert (Hx : clos_refl_sym_trans _ R' x r).
    { eapply rst_trans; [apply Root, Sx|]. rewrite E1. destruct (Nat.eqb_spec sx hi) as [-> |]; [apply rst_sym, LH|apply rst_refl]. }
    assert (Hy : clos_refl_sym_trans _ R' y r).
    { eapply rst_trans; [apply Root, Sy|]. rewrite E2. destruct (Nat.eqb_spec sy hi) as [-> |]; [apply rst_sym, LH|apply rst_refl]. }
    eapply rst_trans; [exact Hx|apply rst_sym, Hy].
  - intros H. induction H as [x y [H | [-> ->]] | x | x y H IH | x y z H IH H' IH'].
    + assert (E : exists r, rt p x r /\ rt p y r) by (apply F, rst_step, H). destruct E as (r & A & B). eexists. split; apply Lk; eassumption.
    + exists lo. split.
      * pose proof (Lk a ra Ra) as H. destruct O as [[-> ->] | [-> ->]]; [destruct (Nat.eqb_spec ra rb); [lia|exact H]|rewrite Nat.eqb_refl in H; exact H].
      * pose proof (Lk b rb Rb) as H. destruct O as [[-> ->] | [-> ->]]; [rewrite Nat.eqb_refl in H; exact H|destruct (Nat.eqb_spec rb ra); [lia|exact H]].
    + destruct (rt_total (upd p hi lo) x D') as [r A]. exists r. auto.
    + destruct IH as (r & A & B). exists r. auto.
    + destruct IH as (r & A & B). destruct IH' as (s & A' & B'). assert (r = s) by (eapply rt_det; eassumption). subst. exists s. auto.
Qed.
Lemma union_spec R nv a p g : forest R p -> forest (fun x y => R x y \/ (x = a /\ y = act nv g a)) (union nv a p g).
Proof.
  intros Fo. unfold union. set (b := act nv g a). destruct (find p a) as [p1 ra] eqn:E1. destruct (find p1 b) as [p2 rb] eqn:E2.
  destruct (find_spec p a p1 ra (proj1 Fo) E1) as [Ra S1]. pose proof (forest_same R p p1 S1 Fo) as F1.
  destruct (find_spec p1 b p2 rb (proj1 F1) E2) as [Rb S2]. pose proof (forest_same R p1 p2 S2 F1) as F2.
  assert (Ra2 : rt p2 a ra) by (apply (proj2 S2), (proj2 S1), Ra). assert (Rb2 : rt p2 b rb) by (apply (proj2 S2), Rb).
  destruct (Nat.eqb_spec ra rb) as [<- | Ne].
  - destruct F2 as [D F]. split; [exact D|].
    assert (AB : clos_refl_sym_trans _ R a b) by (apply F; exists ra; auto).
    intros x y. rewrite F. split; intros H; induction H as [x y H | x | x y H IH | x y z H IH H' IH']; try (apply rst_refl); try (apply rst_sym, IH); try (eapply rst_trans; eassumption).
    + apply rst_step. left. exact H.
    + destruct H as [H | [-> ->]]; [apply rst_step, H|exact AB].
  - destruct (Nat.ltb_spec ra rb) as [L | L].
    + apply (forest_link R p2 a b ra rb ra rb F2 Ra2 Rb2); auto.
    + apply (forest_link R p2 a b ra rb rb ra F2 Ra2 Rb2); auto. lia.
Qed.

(** ** The theorems *)
(** One application of a generator to an assignment over [nv] variables, and the components it generates. *)
Definition moves (nv : nat) (gens : list perm) (a b : nat) : Prop := a < 2 ^ nv /\ exists g, In g gens /\ b = act nv g a.
Definition connected (nv : nat) (gens : list perm) : nat -> nat -> Prop := clos_refl_sym_trans _ (moves nv gens).

Lemma merge_gens nv a gens : forall R p, forest R p -> forest (fun x y => R x y \/ (x = a /\ exists g, In g gens /\ y = act nv g a)) (fold_left (union nv a) gens p).
Proof.
  induction gens as [|g gens IH]; intros R p F; cbn [fold_left].
  - eapply forest_ext; [|exact F]. intros x y. split; [auto|]. intros [H | (_ & g & [] & _)]. exact H.
  - eapply forest_ext; [|apply IH, union_spec, F]. intros x y. cbn. split.
    + intros [[H | [-> ->]] | (-> & h & I & ->)]; [auto|right; split; [reflexivity|]; exists g; auto|right; split; [reflexivity|]; exists h; auto].
    + intros [H | (-> & h & [<- | I] & ->)]; [auto|auto|right; split; [reflexivity|]; exists h; auto].
Qed.
Lemma merge_list nv gens l : forall R p, forest R p ->
  forest (fun x y => R x y \/ (In x l /\ exists g, In g gens /\ y = act nv g x)) (fold_left (fun p a => fold_left (union nv a) gens p) l p).
Proof.
  induction l as [|a l IH]; intros R p F; cbn [fold_left].
  - eapply forest_ext; [|exact F]. intros x y. split; [auto|]. intros [H | ([] & _)]. exact H.
  - eapply forest_ext; [|apply IH, merge_gens, F]. intros x y. cbn. split.
    + intros [[H | (-> & H)] | (I & H)]; [auto|right; split; [left; reflexivity|exact H]|right; split; [right; exact I|exact H]].
    + intros [H | ([<- | I] & H)]; auto.
Qed.
Lemma merged nv gens : forest (moves nv gens) (merge_all nv gens).
Proof.
  eapply forest_ext; [|apply (merge_list nv gens (seq 0 (2 ^ nv)) (fun _ _ => False))].
  - intros x y. cbv beta. rewrite in_seq. unfold moves. split; [intros [[] | (I & H)]; split; [lia|exact H]|]. intros (L & H). right. split; [lia|exact H].
  - split; [intros x; lia|]. intros x y. split.
    + intros (r & A & B). assert (forall z, rt (fun x => x) z r -> z = r) as E by (intros z Z; inversion Z; subst; congruence). rewrite (E x A), (E y B). apply rst_refl.
    + intros H. assert (x = y) as -> by (induction H; congruence || contradiction). exists y. split; constructor; reflexivity.
Qed.
Lemma find_all_spec xs : forall p, down p -> length (find_all p xs) = length xs /\ forall i, i < length xs -> rt p (nth i xs 0) (nth i (find_all p xs) 0).
Proof.
  induction xs as [|x xs IH]; intros p D; [split; [reflexivity|]; cbn; lia|]. cbn [find_all]. destruct (find p x) as [p' r] eqn:E.
  destruct (find_spec p x p' r D E) as [R [D' S]]. destruct (IH p' D') as [L N]. split; [cbn; lia|]. intros [|i] H; cbn [nth].
  - exact R.
  - apply S, N. cbn in H. lia.
Qed.

Lemma orbits_rt nv gens : length (orbits nv gens) = 2 ^ nv /\ forall a, a < 2 ^ nv -> rt (merge_all nv gens) a (nth a (orbits nv gens) 0).
Proof.
  destruct (merged nv gens) as [D _]. destruct (find_all_spec (seq 0 (2 ^ nv)) _ D) as [L N]. rewrite seq_length in L, N. split; [exact L|].
  intros a La. specialize (N a La). rewrite seq_nth in N by exact La. exact N.
Qed.

(** [orbits()[a]] is the smallest assignment connected to [a]; two assignments have the same one exactly when connected. *)
Theorem C125_orbits nv gens : length (orbits nv gens) = 2 ^ nv /\ forall a, a < 2 ^ nv ->
  connected nv gens a (nth a (orbits nv gens) 0) /\ (forall b, connected nv gens a b -> nth a (orbits nv gens) 0 <= b) /\
  forall b, b < 2 ^ nv -> (nth a (orbits nv gens) 0 = nth b (orbits nv gens) 0 <-> connected nv gens a b).
Proof.
  destruct (orbits_rt nv gens) as [L R]. destruct (merged nv gens) as [D F]. split; [exact L|]. intros a La. pose proof (R a La) as Ra. repeat split.
  - apply F. exists (nth a (orbits nv gens) 0). split; [exact Ra|]. apply rt_root, (rt_is_root _ a _ Ra).
  - intros b C. apply F in C as (r & A & B). rewrite (rt_det _ _ _ _ Ra A). exact (rt_le _ b r D B).
  - intros E. apply F. exists (nth a (orbits nv gens) 0). split; [exact Ra|]. rewrite E. apply R, H.
  - intros C. apply F in C as (r & A & B). rewrite (rt_det _ _ _ _ Ra A). symmetry. exact (rt_det _ _ _ _ (R b H) B).
Qed.

(** For literal permutations the components are the orbits: no inverse generators and no intermediate steps outside the
    range are needed. *)
Lemma connected_range nv gens a b : (forall g, In g gens -> valid nv g) -> connected nv gens a b -> a = b \/ (a < 2 ^ nv /\ b < 2 ^ nv).
Proof.
  intros V H. induction H as [x y (L & g & I & ->) | x | x y H IH | x y z H IH H' IH'].
  - right. split; [exact L|]. apply act_range. apply (V g I).
  - auto.
  - destruct IH as [-> | [A B]]; auto.
  - destruct IH as [-> | [A B]], IH' as [<- | [A' B']]; auto.
Qed.

(** [num_orbits]: the number of components among the assignments. *)
Theorem C125_num_orbits nv gens : (forall g, In g gens -> valid nv g) -> exists reps, NoDup reps /\ length reps = num_orbits nv gens /\
  (forall r, In r reps -> r < 2 ^ nv) /\ (forall a, a < 2 ^ nv -> exists r, In r reps /\ connected nv gens a r) /\
  (forall r s, In r reps -> In s reps -> connected nv gens r s -> r = s).
Proof.
  intros V. destruct (C125_orbits nv gens) as [L O]. exists (nodup Nat.eq_dec (orbits nv gens)).
  assert (Rep : forall r, In r (orbits nv gens) -> exists a, a < 2 ^ nv /\ r = nth a (orbits nv gens) 0).
  { intros r I. apply (In_nth _ _ 0) in I as (a & La & <-). exists a. split; [lia|reflexivity]. }
  assert (Lt : forall a, a < 2 ^ nv -> nth a (orbits nv gens) 0 < 2 ^ nv).
  { intros a La. destruct (O a La) as (C & _). destruct (connected_range nv gens _ _ V C) as [<- | [_ H]]; assumption. }
  split; [apply NoDup_nodup|]. split; [reflexivity|]. split; [|split].
  - intros r I. apply nodup_In in I. destruct (Rep r I) as (a & La & ->). apply Lt, La.
  - intros a La. exists (nth a (orbits nv gens) 0). split; [apply nodup_In, nth_In; lia|]. exact (proj1 (O a La)).
  - intros r s Ir Is C. apply nodup_In in Ir. apply nodup_In in Is. destruct (Rep r Ir) as (a & La & ->). destruct (Rep s Is) as (b & Lb & ->).
    apply (proj2 (proj2 (O a La)) b Lb). destruct (O a La) as (Ca & _). destruct (O b Lb) as (Cb & _).
    eapply rst_trans; [exact Ca|]. eapply rst_trans; [exact C|]. apply rst_sym, Cb.
Qed.
(** [orbit_size]: the number of assignments connected to [a]. *)
Theorem C125_orbit_size nv gens a : (forall g, In g gens -> valid nv g) -> a < 2 ^ nv ->
  exists orb, NoDup orb /\ length orb = orbit_size nv gens a /\ forall b, In b orb <-> connected nv gens a b.
Proof.
  intros V La. destruct (C125_orbits nv gens) as [L O].
  exists (filter (fun b => nth b (orbits nv gens) 0 =? nth a (orbits nv gens) 0) (seq 0 (2 ^ nv))). split; [apply NoDup_filter, seq_NoDup|]. split.
  - unfold orbit_size. rewrite <- L. generalize (nth a (orbits nv gens) 0). generalize (orbits nv gens). clear. intros l r.
    enough (G : forall l off, length (filter (fun b => nth (b - off) l 0 =? r) (seq off (length l))) = length (filter (fun x => x =? r) l)).
    { rewrite <- (G l 0). f_equal. apply filter_ext. intros b. rewrite Nat.sub_0_r. reflexivity. }
    clear l. induction l as [|x l IH]; intros off; [reflexivity|]. cbn [length seq filter]. rewrite Nat.sub_diag. cbn [nth].
    assert (E : length (filter (fun b => nth (b - off) (x :: l) 0 =? r) (seq (S off) (length l))) = length (filter (fun x => x =? r) l)).
    { rewrite <- (IH (S off)). f_equal. apply filter_ext_in. intros b I. apply in_seq in I. replace (b - off) with (S (b - S off)) by lia. reflexivity. }
    destruct (x =? r); cbn [length]; [apply f_equal|]; exact E.
  - intros b. rewrite filter_In, in_seq, Nat.eqb_eq. split.
    + intros [I E]. apply (proj2 (proj2 (O a La)) b); [lia|auto].
    + intros C. assert (Lb : b < 2 ^ nv) by (destruct (connected_range nv gens a b V C) as [<- | [_ H]]; assumption). split; [lia|]. symmetry.
      apply (proj2 (proj2 (O a La)) b Lb), C.
Qed.

(** ** Example: two variables; exchanging them leaves three orbits, adding a sign flip leaves one. *)
Definition swap2 : perm := [(1, true); (0, true)].
Definition flip2 : perm := [(0, false); (1, true)].
Example C125_example : valid 2 swap2 /\ valid 2 flip2 /\ orbits 2 [swap2] = [0; 1; 1; 3] /\ num_orbits 2 [swap2] = 3 /\
  orbits 2 [swap2; flip2] = [0; 0; 0; 0] /\ orbit_size 2 [swap2] 2 = 2 /\ act 2 (compose swap2 flip2) 0 = 2 /\ act 2 swap2 1 = 2 /\
  stabilizer_size 2 0 [identity 2; swap2] = 2.
Proof.
  assert (V : valid 2 swap2 /\ valid 2 flip2).
  { split; (split; [reflexivity|]; split; [intros [|[|v]] L; cbn; lia|intros [|[|v]] [|[|u]] L L' E; cbn in E; lia]). }
  destruct V as [V1 V2]. split; [exact V1|]. split; [exact V2|]. vm_compute. auto 10.
Qed.
