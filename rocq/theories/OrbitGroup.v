(** C126: the generated group and the orbit-stabiliser equation. *)
From Coq Require Import List Arith Bool Lia Relations Permutation.
From Verif Require Import OrbitModel OrbitProps.
Import ListNotations.

(** The products of generators. *)
Inductive generated (nv : nat) (gens : list perm) : perm -> Prop :=
| gen_one : generated nv gens (identity nv)
| gen_mul g e : In g gens -> generated nv gens e -> generated nv gens (compose g e).

Lemma nodup_snoc (m : perm) s : ~ In m s -> NoDup s -> NoDup (s ++ [m]).
Proof. intros N D. apply NoDup_Add with (a := m) (l := s); [|auto]. rewrite <- (app_nil_r s) at 1. apply Add_app. Qed.

Lemma round_spec cap (P : perm -> Prop) pairs : forall elems next,
  (forall e g, In (e, g) pairs -> P (compose g e)) -> NoDup elems -> (forall x, In x elems -> P x) -> length elems < cap ->
  match round cap pairs elems next with
  | inl (elems', next') => exists new, elems' = elems ++ new /\ next' = next ++ new /\ NoDup elems' /\ (forall x, In x elems' -> P x) /\ length elems' < cap /\
      forall e g, In (e, g) pairs -> In (compose g e) elems'
  | inr elems' => NoDup elems' /\ (forall x, In x elems' -> P x) /\ incl elems elems' /\ length elems' = cap
  end.
Proof.
  induction pairs as [|[e g] pairs IH]; intros elems next Pp N Pe L; cbn [round].
  - exists []. rewrite !app_nil_r. split; [reflexivity|]. split; [reflexivity|]. split; [exact N|]. split; [exact Pe|]. split; [exact L|]. intros ? ? [].
  - cbv zeta. destruct (in_dec perm_dec (compose g e) elems) as [I | Ni].
    + specialize (IH elems next (fun e g H => Pp e g (or_intror H)) N Pe L). destruct (round cap pairs elems next) as [[elems' next']|elems'].
      * destruct IH as (new & -> & -> & A & B & C & D). exists new. split; [reflexivity|]. split; [reflexivity|]. split; [exact A|]. split; [exact B|]. split; [exact C|].
        intros e' g' [[= <- <-] | J]; [apply in_app_iff; left; exact I|auto].
      * exact IH.
    + assert (N' : NoDup (elems ++ [compose g e])) by (apply nodup_snoc; assumption).
      assert (P' : forall x, In x (elems ++ [compose g e]) -> P x).
      { intros x J. apply in_app_iff in J as [J | [<- | []]]; [auto|]. apply Pp. left. reflexivity. }
      assert (Le : length (elems ++ [compose g e]) = S (length elems)) by (rewrite app_length; cbn; lia).
      destruct (Nat.leb_spec cap (length (elems ++ [compose g e]))) as [G | G].
      * split; [exact N'|]. split; [exact P'|]. split; [intros x J; apply in_app_iff; auto|]. lia.
      * specialize (IH (elems ++ [compose g e]) (next ++ [compose g e]) (fun e g H => Pp e g (or_intror H)) N' P' G).
        destruct (round cap pairs (elems ++ [compose g e]) (next ++ [compose g e])) as [[elems' next']|elems'].
        -- destruct IH as (new & -> & -> & A & B & C & D). exists (compose g e :: new). rewrite <- !app_assoc. split; [reflexivity|]. split; [reflexivity|].
           rewrite <- app_assoc in A, B, C, D. split; [exact A|]. split; [exact B|]. split; [exact C|].
           intros e' g' [[= <- <-] | J]; [apply in_app_iff; right; left; reflexivity|auto].
        -- destruct IH as (A & B & C & D). split; [exact A|]. split; [exact B|]. split; [|exact D]. intros x J. apply C, in_app_iff. auto.
Qed.

Lemma bfs_spec cap nv gens fuel : forall elems frontier,
  NoDup elems -> (forall x, In x elems -> generated nv gens x) -> In (identity nv) elems -> incl frontier elems ->
  (forall e g, In e elems -> ~ In e frontier -> In g gens -> In (compose g e) elems) ->
  (frontier = [] \/ length elems < cap \/ cap <= length elems) -> (frontier <> [] -> 2 + (cap - length elems) <= fuel) -> 1 <= fuel ->
  exists out, bfs fuel cap gens elems frontier = Some out /\ NoDup out /\ (forall x, In x out -> generated nv gens x) /\ In (identity nv) out /\
    (length out < cap -> forall e g, In e out -> In g gens -> In (compose g e) out).
Proof.
  induction fuel as [|f IH]; intros elems frontier N G I F C _ Lf L1; [lia|]. cbn [bfs]. destruct frontier as [|e0 fr].
  - exists elems. split; [reflexivity|]. split; [exact N|]. split; [exact G|]. split; [exact I|]. intros _ e g Ie. apply C; [exact Ie|intros []].
  - set (frontier := e0 :: fr) in *. destruct (Nat.ltb_spec (length elems) cap) as [L | L].
    2:{ exists elems. split; [reflexivity|]. split; [exact N|]. split; [exact G|]. split; [exact I|]. intros L'. lia. }
    pose proof (round_spec cap (generated nv gens) (list_prod frontier gens) elems []) as R.
    destruct (round cap (list_prod frontier gens) elems []) as [[elems' next']|elems'].
    + destruct R as (new & -> & -> & A & B & C' & D); [|exact N|exact G|exact L|].
      { intros e g J. apply in_prod_iff in J as [J1 J2]. apply gen_mul; [exact J2|]. apply G, F, J1. }
      cbn [app]. apply IH.
      * exact A.
      * exact B.
      * apply in_app_iff. left. exact I.
      * intros x J. apply in_app_iff. right. exact J.
      * intros e g Ie Ne Ig. destruct (in_dec perm_dec e frontier) as [J | J].
        -- apply D. apply in_prod_iff. auto.
        -- apply in_app_iff. left. apply C; [|exact J|exact Ig]. apply in_app_iff in Ie as [Ie | Ie]; [exact Ie|contradiction].
      * right. left. exact C'.
      * intros Nn. assert (Hf : 2 + (cap - length elems) <= S f) by (apply Lf; discriminate). rewrite app_length in *. destruct new; [congruence|]. cbn [length] in *. lia.
      * assert (Hf : 2 + (cap - length elems) <= S f) by (apply Lf; discriminate). lia.
    + destruct R as (A & B & C' & D); [|exact N|exact G|exact L|].
      { intros e g J. apply in_prod_iff in J as [J1 J2]. apply gen_mul; [exact J2|]. apply G, F, J1. }
      exists elems'. split; [reflexivity|]. split; [exact A|]. split; [exact B|]. split; [apply C', I|]. intros L'. lia.
Qed.

(** [group_elements] always returns distinct products of generators, among them the identity; below the cap it returns all
    of them. *)
Theorem C126_group nv gens cap : exists group, group_elements nv gens cap = Some group /\ NoDup group /\ In (identity nv) group /\
  (forall g, In g group -> generated nv gens g) /\ (length group < cap -> forall g, generated nv gens g -> In g group).
Proof.
  destruct (bfs_spec cap nv gens (S (S cap)) [identity nv] [identity nv]) as (out & E & N & G & I & C).
  - constructor; [intros []|constructor].
  - intros x [<- | []]. constructor.
  - left. reflexivity.
  - apply incl_refl.
  - intros e g [<- | []] Ne. elim Ne. left. reflexivity.
  - lia.
  - intros _. cbn [length]. lia.
  - lia.
  - exists out. split; [exact E|]. split; [exact N|]. split; [exact I|]. split; [exact G|]. intros L g H. induction H as [|g e Ig H IH]; [exact I|]. apply C; assumption.
Qed.

(** ** Orbit and stabiliser *)
Lemma identity_valid nv : valid nv (identity nv).
Proof.
  split; [unfold identity; rewrite map_length, seq_length; reflexivity|]. unfold identity. split.
  - intros v L. rewrite image_map by exact L. exact L.
  - intros v u L L'. rewrite !image_map by assumption. auto.
Qed.
Lemma generated_valid nv gens g : (forall h, In h gens -> valid nv h) -> generated nv gens g -> valid nv g.
Proof. intros V H. induction H as [|h e I H IH]; [apply identity_valid|]. exact (proj1 (C125_act_compose nv h e 0 (V h I) IH)). Qed.

Lemma perm_ext nv (g h : perm) : length g = nv -> length h = nv -> (forall v, v < nv -> image g v = image h v) -> g = h.
Proof. intros Lg Lh E. apply (nth_ext g h (0, true) (0, true)); [congruence|]. intros v L. apply E. lia. Qed.
Lemma apply_inj nv g : valid nv g -> forall l k, fst l < nv -> fst k < nv -> apply g l = apply g k -> l = k.
Proof.
  intros (_ & _ & I) [v s] [u t] Lv Lu E. cbn [fst] in *. unfold apply in E. cbn [fst snd] in E.
  assert (v = u) as ->. { apply I; [exact Lv|exact Lu|]. pose proof (f_equal fst E) as Ef. destruct s, t; exact Ef. }
  destruct s, t; try reflexivity; exfalso; destruct (image g u) as [w [|]]; cbn in E; congruence.
Qed.
Lemma apply_range nv g l : valid nv g -> fst l < nv -> fst (apply g l) < nv.
Proof. intros (_ & R & _) L. unfold apply. destruct (snd l); cbn [fst]; apply R, L. Qed.
Lemma compose_assoc nv g h e : valid nv g -> valid nv h -> valid nv e -> compose g (compose h e) = compose (compose g h) e.
Proof.
  intros Vg Vh Ve. pose proof (proj1 (C125_act_compose nv h e 0 Vh Ve)) as Vhe. pose proof (proj1 (C125_act_compose nv g h 0 Vg Vh)) as Vgh.
  apply (perm_ext nv).
  - exact (proj1 (proj1 (C125_act_compose nv g (compose h e) 0 Vg Vhe))).
  - exact (proj1 (proj1 (C125_act_compose nv (compose g h) e 0 Vgh Ve))).
  - intros v L. rewrite (compose_image nv) by (exact (proj1 Vg) || exact L). rewrite (compose_image nv) by (exact (proj1 Vh) || exact L).
    rewrite (compose_image nv) by (exact (proj1 Vgh) || exact L).
    assert (Lv : fst (image e v) < nv) by (apply Ve, L). destruct (image e v) as [u s]. cbn [fst] in Lv. unfold apply at 3. cbn [fst snd].
    rewrite (compose_image nv) by (exact (proj1 Vg) || exact Lv). unfold apply. cbn [fst snd]. destruct s; [reflexivity|]. cbn [fst snd].
    destruct (snd (image h u)); cbn [negb fst snd]; [reflexivity|]. destruct (image g (fst (image h u))); cbn; rewrite negb_involutive; reflexivity.
Qed.
Lemma compose_identity_l nv e : valid nv e -> compose (identity nv) e = e.
Proof.
  intros Ve. apply (perm_ext nv); [exact (proj1 (proj1 (C125_act_compose nv _ e 0 (identity_valid nv) Ve)))|exact (proj1 Ve)|]. intros v L.
  rewrite (compose_image nv) by (exact (proj1 (identity_valid nv)) || exact L). assert (Lv : fst (image e v) < nv) by (apply Ve, L). destruct (image e v) as [u s]. cbn [fst] in Lv.
  unfold apply. cbn [fst snd]. unfold identity. rewrite image_map by exact Lv. destruct s; reflexivity.
Qed.
Lemma generated_mul nv gens g h : (forall k, In k gens -> valid nv k) -> generated nv gens g -> generated nv gens h -> generated nv gens (compose g h).
Proof.
  intros V Hg Hh. pose proof (generated_valid nv gens h V Hh) as Vh. induction Hg as [|k e I H IH]; [rewrite compose_identity_l by exact Vh; exact Hh|].
  rewrite <- (compose_assoc nv); [apply gen_mul; assumption|apply V, I|apply (generated_valid nv gens e V H)|exact Vh].
Qed.
Lemma left_cancel nv g h k : valid nv g -> valid nv h -> valid nv k -> compose g h = compose g k -> h = k.
Proof.
  intros Vg Vh Vk E. apply (perm_ext nv); [exact (proj1 Vh)|exact (proj1 Vk)|]. intros v L. apply (apply_inj nv g Vg); [apply Vh, L|apply Vk, L|].
  rewrite <- !(compose_image nv) by (exact (proj1 Vg) || exact L). rewrite E. reflexivity.
Qed.

(** An injective map of a finite list into itself is onto. *)
Lemma onto (l : list perm) (f : perm -> perm) : NoDup l -> (forall x, In x l -> In (f x) l) -> (forall x y, In x l -> In y l -> f x = f y -> x = y) ->
  forall y, In y l -> exists x, In x l /\ f x = y.
Proof.
  intros N M I y Iy.
  assert (Nf : NoDup (map f l)).
  { clear y Iy M. induction l as [|x l IH]; [constructor|]. inversion N; subst. cbn. constructor.
    - intros J. apply in_map_iff in J as (z & E & J). apply I in E; [subst; contradiction|right; exact J|left; reflexivity].
    - apply IH; [assumption|]. intros u v Iu Iv. apply I; right; assumption. }
  assert (J : In y (map f l)).
  { apply (@NoDup_length_incl perm (map f l) l Nf); [rewrite map_length; lia| |exact Iy]. intros z J. apply in_map_iff in J as (x & <- & J). auto. }
  apply in_map_iff in J as (x & E & J). eauto.
Qed.

Section Full.
Variables (nv : nat) (gens group : list perm).
Hypothesis V : forall h, In h gens -> valid nv h.
Hypothesis N : NoDup group.
Hypothesis All : forall g, In g group <-> generated nv gens g.

Lemma group_inverse g : In g group -> exists h, In h group /\ compose g h = identity nv.
Proof.
  intros Ig. assert (Vg : forall x, In x group -> valid nv x) by (intros x Ix; apply (generated_valid nv gens x V), All, Ix).
  apply (onto group (compose g) N).
  - intros x Ix. apply All, generated_mul; [exact V| |]; apply All; assumption.
  - intros x y Ix Iy. apply (left_cancel nv); auto.
  - apply All. constructor.
Qed.
Lemma act_inverse g h a : In g group -> In h group -> a < 2 ^ nv -> compose g h = identity nv -> act nv g (act nv h a) = a.
Proof.
  intros Ig Ih La E. assert (Vg : forall x, In x group -> valid nv x) by (intros x Ix; apply (generated_valid nv gens x V), All, Ix).
  rewrite <- (proj2 (C125_act_compose nv g h a (Vg g Ig) (Vg h Ih))), E. apply C125_act_identity, La.
Qed.
(** The component of [a] is [G a]. *)
Lemma connected_group a b : a < 2 ^ nv -> (connected nv gens a b <-> exists g, In g group /\ act nv g a = b).
Proof.
  intros La. assert (Vg : forall x, In x group -> valid nv x) by (intros x Ix; apply (generated_valid nv gens x V), All, Ix).
  assert (Sym : forall x y, x < 2 ^ nv -> (exists g, In g group /\ act nv g x = y) -> exists g, In g group /\ act nv g y = x).
  { intros x y Lx (g & Ig & <-). destruct (group_inverse g Ig) as (h & Ih & E). destruct (group_inverse h Ih) as (k & Ik & E').
    assert (g = k) as <-.
    { pose proof (compose_assoc nv g h k (Vg g Ig) (Vg h Ih) (Vg k Ik)) as A. rewrite E, E', compose_identity_l in A by auto.
      rewrite <- A. apply (perm_ext nv); [exact (proj1 (Vg _ Ig))| |].
      - exact (proj1 (proj1 (C125_act_compose nv g (identity nv) 0 (Vg g Ig) (identity_valid nv)))).
      - intros v L. rewrite (compose_image nv) by (exact (proj1 (Vg _ Ig)) || exact L). unfold identity. rewrite image_map by exact L. reflexivity. }
    exists h. split; [exact Ih|]. apply act_inverse; assumption. }
  split.
  - intros C.
    assert (G : forall x y, connected nv gens x y -> x = y \/ (x < 2 ^ nv /\ y < 2 ^ nv /\ exists g, In g group /\ act nv g x = y)).
    { intros x y H. induction H as [x y (L & g & I & ->) | x | x y H IH | x y z H IH H' IH'].
      - right. split; [exact L|]. split; [apply act_range, (V g I)|]. exists g. split; [|reflexivity]. apply All.
        assert (E : compose g (identity nv) = g).
        { apply (perm_ext nv); [|exact (proj1 (V g I))|].
          - exact (proj1 (proj1 (C125_act_compose nv g (identity nv) 0 (V g I) (identity_valid nv)))).
          - intros v Lv. rewrite (compose_image nv) by (exact (proj1 (V g I)) || exact Lv). unfold identity. rewrite image_map by exact Lv. reflexivity. }
        rewrite <- E. apply gen_mul; [exact I|constructor].
      - auto.
      - destruct IH as [-> | (Lx & Ly & Ex)]; [auto|]. right. split; [exact Ly|]. split; [exact Lx|]. apply Sym; assumption.
      - destruct IH as [-> | (Lx & Ly & g & Ig & E)]; [exact IH'|]. destruct IH' as [<- | (_ & Lz & h & Ih & E')]; [right; eauto|].
        right. split; [exact Lx|]. split; [exact Lz|]. exists (compose h g). split; [apply All, generated_mul; [exact V| |]; apply All; assumption|].
        rewrite (proj2 (C125_act_compose nv h g x (Vg h Ih) (Vg g Ig))), E. exact E'. }
    destruct (G a b C) as [<- | (_ & _ & H)]; [|exact H]. exists (identity nv). split; [apply All; constructor|]. apply C125_act_identity, La.
  - intros (g & Ig & <-). apply All in Ig. induction Ig as [|g e I H IH]; [rewrite C125_act_identity by exact La; apply rst_refl|].
    pose proof (generated_valid nv gens e V H) as Ve. rewrite (proj2 (C125_act_compose nv g e a (V g I) Ve)).
    eapply rst_trans; [exact IH|]. apply rst_step. split; [apply act_range, Ve|]. exists g. auto.
Qed.

Lemma fibre a b : a < 2 ^ nv -> connected nv gens a b ->
  length (filter (fun g => act nv g a =? b) group) = stabilizer_size nv a group.
Proof.
  intros La C. assert (Vg : forall x, In x group -> valid nv x) by (intros x Ix; apply (generated_valid nv gens x V), All, Ix).
  apply (connected_group a b La) in C as (h & Ih & Eh). unfold stabilizer_size.
  rewrite <- (map_length (compose h) (filter (fun g => act nv g a =? a) group)). apply Permutation_length, NoDup_Permutation.
  - apply NoDup_filter, N.
  - assert (Nd : NoDup (filter (fun g => act nv g a =? a) group)) by apply NoDup_filter, N.
    assert (Sub : forall g, In g (filter (fun g => act nv g a =? a) group) -> In g group) by (intros g J; apply filter_In in J; apply J).
    induction (filter (fun g => act nv g a =? a) group) as [|x l IH]; [constructor|]. inversion Nd; subst. cbn. constructor.
    + intros J. apply in_map_iff in J as (z & E & J). apply (left_cancel nv) in E; [subst; contradiction|auto| |]; apply Vg, Sub; [right; exact J|left; reflexivity].
    + apply IH; [assumption|]. intros g J. apply Sub. right. exact J.
  - intros g. rewrite filter_In, in_map_iff, Nat.eqb_eq. split.
    + intros [Ig E]. destruct (onto group (compose h) N) with (y := g) as (x & Ix & Ex).
      * intros x Ix. apply All, generated_mul; [exact V| |]; apply All; assumption.
      * intros x y Ix Iy. apply (left_cancel nv); auto.
      * exact Ig.
      * exists x. split; [exact Ex|]. apply filter_In. split; [exact Ix|]. apply Nat.eqb_eq.
        assert (Hx : act nv h (act nv x a) = act nv h a).
        { rewrite <- (proj2 (C125_act_compose nv h x a (Vg h Ih) (Vg x Ix))), Ex. congruence. }
        destruct (group_inverse h Ih) as (k & Ik & Ek). destruct (group_inverse k Ik) as (k' & Ik' & Ek').
        assert (h = k') as Eq.
        { pose proof (compose_assoc nv h k k' (Vg h Ih) (Vg k Ik) (Vg k' Ik')) as A. rewrite Ek, Ek', compose_identity_l in A by auto.
          rewrite <- A. apply (perm_ext nv); [exact (proj1 (Vg _ Ih))| |].
          - exact (proj1 (proj1 (C125_act_compose nv h (identity nv) 0 (Vg h Ih) (identity_valid nv)))).
          - intros v L. rewrite (compose_image nv) by (exact (proj1 (Vg _ Ih)) || exact L). unfold identity. rewrite image_map by exact L. reflexivity. }
        subst k'. rewrite <- (act_inverse k h (act nv x a) Ik Ih), Hx; [apply act_inverse; assumption|apply act_range, Vg, Ix|exact Ek'].
    + intros (x & <- & J). apply filter_In in J as [Ix Ex]. apply Nat.eqb_eq in Ex. split; [apply All, generated_mul; [exact V| |]; apply All; assumption|].
      rewrite (proj2 (C125_act_compose nv h x a (Vg h Ih) (Vg x Ix))), Ex. exact Eh.
Qed.

Lemma count_fibres (f : perm -> nat) (k : nat) : forall (orb : list nat) (l : list perm), NoDup orb -> (forall g, In g l -> In (f g) orb) ->
  (forall b, In b orb -> length (filter (fun g => f g =? b) l) = k) -> length l = length orb * k.
Proof.
  induction orb as [|b orb IH]; intros l No M Fk.
  - destruct l as [|g l]; [reflexivity|]. destruct (M g (or_introl eq_refl)).
  - inversion No; subst. cbn [length]. rewrite Nat.mul_succ_l, Nat.add_comm, <- (Fk b (or_introl eq_refl)) at 1.
    rewrite <- (IH (filter (fun g => negb (f g =? b)) l)); [|assumption| |].
    + rewrite Nat.add_comm || idtac. clear. induction l as [|g l IHl]; [reflexivity|]. cbn [filter]. destruct (f g =? b); cbn [negb length]; lia.
    + intros g J. apply filter_In in J as [J Ne]. apply negb_true_iff, Nat.eqb_neq in Ne. destruct (M g J); [congruence|assumption].
    + intros c Ic. rewrite <- (Fk c (or_intror Ic)). clear IH Fk M. induction l as [|g l IHl]; [reflexivity|]. cbn [filter].
      destruct (Nat.eqb_spec (f g) b) as [E | E]; cbn [negb filter].
      * destruct (Nat.eqb_spec (f g) c) as [E' | E']; [congruence|exact IHl].
      * destruct (f g =? c); cbn [length]; rewrite IHl; reflexivity.
Qed.
End Full.

(** The size of the orbit times the size of the stabiliser is the size of the group, whenever the group was not cut off by
    the cap. *)
Theorem C126_orbit_stabilizer nv gens cap group a : (forall h, In h gens -> valid nv h) -> group_elements nv gens cap = Some group ->
  length group < cap -> a < 2 ^ nv -> orbit_size nv gens a * stabilizer_size nv a group = length group.
Proof.
  intros V E L La. destruct (C126_group nv gens cap) as (group' & E' & N & _ & G & C). assert (group' = group) by congruence. subst group'.
  assert (All : forall g, In g group <-> generated nv gens g) by (intros g; split; [apply G|apply C, L]).
  destruct (C125_orbit_size nv gens a V La) as (orb & No & <- & Ho). symmetry. apply (count_fibres (fun g => act nv g a)).
  - exact No.
  - intros g Ig. apply Ho, (connected_group nv gens group V N All a _ La). eauto.
  - intros b Ib. apply (fibre nv gens group V N All a b La), Ho, Ib.
Qed.
(** Two assignments are in the same orbit exactly when a group element takes one to the other. *)
Theorem C126_same_orbit nv gens cap group a b : (forall h, In h gens -> valid nv h) -> group_elements nv gens cap = Some group ->
  length group < cap -> a < 2 ^ nv -> b < 2 ^ nv ->
  (nth a (orbits nv gens) 0 = nth b (orbits nv gens) 0 <-> exists g, In g group /\ act nv g a = b).
Proof.
  intros V E L La Lb. destruct (C126_group nv gens cap) as (group' & E' & N & _ & G & C). assert (group' = group) by congruence. subst group'.
  assert (All : forall g, In g group <-> generated nv gens g) by (intros g; split; [apply G|apply C, L]).
  rewrite (proj2 (proj2 (proj2 (C125_orbits nv gens) a La)) b Lb). apply (connected_group nv gens group V N All a b La).
Qed.
(** Cut off by the cap, the equation fails. *)
Theorem C126_capped_refuted : exists nv gens cap group a, (forall h, In h gens -> valid nv h) /\ group_elements nv gens cap = Some group /\ a < 2 ^ nv /\
  orbit_size nv gens a * stabilizer_size nv a group <> length group.
Proof.
  exists 2, [swap2], 1, [identity 2], 1. split; [intros h [<- | []]; apply C125_example|]. split; [vm_compute; reflexivity|]. split; [cbn; lia|]. vm_compute. lia.
Qed.
Example C126_example : exists group, group_elements 2 [swap2; flip2] 100 = Some group /\ length group = 8 /\ orbit_size 2 [swap2; flip2] 1 = 4 /\
  stabilizer_size 2 1 group = 2 /\ group_elements 2 [swap2; flip2] 3 <> None.
Proof. eexists. split; [vm_compute; reflexivity|]. vm_compute. repeat split. discriminate. Qed.
