(** Lemmas on the union-find structure. *)
From Coq Require Import List Arith Lia Relations.
From stdpp Require Import list.
From Verif Require Import UnionFindModel.

(** [root p x r]: following parents from [x] ends in [r]. *)
Inductive root (p : list nat) : nat -> nat -> Prop :=
| root_self x : p !! x = Some x -> root p x x
| root_up x y r : p !! x = Some y -> y <> x -> root p y r -> root p x r.

Lemma root_fun p x r s : root p x r -> root p x s -> r = s.
Proof.
  intros H. revert s. induction H as [x Hx|x y r Hx Hn Hr IH]; intros s Hs; inversion Hs; subst; try congruence.
  apply IH. congruence.
Qed.
Lemma root_is_root p x r : root p x r -> p !! r = Some r.
Proof. induction 1; auto. Qed.
Lemma root_root p x r : root p x r -> root p r r.
Proof. intros H. constructor. now apply root_is_root in H. Qed.
Lemma root_lt p x r : root p x r -> (x < length p)%nat /\ (r < length p)%nat.
Proof. induction 1 as [x Hx|x y r Hx Hn Hr IH]; apply lookup_lt_Some in Hx; intuition lia. Qed.

(** Ranks increase strictly towards the root, and a root of rank [k] has at least [2^k] elements. *)
Record uf_ok (u : uf) : Prop := {
  ok_lens : length (uf_rank u) = length (uf_parent u);
  ok_up : forall x y, uf_parent u !! x = Some y -> y <> x -> exists kx ky, uf_rank u !! x = Some kx /\ uf_rank u !! y = Some ky /\ (kx < ky)%nat;
  ok_size : forall r k, uf_parent u !! r = Some r -> uf_rank u !! r = Some k ->
    exists l, NoDup l /\ (2 ^ k <= length l)%nat /\ forall z, z ∈ l -> root (uf_parent u) z r
}.

Lemma rank_le p (rk : list nat) x r kx kr :
  (forall x y, p !! x = Some y -> y <> x -> exists kx ky, rk !! x = Some kx /\ rk !! y = Some ky /\ (kx < ky)%nat) ->
  root p x r -> rk !! x = Some kx -> rk !! r = Some kr -> (kx <= kr)%nat /\ (x <> r -> kx < kr)%nat.
Proof.
  intros U H. revert kx. induction H as [x Hx|x y r Hx Hn Hr IH]; intros kx Kx Kr.
  - rewrite Kx in Kr. injection Kr as ->. split; [lia|congruence].
  - destruct (U x y Hx Hn) as (a & b & Ha & Hb & L). rewrite Kx in Ha. injection Ha as <-. destruct (IH b Hb Kr). lia.
Qed.

(** Every element in range has a root, and its rank is at most [log2] of the number of elements. *)
Lemma bounded_list (l : list nat) n : NoDup l -> (forall z, z ∈ l -> z < n)%nat -> (length l <= n)%nat.
Proof.
  intros Nd H. rewrite <- (seq_length n 0). apply submseteq_length, NoDup_submseteq; [done|].
  intros z Hz. apply elem_of_list_In, in_seq. specialize (H z Hz). lia.
Qed.

Lemma root_rank_log u r k : uf_ok u -> uf_parent u !! r = Some r -> uf_rank u !! r = Some k -> (2 ^ k <= length (uf_parent u))%nat.
Proof.
  intros [_ _ S] Hr Hk. destruct (S r k Hr Hk) as (l & Nd & L & Z). etransitivity; [exact L|].
  apply bounded_list; [done|]. intros z Hz. now apply Z, root_lt in Hz.
Qed.

Definition max_rank (rk : list nat) : nat := foldr Nat.max 0%nat rk.
Lemma max_rank_ge (rk : list nat) x k : rk !! x = Some k -> (k <= max_rank rk)%nat.
Proof. revert x. induction rk as [|a rk IH]; intros [|x]; cbn; try discriminate; [intros [= ->]; lia|]. intros H. apply IH in H. unfold max_rank in *. lia. Qed.

Lemma root_exists u x : uf_ok u -> (x < length (uf_parent u))%nat -> exists r, root (uf_parent u) x r.
Proof.
  intros [L U _]. intros Hx.
  assert (G : forall n x kx, uf_rank u !! x = Some kx -> (max_rank (uf_rank u) - kx < n)%nat -> exists r, root (uf_parent u) x r).
  { induction n as [|n IH]; intros z kz Kz Hn; [lia|].
    destruct (lookup_lt_is_Some_2 (uf_parent u) z) as [y Hy]; [rewrite <- L; now apply lookup_lt_Some in Kz|].
    destruct (decide (y = z)) as [->|Hyz]; [exists z; now constructor|].
    destruct (U z y Hy Hyz) as (a & b & Ha & Hb & Lt). rewrite Kz in Ha. injection Ha as <-.
    pose proof (max_rank_ge _ _ _ Hb). destruct (IH y b Hb) as [r Hr]; [lia|]. exists r. now apply (root_up _ z y). }
  destruct (lookup_lt_is_Some_2 (uf_rank u) x) as [k Hk]; [lia|]. apply (G (S (max_rank (uf_rank u))) x k Hk). lia.
Qed.

(** The rank of any element, and the distance to its root. *)
Lemma rank_log u x k : uf_ok u -> uf_rank u !! x = Some k -> (2 ^ k <= length (uf_parent u))%nat.
Proof.
  intros Ok Hk. pose proof Ok as [L U _].
  assert (Hx : (x < length (uf_parent u))%nat) by (rewrite <- L; now apply lookup_lt_Some in Hk).
  destruct (root_exists u x Ok Hx) as [r Hr].
  destruct (lookup_lt_is_Some_2 (uf_rank u) r) as [kr Hkr]; [rewrite L; now apply root_lt in Hr|].
  destruct (rank_le _ _ x r k kr U Hr Hk Hkr) as [Hle _].
  pose proof (root_rank_log u r kr Ok (root_is_root _ _ _ Hr) Hkr). pose proof (Nat.pow_le_mono_r 2 k kr). lia.
Qed.

(** Compressing one edge to the root changes no root. *)
Lemma compress_root p x r z s : root p x r -> x <> r -> root (<[x := r]> p) z s <-> root p z s.
Proof.
  intros Hx Hn. pose proof (root_lt _ _ _ Hx) as [Lx _].
  assert (Rr : (<[x := r]> p) !! r = Some r) by (rewrite list_lookup_insert_ne by congruence; now apply root_is_root in Hx).
  assert (A : forall z s, root p z s -> root (<[x := r]> p) z s).
  { intros a s' H. induction H as [a Ha|a y s' Ha Hy Hr IH].
    - destruct (decide (a = x)) as [->|].
      + exfalso. inversion Hx; subst; congruence.
      + constructor. (rewrite list_lookup_insert_ne by congruence; done).
    - destruct (decide (a = x)) as [->|].
      + assert (s' = r) as -> by (apply (root_fun p x); [now apply (root_up p x y)|done]).
        apply (root_up _ x r r); [now apply list_lookup_insert|congruence|]. now constructor.
      + apply (root_up _ a y s'); [(rewrite list_lookup_insert_ne by congruence; done)|done|done]. }
  split; [|apply A]. intros H. induction H as [a Ha|a y s' Ha Hy Hr IH].
  - destruct (decide (a = x)) as [->|].
    + rewrite list_lookup_insert in Ha by done. congruence.
    + constructor. (rewrite list_lookup_insert_ne in Ha by congruence; done).
  - destruct (decide (a = x)) as [->|].
    + rewrite list_lookup_insert in Ha by done. injection Ha as <-.
      assert (s' = r) as -> by (apply (root_fun p r); [done|now apply root_root in Hx]). done.
    + apply (root_up _ a y s'); [(rewrite list_lookup_insert_ne in Ha by congruence; done)|done|done].
Qed.

Lemma compress_ok p rk x r : uf_ok (UF p rk) -> root p x r -> x <> r -> uf_ok (UF (<[x := r]> p) rk).
Proof.
  intros [L U S] Hx Hn. cbn in *. pose proof (root_lt _ _ _ Hx) as [Lx Lr]. constructor; cbn.
  - now rewrite insert_length.
  - intros a b. destruct (decide (a = x)) as [->|].
    + rewrite list_lookup_insert by done. intros [= <-] _.
      destruct (lookup_lt_is_Some_2 rk x) as [kx Hkx]; [lia|]. destruct (lookup_lt_is_Some_2 rk r) as [kr Hkr]; [lia|].
      exists kx, kr. split; [done|]. split; [done|]. destruct (rank_le p rk x r kx kr U Hx Hkx Hkr). auto.
    + rewrite list_lookup_insert_ne by congruence. apply U.
  - intros a k Ha Hk. assert (Ra : root p a a) by (apply (compress_root p x r); [done|done|now constructor]).
    destruct (S a k (root_is_root _ _ _ Ra) Hk) as (l & Nd & Ll & Z). exists l. split; [done|]. split; [done|].
    intros z Hz. apply compress_root; auto.
Qed.

Definition same_roots (p p' : list nat) : Prop := length p' = length p /\ forall z s, root p' z s <-> root p z s.

Lemma find_steps_ok n : forall p rk x r, uf_ok (UF p rk) -> root p x r ->
  (forall kx kr, rk !! x = Some kx -> rk !! r = Some kr -> (kr - kx < n)%nat) ->
  exists p', find_steps n p x = Some (p', r) /\ uf_ok (UF p' rk) /\ same_roots p p'.
Proof.
  induction n as [|n IH]; intros p rk x r Ok Hx Hn.
  - pose proof Ok as [L _ _]. cbn in L. pose proof (root_lt _ _ _ Hx) as [Lx Lr].
    destruct (lookup_lt_is_Some_2 rk x) as [kx Hkx]; [lia|]. destruct (lookup_lt_is_Some_2 rk r) as [kr Hkr]; [lia|].
    specialize (Hn kx kr Hkx Hkr). lia.
  - cbn [find_steps]. inversion Hx as [? Hp|? y ? Hp Hyx Hy]; subst.
    + rewrite Hp. rewrite Nat.eqb_refl. exists p. split; [done|]. split; [done|]. now split.
    + rewrite Hp. destruct (Nat.eqb_spec y x); [done|].
      pose proof Ok as [L U _]. cbn in L, U. destruct (U x y Hp Hyx) as (kx & ky & Hkx & Hky & Lt).
      destruct (IH p rk y r Ok Hy) as (p' & E & Ok' & Ll & Sr).
      { intros a kr Ha Hkr. rewrite Hky in Ha. injection Ha as <-. specialize (Hn kx kr Hkx Hkr).
        destruct (rank_le p rk y r ky kr U Hy Hky Hkr). lia. }
      rewrite E.
      assert (Hxr : x <> r).
      { intros ->. apply root_is_root in Hy. congruence. }
      exists (<[x := r]> p'). split; [done|]. assert (Hx' : root p' x r) by now apply Sr.
      split; [now apply compress_ok|]. split; [now rewrite insert_length|]. intros z s. rewrite compress_root by done. apply Sr.
Qed.

Lemma pow2_gt k : (k < 2 ^ k)%nat.
Proof. induction k; cbn; lia. Qed.

Lemma find_depth u x r n : uf_ok u -> root (uf_parent u) x r -> (Nat.log2 (length (uf_parent u)) < n)%nat ->
  exists p', find_steps n (uf_parent u) x = Some (p', r) /\ uf_ok (UF p' (uf_rank u)) /\ same_roots (uf_parent u) p'.
Proof.
  intros Ok Hx Hn. destruct u as [p rk]. cbn in *. apply find_steps_ok; [done|done|]. intros kx kr _ Hkr.
  pose proof (rank_log (UF p rk) r kr Ok Hkr) as B. cbn in B. apply Nat.log2_le_mono in B. rewrite Nat.log2_pow2 in B by lia. lia.
Qed.

Lemma find_ok u x r : uf_ok u -> root (uf_parent u) x r ->
  exists u', uf_find u x = Some (u', r) /\ uf_ok u' /\ same_roots (uf_parent u) (uf_parent u') /\ uf_rank u' = uf_rank u.
Proof.
  intros Ok Hx. destruct (find_depth u x r (length (uf_parent u)) Ok Hx) as (p' & E & Ok' & Sr).
  { pose proof (root_lt _ _ _ Hx). apply Nat.log2_lt_lin. lia. }
  unfold uf_find. rewrite E. exists (UF p' (uf_rank u)). auto.
Qed.

(** Linking one root under another. *)
Lemma link_root p a b z s : root p a a -> root p b b -> a <> b ->
  root (<[a := b]> p) z s <-> (root p z s /\ s <> a) \/ (root p z a /\ s = b).
Proof.
  intros Ha Hb Hn. pose proof (root_lt _ _ _ Ha) as [La _]. apply root_is_root in Ha as Ha', Hb as Hb'.
  assert (Rb : root (<[a := b]> p) b b) by (constructor; (rewrite list_lookup_insert_ne by congruence; done)).
  split.
  - intros H. induction H as [x Hx|x y s Hx Hxy Hs IH].
    + destruct (decide (x = a)) as [->|]; [rewrite list_lookup_insert in Hx by done; congruence|].
      left. rewrite list_lookup_insert_ne in Hx by congruence. split; [now constructor|done].
    + destruct (decide (x = a)) as [->|].
      * rewrite list_lookup_insert in Hx by done. injection Hx as <-. right. split; [done|]. exact (root_fun _ b s b Hs Rb).
      * rewrite list_lookup_insert_ne in Hx by congruence. destruct IH as [[IH ?]|[IH ?]]; [left|right]; split; try done; now apply (root_up p x y).
  - intros [[H N]|[H ->]].
    + induction H as [x Hx|x y s Hx Hxy Hs IH].
      * constructor. (rewrite list_lookup_insert_ne by congruence; done).
      * apply (root_up _ x y); [|done|now apply IH]. rewrite list_lookup_insert_ne by congruence. done.
    + remember a as a' eqn:E in H. induction H as [x Hx|x y s Hx Hxy Hs IH].
      * subst x. apply (root_up _ a b); [now apply list_lookup_insert|congruence|done].
      * subst s. apply (root_up _ x y); [|done|now apply IH]. rewrite list_lookup_insert_ne by congruence. done.
Qed.

Lemma link_ok p rk a b ka kb : uf_ok (UF p rk) -> root p a a -> root p b b -> a <> b -> rk !! a = Some ka -> rk !! b = Some kb -> (ka < kb)%nat ->
  uf_ok (UF (<[a := b]> p) rk).
Proof.
  intros [L U S] Ha Hb Hn Ka Kb Lt. cbn in *. pose proof (root_lt _ _ _ Ha) as [La _]. constructor; cbn.
  - now rewrite insert_length.
  - intros x y. destruct (decide (x = a)) as [->|].
    + rewrite list_lookup_insert by done. intros [= <-] _. eauto.
    + rewrite list_lookup_insert_ne by congruence. apply U.
  - intros r k Hr Hk. assert (Rr : r <> a) by (intros ->; rewrite list_lookup_insert in Hr by done; congruence).
    rewrite list_lookup_insert_ne in Hr by congruence. destruct (S r k Hr Hk) as (l & Nd & Ll & Z). exists l. split; [done|]. split; [done|].
    intros z Hz. apply link_root; auto.
Qed.
Lemma link_ok_eq p rk a b k : uf_ok (UF p rk) -> root p a a -> root p b b -> a <> b -> rk !! a = Some k -> rk !! b = Some k ->
  uf_ok (UF (<[a := b]> p) (<[b := S k]> rk)).
Proof.
  intros [L U SZ] Ha Hb Hn Ka Kb. cbn in *. pose proof (root_lt _ _ _ Ha) as [La _]. pose proof (root_lt _ _ _ Hb) as [Lb _]. constructor; cbn.
  - now rewrite !insert_length.
  - intros x y. destruct (decide (x = a)) as [->|].
    + rewrite list_lookup_insert by done. intros [= <-] _. exists k, (S k). rewrite list_lookup_insert_ne by congruence.
      rewrite list_lookup_insert by lia. auto with lia.
    + rewrite list_lookup_insert_ne by congruence. intros Hxy Hne. destruct (U x y Hxy Hne) as (kx & ky & Kx & Ky & Lt).
      assert (x <> b) by (intros ->; apply root_is_root in Hb; congruence).
      rewrite list_lookup_insert_ne by congruence. destruct (decide (y = b)) as [->|].
      * rewrite Kb in Ky. injection Ky as <-. exists kx, (S k). rewrite list_lookup_insert by lia. auto with lia.
      * rewrite list_lookup_insert_ne by congruence. eauto.
  - intros r j Hr Hj. assert (Rr : r <> a) by (intros ->; rewrite list_lookup_insert in Hr by done; congruence).
    rewrite list_lookup_insert_ne in Hr by congruence. destruct (decide (r = b)) as [->|].
    + rewrite list_lookup_insert in Hj by lia. injection Hj as <-.
      destruct (SZ a k (root_is_root _ _ _ Ha) Ka) as (l1 & N1 & L1 & Z1). destruct (SZ b k Hr Kb) as (l2 & N2 & L2 & Z2).
      exists (l1 ++ l2). split; [|split].
      * apply NoDup_app. split; [done|]. split; [|done]. intros z H1 H2. apply Hn. exact (root_fun p z a b (Z1 z H1) (Z2 z H2)).
      * rewrite app_length. cbn. lia.
      * intros z. rewrite elem_of_app. intros [Hz|Hz]; apply link_root; try done; [right|left]; auto.
    + rewrite list_lookup_insert_ne in Hj by congruence. destruct (SZ r j Hr Hj) as (l & Nd & Ll & Z). exists l. split; [done|]. split; [done|].
      intros z Hz. apply link_root; auto.
Qed.

(** The effect of [union] on roots. *)
Lemma union_ok u x y rx ry : uf_ok u -> root (uf_parent u) x rx -> root (uf_parent u) y ry ->
  exists u' b, uf_union u x y = Some (u', b) /\ uf_ok u' /\ length (uf_parent u') = length (uf_parent u) /\
    (b = true <-> rx <> ry) /\
    (forall z z' s s', root (uf_parent u) z s -> root (uf_parent u) z' s' ->
       (exists t, root (uf_parent u') z t /\ root (uf_parent u') z' t) <-> s = s' \/ (s = rx /\ s' = ry) \/ (s = ry /\ s' = rx)).
Proof.
  intros Ok Hx Hy. destruct (find_ok u x rx Ok Hx) as (u1 & E1 & Ok1 & [L1 S1] & K1).
  destruct (find_ok u1 y ry Ok1) as (u2 & E2 & Ok2 & [L2 S2] & K2); [now apply S1|].
  unfold uf_union. rewrite E1, E2.
  assert (S : forall z s, root (uf_parent u2) z s <-> root (uf_parent u) z s) by (intros; rewrite S2; apply S1).
  destruct (Nat.eqb_spec rx ry) as [->|Hn].
  { exists u2, false. split; [done|]. split; [done|]. split; [lia|]. split; [split; [discriminate|congruence]|].
    intros z z' s s' Hz Hz'. apply S in Hz, Hz'. split.
    - intros (t & T1 & T2). left. rewrite (root_fun _ _ _ _ Hz T1). symmetry. exact (root_fun _ _ _ _ Hz' T2).
    - intros [->|[[-> ->]|[-> ->]]]; eauto. }
  pose proof (proj2 (S _ _) Hx) as Rx. pose proof (proj2 (S _ _) Hy) as Ry. apply root_root in Rx, Ry.
  destruct u2 as [p rk]. cbn [uf_parent uf_rank] in *. pose proof Ok2 as [Lk _ _]. cbn in Lk.
  pose proof (root_lt _ _ _ Rx) as [Lx _]. pose proof (root_lt _ _ _ Ry) as [Ly _].
  destruct (lookup_lt_is_Some_2 rk rx) as [kx Kx]; [lia|]. destruct (lookup_lt_is_Some_2 rk ry) as [ky Ky]; [lia|]. rewrite Kx, Ky.
  assert (Lnk : forall a b, root p a a -> root p b b -> a <> b -> forall z z' s s', root p z s -> root p z' s' ->
     (exists t, root (<[a := b]> p) z t /\ root (<[a := b]> p) z' t) <-> s = s' \/ (s = a /\ s' = b) \/ (s = b /\ s' = a)).
  { intros a b Ra Rb Nab z z' s s' Hz Hz'. split.
    - intros (t & T1 & T2). apply link_root in T1, T2; try done.
      destruct T1 as [[T1 N1]|[T1 ->]], T2 as [[T2 N2]|[T2 T]].
      + left. rewrite (root_fun _ _ _ _ Hz T1). symmetry. exact (root_fun _ _ _ _ Hz' T2).
      + subst t. rewrite (root_fun _ _ _ _ Hz T1), (root_fun _ _ _ _ Hz' T2). auto.
      + rewrite (root_fun _ _ _ _ Hz T1), (root_fun _ _ _ _ Hz' T2). auto.
      + left. rewrite (root_fun _ _ _ _ Hz T1). symmetry. exact (root_fun _ _ _ _ Hz' T2).
    - intros H. assert (Tz : forall z s, root p z s -> root (<[a := b]> p) z (if decide (s = a) then b else s)).
      { intros q s0 Hq. apply link_root; try done. destruct (decide (s0 = a)) as [->|]; auto. }
      pose proof (Tz z s Hz) as T1. pose proof (Tz z' s' Hz') as T2.
      destruct H as [->|[[-> ->]|[-> ->]]]; [eauto| |].
      + rewrite decide_True in T1 by done. rewrite decide_False in T2 by congruence. eauto.
      + rewrite decide_False in T1 by congruence. rewrite decide_True in T2 by done. eauto. }
  assert (Fin : forall rk' a b, uf_ok (UF (<[a := b]> p) rk') -> ((a = rx /\ b = ry) \/ (a = ry /\ b = rx)) ->
    exists u' b0, Some (UF (<[a := b]> p) rk', true) = Some (u', b0) /\ uf_ok u' /\ length (uf_parent u') = length (uf_parent u) /\
    (b0 = true <-> rx <> ry) /\
    (forall z z' s s', root (uf_parent u) z s -> root (uf_parent u) z' s' ->
       (exists t, root (uf_parent u') z t /\ root (uf_parent u') z' t) <-> s = s' \/ (s = rx /\ s' = ry) \/ (s = ry /\ s' = rx))).
  { intros rk' a b Ok' D. exists (UF (<[a := b]> p) rk'), true. split; [done|]. split; [done|]. cbn. rewrite insert_length.
    split; [lia|]. split; [done|]. intros z z' s s' Hz Hz'. apply S in Hz, Hz'.
    destruct D as [[-> ->]|[-> ->]]; rewrite Lnk; try done; intuition. }
  destruct (Nat.ltb_spec kx ky) as [H|H]; [|destruct (Nat.ltb_spec ky kx) as [H0|H0]]; cbn [uf_parent uf_rank].
  - apply Fin; [|now left]. exact (link_ok p rk rx ry kx ky Ok2 Rx Ry Hn Kx Ky H).
  - apply Fin; [|now right]. apply (link_ok p rk ry rx ky kx Ok2 Ry Rx); congruence || assumption.
  - assert (kx = ky) as -> by lia. apply Fin; [|now right]. apply (link_ok_eq p rk ry rx ky Ok2 Ry Rx); congruence || assumption.
Qed.

Lemma make_ok u : uf_ok u -> uf_ok (uf_make_set u).1 /\
  (forall z s, root (uf_parent (uf_make_set u).1) z s <-> root (uf_parent u) z s \/ (z = length (uf_parent u) /\ s = z)).
Proof.
  intros [L U S]. destruct u as [p rk]. cbn in *.
  assert (R : forall z s, root (p ++ [length p]) z s <-> root p z s \/ (z = length p /\ s = z)).
  { intros z s. split.
    - intros H. assert (B : forall x y, p !! x = Some y -> (y < length p)%nat).
      { intros x y Hxy. destruct (decide (y = x)) as [->|]; [now apply lookup_lt_Some in Hxy|]. destruct (U x y Hxy n) as (? & ? & _ & K & _). apply lookup_lt_Some in K. lia. }
      induction H as [x Hx|x y r Hx Hn Hr IH]; rewrite lookup_app_Some in Hx; destruct Hx as [Hx|[Lx Hx]].
      + left. now constructor.
      + apply list_lookup_singleton_Some in Hx. right. lia.
      + destruct IH as [IH|[-> ->]]; [left; now apply (root_up p x y)|]. apply B in Hx. lia.
      + apply list_lookup_singleton_Some in Hx. destruct Hx as [? <-]. lia.
    - intros [H|[-> ->]].
      + induction H as [x Hx|x y r Hx Hn Hr IH]; [constructor|apply (root_up _ x y); [|done|done]]; now apply lookup_app_l_Some.
      + constructor. now apply list_lookup_middle. }
  split; [|done]. constructor; cbn.
  - rewrite !app_length. cbn. lia.
  - intros x y. rewrite lookup_app_Some. intros [H|[Lx Hx]] Hn.
    + destruct (U x y H Hn) as (kx & ky & Kx & Ky & Lt). exists kx, ky. split; [now apply lookup_app_l_Some|]. split; [now apply lookup_app_l_Some|done].
    + apply list_lookup_singleton_Some in Hx. destruct Hx as [? <-]. lia.
  - intros r k. rewrite !lookup_app_Some. intros [Hr|[Lr Hr]] [Hk|[Lk Hk]].
    + destruct (S r k Hr Hk) as (l & Nd & Ll & Z). exists l. split; [done|]. split; [done|]. intros z Hz. apply R. auto.
    + apply lookup_lt_Some in Hr. lia.
    + apply lookup_lt_Some in Hk. apply list_lookup_singleton_Some in Hr. lia.
    + apply list_lookup_singleton_Some in Hk, Hr. destruct Hk as [? <-], Hr as [? <-]. exists [length p]. split; [apply NoDup_singleton|]. cbn. split; [lia|].
      intros z Hz. apply elem_of_list_singleton in Hz as ->. apply R. auto.
Qed.

Lemma new_ok : uf_ok uf_new.
Proof. constructor; cbn; [done| |]; intros x; rewrite ?lookup_nil; discriminate. Qed.
