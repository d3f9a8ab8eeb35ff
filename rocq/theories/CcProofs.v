(** Lemmas on the congruence closure structure. *)
From Coq Require Import ZArith String List Arith Lia Relations.
From stdpp Require Import strings list.
From Verif Require Import UnionFindModel UnionFindProofs SynModel CcModel.
Local Open Scope nat_scope.
Local Open Scope string_scope.
Local Open Scope list_scope.

(** * Union-find *)
Definition eqv (p : list nat) (x y : nat) : Prop := exists r, root p x r /\ root p y r.
Lemma same_roots_refl p : same_roots p p.
Proof. done. Qed.
Lemma same_roots_trans p q r : same_roots p q -> same_roots q r -> same_roots p r.
Proof. intros [A B] [C D]. split; [lia|]. intros. by rewrite D. Qed.
Lemma same_roots_eqv p q x y : same_roots p q -> eqv q x y <-> eqv p x y.
Proof. intros [_ H]. split; intros (r & A & B); exists r; split; by apply H. Qed.
Lemma find_total u x : uf_ok u -> x < length (uf_parent u) -> exists u' r, uf_find u x = Some (u', r) /\ root (uf_parent u) x r /\
  uf_ok u' /\ same_roots (uf_parent u) (uf_parent u').
Proof.
  intros Ok Hx. destruct (root_exists u x Ok Hx) as [r Hr]. destruct (find_ok u x r Ok Hr) as (u' & E & Ok' & Sr & _). by exists u', r.
Qed.
Lemma union_link u rx ry : uf_ok u -> root (uf_parent u) rx rx -> root (uf_parent u) ry ry -> rx <> ry ->
  exists u' b x y, uf_union u rx ry = Some (u', b) /\ uf_ok u' /\ length (uf_parent u') = length (uf_parent u) /\
    ((x = rx /\ y = ry) \/ (x = ry /\ y = rx)) /\
    (forall z s, root (uf_parent u') z s <-> (root (uf_parent u) z s /\ s <> x) \/ (root (uf_parent u) z x /\ s = y)).
Proof.
  intros Ok Hx Hy Hn. destruct (find_ok u rx rx Ok Hx) as (u1 & E1 & Ok1 & [L1 S1] & K1).
  destruct (find_ok u1 ry ry Ok1) as (u2 & E2 & Ok2 & [L2 S2] & K2); [now apply S1|].
  unfold uf_union. rewrite E1, E2.
  assert (S : forall z s, root (uf_parent u2) z s <-> root (uf_parent u) z s) by (intros; rewrite S2; apply S1).
  destruct (Nat.eqb_spec rx ry) as [->|_]; [done|].
  pose proof (proj2 (S _ _) Hx) as Rx. pose proof (proj2 (S _ _) Hy) as Ry.
  destruct u2 as [p rk]. cbn [uf_parent uf_rank] in *. pose proof Ok2 as [Lk _ _]. cbn in Lk.
  pose proof (root_lt _ _ _ Rx) as [Lx _]. pose proof (root_lt _ _ _ Ry) as [Ly _].
  destruct (lookup_lt_is_Some_2 rk rx) as [kx Kx]; [lia|]. destruct (lookup_lt_is_Some_2 rk ry) as [ky Ky]; [lia|]. rewrite Kx, Ky.
  assert (Fin : forall rk' c d, uf_ok (UF (<[c := d]> p) rk') -> root p c c -> root p d d -> ((c = rx /\ d = ry) \/ (c = ry /\ d = rx)) ->
    exists u' b x y, Some (UF (<[c := d]> p) rk', true) = Some (u', b) /\ uf_ok u' /\ length (uf_parent u') = length (uf_parent u) /\
    ((x = rx /\ y = ry) \/ (x = ry /\ y = rx)) /\
    (forall z s, root (uf_parent u') z s <-> (root (uf_parent u) z s /\ s <> x) \/ (root (uf_parent u) z x /\ s = y))).
  { intros rk' x y Ok' Rx' Ry' D. exists (UF (<[x := y]> p) rk'), true, x, y. split; [done|]. split; [done|]. cbn. rewrite insert_length.
    split; [lia|]. split; [done|]. intros z s. rewrite <- !S. apply link_root; try done. destruct D as [[-> ->]|[-> ->]]; congruence. }
  destruct (Nat.ltb_spec kx ky) as [H|H]; [|destruct (Nat.ltb_spec ky kx) as [H0|H0]]; cbn [uf_parent uf_rank].
  - apply Fin; [|done|done|now left]. exact (link_ok p rk rx ry kx ky Ok2 Rx Ry Hn Kx Ky H).
  - apply Fin; [|done|done|now right]. apply (link_ok p rk ry rx ky kx Ok2 Ry Rx); congruence || assumption.
  - assert (kx = ky) as -> by lia. apply Fin; [|done|done|now right]. apply (link_ok_eq p rk ry rx ky Ok2 Ry Rx); congruence || assumption.
Qed.
(** The number of classes. *)
Definition nroots (p : list nat) : nat := length (List.filter (fun i => bool_decide (p !! i = Some i)) (seq 0 (length p))).
Lemma nroots_le p : nroots p <= length p.
Proof. unfold nroots. rewrite <- (seq_length (length p) 0) at 2. induction (seq 0 (length p)) as [|i l IH]; cbn; [done|]. destruct (bool_decide _); cbn; lia. Qed.
Lemma filter_length_lt {A} (P Q : A -> bool) l a : (forall x, Q x = true -> P x = true) -> In a l -> P a = true -> Q a = false ->
  length (List.filter Q l) < length (List.filter P l).
Proof.
  intros HQ. assert (Hle : forall l, length (List.filter Q l) <= length (List.filter P l)).
  { clear l. intros l. induction l as [|x l IH]; cbn; [done|]. destruct (Q x) eqn:E; [rewrite (HQ x E); cbn; lia|]. destruct (P x); cbn; lia. }
  induction l as [|x l IH]; intros Hin HP HQa; [destruct Hin|]. destruct Hin as [->|Hin].
  - cbn. rewrite HP, HQa. cbn. specialize (Hle l). lia.
  - cbn. specialize (IH Hin HP HQa). destruct (Q x) eqn:E; [rewrite (HQ x E); cbn; lia|]. destruct (P x); cbn; lia.
Qed.
Lemma root_self_iff p x : root p x x <-> p !! x = Some x.
Proof. split; [apply root_is_root|by constructor]. Qed.
Lemma nroots_same p q : same_roots p q -> nroots q = nroots p.
Proof.
  intros [L H]. unfold nroots. rewrite L. f_equal. apply List.filter_ext. intros i. apply bool_decide_ext. rewrite <- !root_self_iff. apply H.
Qed.
Lemma nroots_link p q x y : length q = length p -> root p x x -> root p y y -> x <> y ->
  (forall z s, root q z s <-> (root p z s /\ s <> x) \/ (root p z x /\ s = y)) -> nroots q < nroots p.
Proof.
  intros L Hx Hy Hn H. unfold nroots. rewrite L. apply (filter_length_lt _ _ _ x).
  - intros i. rewrite !bool_decide_eq_true, <- !root_self_iff, H. intros [[? _]|[Hi ->]]; [done|].
    exfalso. apply Hn. exact (root_fun _ _ _ _ Hi Hy).
  - apply in_seq. apply root_lt in Hx. lia.
  - apply bool_decide_eq_true. by apply root_self_iff.
  - apply bool_decide_eq_false. rewrite <- root_self_iff, H. intros [[_ ?]|[_ ?]]; congruence.
Qed.
Lemma link_eqv p q x y : root p x x -> root p y y -> x <> y ->
  (forall z s, root q z s <-> (root p z s /\ s <> x) \/ (root p z x /\ s = y)) -> forall a b ra rb, root p a ra -> root p b rb ->
  (eqv q a b <-> ra = rb \/ (ra = x /\ rb = y) \/ (ra = y /\ rb = x)).
Proof.
  intros Hx Hy Hn H a b ra rb Ha Hb. split.
  - intros (r & H1 & H2). apply H in H1, H2. destruct H1 as [[H1 N1]|[H1 E1]], H2 as [[H2 N2]|[H2 E2]].
    + left. rewrite (root_fun _ _ _ _ Ha H1). exact (root_fun _ _ _ _ H2 Hb).
    + subst. rewrite (root_fun _ _ _ _ Ha H1), (root_fun _ _ _ _ Hb H2). auto.
    + subst. rewrite (root_fun _ _ _ _ Ha H1), (root_fun _ _ _ _ Hb H2). auto.
    + left. rewrite (root_fun _ _ _ _ Ha H1). exact (root_fun _ _ _ _ H2 Hb).
  - assert (T : forall a ra, root p a ra -> root q a (if decide (ra = x) then y else ra)).
    { intros c rc Hc. apply H. destruct (decide (rc = x)) as [->|]; auto. }
    pose proof (T a ra Ha) as Ta. pose proof (T b rb Hb) as Tb.
    intros [->|[[-> ->]|[-> ->]]]; [eexists; eauto| |].
    + rewrite decide_True in Ta by done. rewrite decide_False in Tb by done. eexists; eauto.
    + rewrite decide_False in Ta by done. rewrite decide_True in Tb by done. eexists; eauto.
Qed.
Lemma eqv_sym p x y : eqv p x y -> eqv p y x.
Proof. intros (r & A & B). by exists r. Qed.

(** * Graphs *)
Notation par g := (uf_parent (eg_uf g)).
Record eg_ok (g : egraph) : Prop := {
  ok_uf : uf_ok (eg_uf g);
  ok_par : length (par g) = length (eg_nodes g);
  ok_uses_len : length (eg_uses g) = length (eg_nodes g);
  ok_child : forall i f a, eg_nodes g !! i = Some (NApp f a) -> f <= i /\ a <= i;
  ok_map : forall n i, map_get (eg_map g) n = Some i <-> eg_nodes g !! i = Some n;
  ok_uses : forall i l u, eg_uses g !! i = Some l -> In u l -> u < length (eg_nodes g)
}.
Lemma eg_new_ok : eg_ok eg_new.
Proof.
  split; cbn; try done.
Qed.
(** Two application nodes with related children. *)
Definition cong (ns : list enode) (p : list nat) (u1 u2 : nat) : Prop :=
  exists f1 a1 f2 a2, ns !! u1 = Some (NApp f1 a1) /\ ns !! u2 = Some (NApp f2 a2) /\ eqv p f1 f2 /\ eqv p a1 a2.
Lemma cong_same ns p q u1 u2 : same_roots p q -> cong ns q u1 u2 <-> cong ns p u1 u2.
Proof.
  intros H. split; intros (f1 & a1 & f2 & a2 & A & B & C & D); exists f1, a1, f2, a2; (split; [done|]; split; [done|]);
    split; by (apply (same_roots_eqv _ _ _ _ H)).
Qed.
Lemma cong_sym ns p x y : cong ns p x y -> cong ns p y x.
Proof. intros (f1 & a1 & f2 & a2 & A & B & C & D). exists f2, a2, f1, a1. repeat split; try done; by apply eqv_sym. Qed.
Lemma eqv_dec p x y rx ry : root p x rx -> root p y ry -> (eqv p x y <-> rx = ry).
Proof.
  intros Hx Hy. split; [|intros ->; by exists ry]. intros (r & A & B). rewrite (root_fun _ _ _ _ Hx A). exact (root_fun _ _ _ _ B Hy).
Qed.

Lemma congruent_ok ns u a b : uf_ok u -> length (uf_parent u) = length ns ->
  (forall i f x, ns !! i = Some (NApp f x) -> f <= i /\ x <= i) -> a < length ns -> b < length ns ->
  exists u' c, congruent ns u a b = Some (u', c) /\ uf_ok u' /\ same_roots (uf_parent u) (uf_parent u') /\
    (c = true <-> cong ns (uf_parent u) a b).
Proof.
  intros Ok L Hc Ha Hb. unfold congruent.
  destruct (lookup_lt_is_Some_2 ns a Ha) as [na Ea]. destruct (lookup_lt_is_Some_2 ns b Hb) as [nb Eb]. rewrite Ea, Eb.
  assert (No : (forall f x, na <> NApp f x) \/ (forall f x, nb <> NApp f x) ->
    exists u' c, Some (u, false) = Some (u', c) /\ uf_ok u' /\ same_roots (uf_parent u) (uf_parent u') /\ (c = true <-> cong ns (uf_parent u) a b)).
  { intros H. exists u, false. split; [done|]. split; [done|]. split; [apply same_roots_refl|]. split; [done|].
    intros (f1 & a1 & f2 & a2 & A & B & _). rewrite Ea in A. rewrite Eb in B. injection A as ->. injection B as ->.
    destruct H as [H|H]; by destruct (H _ _ eq_refl). }
  destruct na as [?|?|?|f1 a1]; try (apply No; left; done). destruct nb as [?|?|?|f2 a2]; try (apply No; right; done). clear No.
  destruct (Hc _ _ _ Ea) as [F1 A1]. destruct (Hc _ _ _ Eb) as [F2 A2].
  destruct (find_total u f1 Ok) as (u1 & r1 & -> & R1 & Ok1 & S1); [lia|].
  destruct (find_total u1 f2 Ok1) as (u2 & r2 & -> & R2 & Ok2 & S2); [destruct S1; lia|].
  assert (S12 : same_roots (uf_parent u) (uf_parent u2)) by (by eapply same_roots_trans).
  assert (R2' : root (uf_parent u) f2 r2) by (by apply (proj2 S1)).
  assert (Hcong : cong ns (uf_parent u) a b <-> r1 = r2 /\ eqv (uf_parent u) a1 a2).
  { rewrite <- (eqv_dec _ _ _ _ _ R1 R2'). split.
    - intros (? & ? & ? & ? & A & B & C & D). rewrite Ea in A. rewrite Eb in B. by injection A as <- <-; injection B as <- <-.
    - intros [C D]. by exists f1, a1, f2, a2. }
  destruct (Nat.eqb_spec r1 r2) as [->|Hn].
  2: { exists u2, false. split; [done|]. split; [done|]. split; [done|]. split; [done|]. intros [? _]%Hcong. done. }
  destruct (find_total u2 a1 Ok2) as (u3 & s1 & -> & Q1 & Ok3 & S3); [destruct S12; lia|].
  destruct (find_total u3 a2 Ok3) as (u4 & s2 & -> & Q2 & Ok4 & S4); [destruct S12, S3; lia|].
  assert (Q1' : root (uf_parent u) a1 s1) by (by apply (proj2 S12)).
  assert (Q2' : root (uf_parent u) a2 s2) by (apply (proj2 S12); by apply (proj2 S3)).
  exists u4, (Nat.eqb s1 s2). split; [done|]. split; [done|]. split; [eapply same_roots_trans; [exact S12|]; by eapply same_roots_trans|].
  rewrite Nat.eqb_eq, Hcong, (eqv_dec _ _ _ _ _ Q1' Q2'). naive_solver.
Qed.
Lemma congruent_pairs_ok ns ps : forall u, uf_ok u -> length (uf_parent u) = length ns ->
  (forall i f x, ns !! i = Some (NApp f x) -> f <= i /\ x <= i) -> (forall a b, In (a, b) ps -> a < length ns /\ b < length ns) ->
  exists u' qs, congruent_pairs ns u ps = Some (u', qs) /\ uf_ok u' /\ same_roots (uf_parent u) (uf_parent u') /\
    forall a b, In (a, b) qs <-> In (a, b) ps /\ cong ns (uf_parent u) a b.
Proof.
  induction ps as [|[a b] ps IH]; intros u Ok L Hc Hr; cbn [congruent_pairs].
  - exists u, []. split; [done|]. split; [done|]. split; [apply same_roots_refl|]. cbn. tauto.
  - destruct (Hr a b) as [Ha Hb]; [by left|].
    destruct (congruent_ok ns u a b Ok L Hc Ha Hb) as (u1 & c & -> & Ok1 & S1 & C1).
    destruct (IH u1 Ok1) as (u2 & qs & -> & Ok2 & S2 & C2); [destruct S1; lia|done|intros; apply Hr; by right|].
    exists u2, (if c then (a, b) :: qs else qs). split; [done|]. split; [done|]. split; [by eapply same_roots_trans|].
    intros x y. assert (C2' : In (x, y) qs <-> In (x, y) ps /\ cong ns (uf_parent u) x y) by (rewrite C2, (cong_same _ _ _ _ _ S1); done).
    destruct c; cbn; rewrite C2'; split.
    + intros [[= <- <-]|[? ?]]; [split; [by left|by apply C1]|split; [by right|done]].
    + intros [[[= <- <-]|?] ?]; [by left|by right].
    + intros [? ?]. split; [by right|done].
    + intros [[[= <- <-]|Hi] Hc']; [by apply C1 in Hc'|done].
Qed.
Lemma in_all_pairs la lb a b : In (a, b) (all_pairs la lb) <-> In a la /\ In b lb.
Proof.
  unfold all_pairs. rewrite in_flat_map. split.
  - intros (x & Hx & Hy). apply in_map_iff in Hy as (y & [= -> ->] & Hy). done.
  - intros [Ha Hb]. exists a. split; [done|]. apply in_map_iff. by exists b.
Qed.

Lemma next_pair_ok pending : forall u, uf_ok u -> (forall a b, In (a, b) pending -> a < length (uf_parent u) /\ b < length (uf_parent u)) ->
  exists u' res, next_pair u pending = Some (u', res) /\ uf_ok u' /\ same_roots (uf_parent u) (uf_parent u') /\
  match res with
  | None => forall a b, In (a, b) pending -> eqv (uf_parent u) a b
  | Some (ra, rb, rest) => ra <> rb /\ exists pre a b, pending = pre ++ (a, b) :: rest /\
      (forall a b, In (a, b) pre -> eqv (uf_parent u) a b) /\ root (uf_parent u) a ra /\ root (uf_parent u) b rb
  end.
Proof.
  induction pending as [|[a b] pending IH]; intros u Ok Hr; cbn [next_pair].
  - exists u, None. split; [done|]. split; [done|]. split; [apply same_roots_refl|]. intros ? ? [].
  - destruct (Hr a b) as [Ha Hb]; [by left|].
    destruct (find_total u a Ok Ha) as (u1 & ra & -> & Ra & Ok1 & S1).
    destruct (find_total u1 b Ok1) as (u2 & rb & -> & Rb & Ok2 & S2); [destruct S1; lia|].
    assert (S12 : same_roots (uf_parent u) (uf_parent u2)) by (by eapply same_roots_trans).
    assert (Rb' : root (uf_parent u) b rb) by (by apply (proj2 S1)).
    destruct (Nat.eqb_spec ra rb) as [->|Hn].
    + destruct (IH u2 Ok2) as (u3 & res & -> & Ok3 & S3 & HH).
      { intros x y Hxy. destruct S12 as [-> _]. apply Hr. by right. }
      exists u3, res. split; [done|]. split; [done|]. split; [by eapply same_roots_trans|].
      destruct res as [[[r1 r2] rest]|].
      * destruct HH as (Hn & pre & x & y & -> & Hpre & Hx & Hy). split; [done|]. exists ((a, b) :: pre), x, y. split; [done|].
        split; [|split; by apply (proj2 S12)]. intros c d [[= <- <-]|Hin]; [by exists rb|].
        apply (same_roots_eqv _ _ _ _ S12). by apply Hpre.
      * intros c d [[= <- <-]|Hin]; [by exists rb|]. apply (same_roots_eqv _ _ _ _ S12). by apply HH.
    + exists u2, (Some (ra, rb, pending)). split; [done|]. split; [done|]. split; [done|]. split; [done|].
      exists [], a, b. split; [done|]. split; [|done]. intros ? ? [].
Qed.

Lemma merge_roots_ok g ra rb pending : eg_ok g -> root (par g) ra ra -> root (par g) rb rb -> ra <> rb ->
  exists g' pushed x y, merge_roots g ra rb pending = Some (g', pushed ++ pending) /\ eg_ok g' /\
    eg_nodes g' = eg_nodes g /\ eg_map g' = eg_map g /\ nroots (par g') < nroots (par g) /\
    ((x = ra /\ y = rb) \/ (x = rb /\ y = ra)) /\
    (forall z s, root (par g') z s <-> (root (par g) z s /\ s <> x) \/ (root (par g) z x /\ s = y)) /\
    (forall la lb a b, eg_uses g !! ra = Some la -> eg_uses g !! rb = Some lb ->
       (In (a, b) pushed <-> In a la /\ In b lb /\ cong (eg_nodes g) (par g') a b)) /\
    (forall i l u, eg_uses g !! i = Some l -> In u l -> exists l', eg_uses g' !! i = Some l' /\ In u l') /\
    (forall l u, eg_uses g !! x = Some l -> In u l -> exists l', eg_uses g' !! y = Some l' /\ In u l').
Proof.
  intros Ok Hra Hrb Hn. pose proof Ok as [Huf Hpar Hul Hch Hmap Hus]. unfold merge_roots.
  pose proof (root_lt _ _ _ Hra) as [La _]. pose proof (root_lt _ _ _ Hrb) as [Lb _].
  destruct (lookup_lt_is_Some_2 (eg_uses g) ra) as [la Ea]; [lia|]. destruct (lookup_lt_is_Some_2 (eg_uses g) rb) as [lb Eb]; [lia|].
  rewrite Ea, Eb. destruct (union_link _ _ _ Huf Hra Hrb Hn) as (u1 & b1 & x & y & -> & Ok1 & L1 & Hxy & Hlink).
  destruct (find_total u1 ra Ok1) as (u2 & nr & -> & Rn & Ok2 & S2); [lia|].
  destruct (congruent_pairs_ok (eg_nodes g) (all_pairs la lb) u2 Ok2) as (u3 & qs & -> & Ok3 & S3 & Hqs).
  { destruct S2; lia. } { done. } { intros a b [Ha Hb]%in_all_pairs. split; [exact (Hus _ _ _ Ea Ha)|exact (Hus _ _ _ Eb Hb)]. }
  assert (S13 : same_roots (uf_parent u1) (uf_parent u3)) by (by eapply same_roots_trans).
  set (us := if Nat.eqb nr ra then <[ra := la ++ lb]> (eg_uses g) else <[rb := lb ++ la]> (eg_uses g)).
  assert (Hxr : root (par g) x x /\ root (par g) y y /\ x <> y) by (destruct Hxy as [[-> ->]|[-> ->]]; repeat split; try done; congruence).
  destruct Hxr as (Hx & Hy & Hxyn).
  assert (Hnr : (nr = ra <-> y = ra)).
  { apply Hlink in Rn as [[Rn N]|[Rn ->]].
    - pose proof (root_fun _ _ _ _ Rn Hra) as ->. destruct Hxy as [[-> ->]|[-> ->]]; done.
    - done. }
  assert (Hus' : us = (if Nat.eqb nr ra then <[ra := la ++ lb]> (eg_uses g) else <[rb := lb ++ la]> (eg_uses g))) by done. clearbody us.
  assert (Hy_us : exists ly, us !! y = Some ly /\ (forall u, In u ly <-> In u la \/ In u lb) /\ forall i, i <> y -> us !! i = eg_uses g !! i).
  { rewrite Hus'. destruct (Nat.eqb_spec nr ra) as [E|E].
    - apply Hnr in E. subst y. exists (la ++ lb). split; [apply list_lookup_insert; lia|]. split; [intros; apply in_app_iff|].
      intros i Hi. by apply list_lookup_insert_ne.
    - assert (y = rb) as -> by (destruct Hxy as [[-> ->]|[-> ->]]; [done|]; exfalso; by apply E, Hnr).
      exists (lb ++ la). split; [apply list_lookup_insert; lia|]. split; [intros; rewrite in_app_iff; tauto|].
      intros i Hi. by apply list_lookup_insert_ne. }
  assert (Lus : length us = length (eg_uses g)) by (rewrite Hus'; destruct (Nat.eqb _ _); apply insert_length).
  clear Hus'. destruct Hy_us as (ly & Ely & Hly & Hoth).
  assert (Hroots : forall z s, root (uf_parent u3) z s <-> (root (par g) z s /\ s <> x) \/ (root (par g) z x /\ s = y)).
  { intros z s. rewrite (proj2 S13). apply Hlink. }
  exists (EG (eg_nodes g) u3 (eg_map g) us), (rev qs), x, y. split; [done|]. cbn [eg_nodes eg_uf eg_map eg_uses].
  split; [|split; [done|]; split; [done|]; split; [|split; [done|]; split; [done|]; split; [|split]]].
  - split; cbn [eg_nodes eg_uf eg_map eg_uses]; try done.
    + destruct S13; lia.
    + lia.
    + intros i l u Hi Hu. destruct (decide (i = y)) as [->|Hi'].
      * rewrite Ely in Hi. injection Hi as <-. apply Hly in Hu as [Hu|Hu]; [exact (Hus _ _ _ Ea Hu)|exact (Hus _ _ _ Eb Hu)].
      * rewrite Hoth in Hi by done. exact (Hus _ _ _ Hi Hu).
  - rewrite (nroots_same _ _ S13). exact (nroots_link _ _ x y L1 Hx Hy Hxyn Hlink).
  - intros la' lb' a b Ha' Hb'. injection Ha' as <-. injection Hb' as <-.
    rewrite <- in_rev, Hqs, in_all_pairs, (cong_same _ _ _ _ _ S3). tauto.
  - intros i l u Hi Hu. destruct (decide (i = y)) as [->|Hi'].
    + exists ly. split; [done|]. apply Hly. destruct Hxy as [[-> ->]|[-> ->]].
      * rewrite Eb in Hi. injection Hi as <-. by right.
      * rewrite Ea in Hi. injection Hi as <-. by left.
    + rewrite <- Hoth in Hi by done. by exists l.
  - intros l u Hi Hu. exists ly. split; [done|]. apply Hly. destruct Hxy as [[-> ->]|[-> ->]].
    + rewrite Ea in Hi. injection Hi as <-. by left.
    + rewrite Eb in Hi. injection Hi as <-. by right.
Qed.

(** * Propagation *)
(** The equivalence generated by the classes and the pending pairs. *)
Definition rel (p : list nat) (pending : list (nat * nat)) : nat -> nat -> Prop :=
  clos_refl_sym_trans nat (fun x y => eqv p x y \/ In (x, y) pending).
Definition closed (g : egraph) (pending : list (nat * nat)) : Prop :=
  forall u1 u2, cong (eg_nodes g) (par g) u1 u2 -> rel (par g) pending u1 u2.
(** Every application node is in the use lists of the classes of its children. *)
Definition uses_ok (g : egraph) : Prop :=
  forall u f a c r, eg_nodes g !! u = Some (NApp f a) -> c = f \/ c = a -> root (par g) c r -> exists l, eg_uses g !! r = Some l /\ In u l.
Lemma rel_mono p q l l' : (forall x y, eqv p x y \/ In (x, y) l -> rel q l' x y) -> forall x y, rel p l x y -> rel q l' x y.
Proof.
  intros H x y Hr. induction Hr; [by apply H|apply rst_refl|by apply rst_sym|by eapply rst_trans].
Qed.
Lemma rel_nil p x y : rel p [] x y -> x = y \/ eqv p x y.
Proof.
  induction 1 as [x y [H|[]]|x|x y _ IH|x y z _ IH1 _ IH2].
  - by right.
  - by left.
  - destruct IH as [->|IH]; [by left|right; by apply eqv_sym].
  - destruct IH1 as [->|(r & A & B)]; [done|]. destruct IH2 as [<-|(s & C & D)]; [right; by exists r|].
    right. exists r. rewrite (root_fun _ _ _ _ B C). rewrite (root_fun _ _ _ _ B C) in A. done.
Qed.
Lemma rel_step p l x y : eqv p x y \/ In (x, y) l -> rel p l x y.
Proof. intros H. by apply rst_step. Qed.

(** Interpretations of the nodes. *)
Record interp (D : Type) := Interp { i_lit : Z -> D; i_var : Z -> D; i_name : string -> D; i_app : D -> D -> D }.
Arguments Interp {D}. Arguments i_lit {D}. Arguments i_var {D}. Arguments i_name {D}. Arguments i_app {D}.
Definition node_val {D} (M : interp D) (v : nat -> D) (n : enode) : D :=
  match n with NLit z => i_lit M z | NVar i => i_var M i | NName s => i_name M s | NApp f a => i_app M (v f) (v a) end.
Definition models {D} (M : interp D) (v : nat -> D) (g : egraph) : Prop :=
  (forall i n, eg_nodes g !! i = Some n -> v i = node_val M v n) /\ (forall x r, root (par g) x r -> v x = v r).
Lemma models_eqv {D} (M : interp D) v g x y : models M v g -> eqv (par g) x y -> v x = v y.
Proof. intros [_ H] (r & A & B). by rewrite (H _ _ A), (H _ _ B). Qed.
Lemma models_cong {D} (M : interp D) v g x y : models M v g -> cong (eg_nodes g) (par g) x y -> v x = v y.
Proof.
  intros H (f1 & a1 & f2 & a2 & A & B & C & E). rewrite (proj1 H _ _ A), (proj1 H _ _ B). cbn.
  by rewrite (models_eqv _ _ _ _ _ H C), (models_eqv _ _ _ _ _ H E).
Qed.

Lemma with_uf_ok g u : eg_ok g -> uf_ok u -> same_roots (par g) (uf_parent u) -> eg_ok (EG (eg_nodes g) u (eg_map g) (eg_uses g)).
Proof. intros [? ? ? ? ? ?] Ok [L _]. split; cbn; try done. lia. Qed.
Lemma with_uf_models {D} (M : interp D) v g u : same_roots (par g) (uf_parent u) -> models M v g -> models M v (EG (eg_nodes g) u (eg_map g) (eg_uses g)).
Proof. intros [_ S] [A B]. split; cbn; [done|]. intros x r Hr. apply B. by apply S. Qed.
Lemma with_uf_uses g u : same_roots (par g) (uf_parent u) -> uses_ok g -> uses_ok (EG (eg_nodes g) u (eg_map g) (eg_uses g)).
Proof. intros [_ S] H n f a c r Hn Hc Hr. cbn in *. apply S in Hr. by eapply H. Qed.

Lemma propagate_ok n : forall g pending, eg_ok g -> (forall a b, In (a, b) pending -> a < length (eg_nodes g) /\ b < length (eg_nodes g)) ->
  nroots (par g) <= n ->
  exists g', propagate n g pending = Some g' /\ eg_ok g' /\ eg_nodes g' = eg_nodes g /\ eg_map g' = eg_map g /\
    (forall x y, eqv (par g) x y \/ In (x, y) pending -> eqv (par g') x y) /\
    (forall (D : Type) (M : interp D) v, models M v g -> (forall a b, In (a, b) pending -> v a = v b) -> models M v g') /\
    (uses_ok g -> closed g pending -> uses_ok g' /\ closed g' []).
Proof.
  induction n as [n IH] using lt_wf_ind. intros g pending Ok Hr Hn.
  destruct (next_pair_ok pending (eg_uf g) (ok_uf g Ok)) as (u & res & E & Oku & S & Hres).
  { intros a b Hab. rewrite (ok_par g Ok). by apply Hr. }
  set (g1 := EG (eg_nodes g) u (eg_map g) (eg_uses g)).
  assert (Ok1 : eg_ok g1) by (by apply with_uf_ok).
  destruct res as [[[ra rb] rest]|].
  2: { exists g1. split; [destruct n; cbn; rewrite E; done|]. split; [done|]. split; [done|]. split; [done|]. cbn. split; [|split].
       - intros x y [H|H]; apply (same_roots_eqv _ _ _ _ S); [done|by apply Hres].
       - intros D M v Hm _. by apply with_uf_models.
       - intros Hu Hc. split; [by apply with_uf_uses|]. intros u1 u2 Hcg. apply (cong_same _ _ _ _ _ S) in Hcg. apply Hc in Hcg.
         eapply rel_mono; [|exact Hcg]. intros x y H. apply rel_step. left. apply (same_roots_eqv _ _ _ _ S). destruct H as [H|H]; [done|by apply Hres]. }
  destruct Hres as (Hne & pre & a & b & -> & Hpre & Ha & Hb).
  assert (Hra : root (par g1) ra ra) by (apply (proj2 S); by eapply root_root).
  assert (Hrb : root (par g1) rb rb) by (apply (proj2 S); by eapply root_root).
  assert (Ha1 : root (par g1) a ra) by (by apply (proj2 S)). assert (Hb1 : root (par g1) b rb) by (by apply (proj2 S)).
  destruct (merge_roots_ok g1 ra rb rest Ok1 Hra Hrb Hne) as (g2 & pushed & x & y & Em & Ok2 & Nd2 & Mp2 & Nr2 & Hxy & Hlink & Hpush & Hu1 & Hu2).
  assert (Nr1 : nroots (par g1) = nroots (par g)) by (by apply nroots_same).
  destruct n as [|n]; [lia|].
  assert (Hrange : forall c d, In (c, d) (pushed ++ rest) -> c < length (eg_nodes g2) /\ d < length (eg_nodes g2)).
  { intros c d [H|H]%in_app_iff.
    - destruct (lookup_lt_is_Some_2 (eg_uses g1) ra) as [la Ela]; [rewrite (ok_uses_len _ Ok1), <- (ok_par _ Ok1); apply root_lt in Hra; lia|].
      destruct (lookup_lt_is_Some_2 (eg_uses g1) rb) as [lb Elb]; [rewrite (ok_uses_len _ Ok1), <- (ok_par _ Ok1); apply root_lt in Hrb; lia|].
      pose proof (proj1 (Hpush _ _ _ _ Ela Elb) H) as (H1 & H2 & _). rewrite Nd2. split; [exact (ok_uses _ Ok1 _ _ _ Ela H1)|exact (ok_uses _ Ok1 _ _ _ Elb H2)].
    - rewrite Nd2. apply Hr. apply in_app_iff. right. by right. }
  destruct (IH n ltac:(lia) g2 (pushed ++ rest) Ok2 Hrange ltac:(lia)) as (g' & Ep & Ok' & Nd' & Mp' & Hin' & Hm' & Hcl').
  assert (Hxr : root (par g1) x x /\ root (par g1) y y /\ x <> y) by (destruct Hxy as [[-> ->]|[-> ->]]; repeat split; try done; congruence).
  destruct Hxr as (Hx & Hy & Hxyn).
  pose proof (link_eqv (par g1) (par g2) x y Hx Hy Hxyn Hlink) as Heqv.
  assert (Hmono : forall c d, eqv (par g) c d -> eqv (par g2) c d).
  { intros c d Hcd. apply (same_roots_eqv _ _ _ _ S) in Hcd as (r & H1 & H2). apply (Heqv _ _ _ _ H1 H2). by left. }
  assert (Hab : eqv (par g2) a b).
  { apply (Heqv _ _ _ _ Ha1 Hb1). right. destruct Hxy as [[-> ->]|[-> ->]]; auto. }
  assert (Hgen : forall c d, eqv (par g) c d \/ In (c, d) (pre ++ (a, b) :: rest) -> eqv (par g2) c d \/ In (c, d) (pushed ++ rest)).
  { intros c d [H|H]; [left; by apply Hmono|]. apply in_app_iff in H as [H|[[= <- <-]|H]].
    - left. apply Hmono. by apply Hpre.
    - by left.
    - right. apply in_app_iff. by right. }
  exists g'. split. { cbn [propagate]. rewrite E. fold g1. rewrite Em. exact Ep. }
  split; [done|]. split; [by rewrite Nd', Nd2|]. split; [by rewrite Mp', Mp2|]. split; [|split].
  - intros c d H. apply Hin'. by apply Hgen.
  - intros D M v Hmod Hv.
    assert (Hvab : v ra = v rb).
    { rewrite <- (proj2 Hmod _ _ Ha), <- (proj2 Hmod _ _ Hb). apply Hv. apply in_app_iff. right. by left. }
    assert (Hm2 : models M v g2).
    { split; [rewrite Nd2; apply Hmod|]. intros z s Hz. apply Hlink in Hz as [[Hz _]|[Hz ->]].
      - apply (proj2 Hmod). by apply (proj2 S).
      - apply (proj2 S) in Hz. rewrite (proj2 Hmod _ _ Hz). destruct Hxy as [[-> ->]|[-> ->]]; done. }
    apply Hm'; [done|]. intros c d [H|H]%in_app_iff.
    + destruct (lookup_lt_is_Some_2 (eg_uses g1) ra) as [la Ela]; [rewrite (ok_uses_len _ Ok1), <- (ok_par _ Ok1); apply root_lt in Hra; lia|].
      destruct (lookup_lt_is_Some_2 (eg_uses g1) rb) as [lb Elb]; [rewrite (ok_uses_len _ Ok1), <- (ok_par _ Ok1); apply root_lt in Hrb; lia|].
      pose proof (proj1 (Hpush _ _ _ _ Ela Elb) H) as (_ & _ & H1). eapply models_cong; [exact Hm2|]. by rewrite Nd2.
    + apply Hv. apply in_app_iff. right. by right.
  - intros Hus Hcl. apply Hcl'.
    + intros w f c0 c r Hw Hc Hrt. rewrite Nd2 in Hw. apply Hlink in Hrt as [[Hrt _]|[Hrt ->]].
      * apply (proj2 S) in Hrt. destruct (Hus _ _ _ _ _ Hw Hc Hrt) as (l & El & Hl). by eapply Hu1.
      * apply (proj2 S) in Hrt. destruct (Hus _ _ _ _ _ Hw Hc Hrt) as (l & El & Hl). by eapply Hu2.
    + intros w1 w2 Hcg. pose proof Hcg as (f1 & a1 & f2 & a2 & W1 & W2 & F & A). rewrite Nd2 in W1, W2. change (eg_nodes g1) with (eg_nodes g) in W1, W2.
      assert (Hroot : forall c, c < length (eg_nodes g) -> exists r, root (par g1) c r).
      { intros c Hc. apply root_exists; [apply (ok_uf _ Ok1)|]. rewrite (ok_par _ Ok1). done. }
      pose proof (ok_child _ Ok _ _ _ W1) as [Lf1 La1]. pose proof (ok_child _ Ok _ _ _ W2) as [Lf2 La2].
      pose proof (lookup_lt_Some _ _ _ W1) as Lw1. pose proof (lookup_lt_Some _ _ _ W2) as Lw2.
      destruct (Hroot f1) as [rf1 Rf1]; [lia|]. destruct (Hroot f2) as [rf2 Rf2]; [lia|].
      destruct (Hroot a1) as [sa1 Sa1]; [lia|]. destruct (Hroot a2) as [sa2 Sa2]; [lia|].
      assert (Hcross : forall c1 c2 r1 r2, (c1 = f1 \/ c1 = a1) -> (c2 = f2 \/ c2 = a2) -> root (par g1) c1 r1 -> root (par g1) c2 r2 ->
        (r1 = x /\ r2 = y) \/ (r1 = y /\ r2 = x) -> rel (par g2) (pushed ++ rest) w1 w2).
      { intros c1 c2 r1 r2 Hc1 Hc2 R1 R2 Hr12. apply (proj2 S) in R1, R2.
        destruct (Hus _ _ _ _ _ W1 Hc1 R1) as (l1 & El1 & Hl1). destruct (Hus _ _ _ _ _ W2 Hc2 R2) as (l2 & El2 & Hl2).
        change (eg_uses g) with (eg_uses g1) in El1, El2. change (eg_nodes g1) with (eg_nodes g) in Hpush. rewrite Nd2 in Hcg.
        assert (Hor : (r1 = ra /\ r2 = rb) \/ (r1 = rb /\ r2 = ra)) by (destruct Hxy as [[-> ->]|[-> ->]]; tauto).
        destruct Hor as [[-> ->]|[-> ->]].
        - apply rel_step. right. apply in_app_iff. left. by apply (Hpush _ _ _ _ El1 El2).
        - apply rst_sym. apply rel_step. right. apply in_app_iff. left. apply (Hpush _ _ _ _ El2 El1). split; [done|]. split; [done|].
          by apply cong_sym. }
      apply (Heqv _ _ _ _ Rf1 Rf2) in F. apply (Heqv _ _ _ _ Sa1 Sa2) in A.
      destruct F as [F|F]; [|apply (Hcross f1 f2 rf1 rf2); auto].
      destruct A as [A|A]; [|apply (Hcross a1 a2 sa1 sa2); auto].
      assert (Hold : cong (eg_nodes g) (par g) w1 w2).
      { exists f1, a1, f2, a2. split; [done|]. split; [done|]. subst. split; apply (same_roots_eqv _ _ _ _ S); eexists; eauto. }
      apply Hcl in Hold. eapply rel_mono; [|exact Hold]. intros c d H. apply rel_step. by apply Hgen.
Qed.
