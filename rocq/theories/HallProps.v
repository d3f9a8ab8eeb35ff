(** C75: bipartite matching with its witnesses. *)
From Coq Require Import List Arith Bool Lia Sorting.Sorted.
From stdpp Require Import list list_numbers.
From Verif Require Import MatchModel MatchProofs.
Local Open Scope list_scope.

Notation allowed adj x v := (exists vs, adj !! x = Some vs /\ v ∈ vs).
(** Every item on a slot of its own that it may use. *)
Definition placement (adj : list (list nat)) (ns : nat) (a : list nat) : Prop :=
  length a = length adj /\ NoDup a /\ forall i s, a !! i = Some s -> s < ns /\ allowed adj i s.

(** ** The deficient set *)
Section reach.
Context (adj : list (list nat)) (ns : nat) (sm im : matches) (M : match_ok adj ns sm im None).
Context (P : nat -> Prop) (P_free : forall x, im !! x = Some None -> P x) (P_next : forall x v, P x -> allowed adj x v -> sm !! v <> Some None /\ forall w, sm !! v = Some (Some w) -> P w).
Notation n := (length adj).
Definition unmarked (l : list bool) : nat := length (List.filter negb l).
Lemma unmarked_insert l w : l !! w = Some false -> unmarked l = S (unmarked (<[w := true]> l)).
Proof.
  unfold unmarked. revert w. induction l as [| b l IH]; intros w E; [discriminate |]. destruct w as [| w]; cbn in E; [injection E as ->; reflexivity |].
  cbn [list_insert insert List.filter]. specialize (IH w E). destruct b; cbn [negb length]; rewrite IH; reflexivity.
Qed.
Record reach_inv (items slots : list bool) (stack : list nat) : Prop := ReachInv {
  r_il : length items = n;
  r_sl : length slots = ns;
  r_stack : forall x, x ∈ stack -> items !! x = Some true;
  r_sound : forall x, items !! x = Some true -> P x;
  r_slot : forall v, slots !! v = Some true -> (exists x, items !! x = Some true /\ allowed adj x v) /\ forall w, sm !! v = Some (Some w) -> items !! w = Some true }.
Lemma reach_slot_ok items slots stack u v : reach_inv items slots stack -> items !! u = Some true -> allowed adj u v ->
  exists items' slots' stack', reach_slot sm (items, slots, stack) v = Some (items', slots', stack') /\ reach_inv items' slots' stack' /\ (v < ns -> slots' !! v = Some true) /\
    (forall x, items !! x = Some true -> items' !! x = Some true) /\ (forall x, slots !! x = Some true -> slots' !! x = Some true) /\ (forall x, x ∈ stack -> x ∈ stack') /\
    (forall x, items' !! x = Some true -> items !! x = Some true \/ x ∈ stack') /\ length stack' + unmarked items' = length stack + unmarked items.
Proof.
  intros Iv Eu A. unfold reach_slot. rewrite (r_sl _ _ _ Iv). destruct (Nat.leb_spec ns v) as [Hl | Hl].
  { exists items, slots, stack. split; [reflexivity |]. split; [exact Iv |]. split; [lia |]. repeat split; auto. }
  destruct (lookup_lt_is_Some_2 slots v) as [[] Ev]; [rewrite (r_sl _ _ _ Iv); exact Hl | |]; rewrite Ev.
  { exists items, slots, stack. split; [reflexivity |]. split; [exact Iv |]. split; [auto |]. repeat split; auto. }
  assert (Vl : v < length slots) by (rewrite (r_sl _ _ _ Iv); exact Hl).
  assert (Sv : <[v := true]> slots !! v = Some true) by (apply list_lookup_insert; exact Vl).
  assert (So : forall x, <[v := true]> slots !! x = Some true -> x = v \/ slots !! x = Some true). { intros x E. destruct (decide (x = v)) as [-> | D]; [left; reflexivity |]. right. rewrite list_lookup_insert_ne in E by congruence. exact E. }
  assert (Sm : forall x, slots !! x = Some true -> <[v := true]> slots !! x = Some true). { intros x E. destruct (decide (x = v)) as [-> | D]; [exact Sv |]. rewrite list_lookup_insert_ne by congruence. exact E. }
  assert (Pu : P u) by (apply (r_sound _ _ _ Iv), Eu). destruct (P_next u v Pu A) as [Nf Nw].
  destruct (lookup_lt_is_Some_2 sm v) as [[w |] Es]; [rewrite (m_sl _ _ _ _ _ M); exact Hl | | contradiction]; rewrite Es.
  destruct (m_out _ _ _ _ _ M v w Es) as [Lw _]. destruct (lookup_lt_is_Some_2 items w) as [[] Ew]; [rewrite (r_il _ _ _ Iv); exact Lw | |]; rewrite Ew.
  - exists items, (<[v := true]> slots), stack. split; [reflexivity |]. split; [| split; [auto | repeat split; auto]].
    destruct Iv as [R1 R2 R3 R4 R5]. split; auto; [rewrite insert_length; exact R2 |]. intros x Ex. apply So in Ex as [-> | Ex]; [| apply R5, Ex]. split; [exists u; auto |]. intros w' E'. assert (w' = w) by congruence. subst w'. exact Ew.
  - assert (Wl : w < length items) by (apply lookup_lt_Some in Ew; exact Ew). assert (Iw : <[w := true]> items !! w = Some true) by (apply list_lookup_insert; exact Wl).
    assert (Im : forall x, items !! x = Some true -> <[w := true]> items !! x = Some true). { intros x E. rewrite list_lookup_insert_ne; [exact E | congruence]. }
    assert (Io : forall x, <[w := true]> items !! x = Some true -> x = w \/ items !! x = Some true). { intros x E. destruct (decide (x = w)) as [-> | D]; [left; reflexivity |]. right. rewrite list_lookup_insert_ne in E by congruence. exact E. }
    exists (<[w := true]> items), (<[v := true]> slots), (w :: stack). split; [reflexivity |]. split; [| split; [auto | split; [exact Im | split; [exact Sm | split; [intros x I; right; exact I | split]]]]].
    + destruct Iv as [R1 R2 R3 R4 R5]. split.
      * rewrite insert_length. exact R1.
      * rewrite insert_length. exact R2.
      * intros x I. apply elem_of_cons in I as [-> | I]; [exact Iw | apply Im, R3, I].
      * intros x E. apply Io in E as [-> | E]; [apply Nw, Es | apply R4, E].
      * intros x Ex. apply So in Ex as [-> | Ex].
        -- split; [exists u; auto |]. intros w' E'. assert (w' = w) by congruence. subst w'. exact Iw.
        -- destruct (R5 x Ex) as [(y & Ey & Ay) R6]. split; [exists y; auto |]. intros w' E'. apply Im, R6, E'.
    + intros x E. apply Io in E as [-> | E]; [right; left | left; exact E].
    + cbn [length]. rewrite (unmarked_insert items w Ew). lia.
Qed.
Lemma reach_slots_ok u vs : (forall v, v ∈ vs -> allowed adj u v) -> forall items slots stack, reach_inv items slots stack -> items !! u = Some true ->
  exists items' slots' stack', foldM (reach_slot sm) vs (items, slots, stack) = Some (items', slots', stack') /\ reach_inv items' slots' stack' /\ (forall v, v ∈ vs -> v < ns -> slots' !! v = Some true) /\
    (forall x, items !! x = Some true -> items' !! x = Some true) /\ (forall x, slots !! x = Some true -> slots' !! x = Some true) /\ (forall x, x ∈ stack -> x ∈ stack') /\
    (forall x, items' !! x = Some true -> items !! x = Some true \/ x ∈ stack') /\ length stack' + unmarked items' = length stack + unmarked items.
Proof.
  induction vs as [| v vs IH]; intros Al items slots stack Iv Eu; cbn [foldM].
  - exists items, slots, stack. split; [reflexivity |]. split; [exact Iv |]. split; [intros v I; apply elem_of_nil in I as [] |]. repeat split; auto.
  - destruct (reach_slot_ok items slots stack u v Iv Eu) as (i1 & s1 & t1 & E1 & I1 & V1 & M1 & N1 & Q1 & O1 & L1); [apply Al; left |]. rewrite E1.
    destruct (IH ltac:(intros y I; apply Al; right; exact I) i1 s1 t1 I1 (M1 u Eu)) as (i2 & s2 & t2 & E2 & I2 & V2 & M2 & N2 & Q2 & O2 & L2). exists i2, s2, t2. split; [exact E2 |]. split; [exact I2 |].
    split; [| split; [auto | split; [auto | split; [auto | split; [| lia]]]]].
    + intros y Iy Ly. apply elem_of_cons in Iy as [-> | Iy]; [apply N2, V1, Ly | apply V2; assumption].
    + intros x Ex. destruct (O2 x Ex) as [K | K]; [| right; exact K]. destruct (O1 x K) as [K' | K']; [left; exact K' | right; apply Q2, K'].
Qed.
Lemma reach_ok : forall fuel items slots stack, reach_inv items slots stack -> length stack + unmarked items < fuel ->
  (forall x v, items !! x = Some true -> allowed adj x v -> v < ns -> x ∈ stack \/ slots !! v = Some true) ->
  exists items' slots', reach adj fuel sm (items, slots, stack) = Some (items', slots') /\ reach_inv items' slots' [] /\ (forall x v, items' !! x = Some true -> allowed adj x v -> v < ns -> slots' !! v = Some true) /\ (forall x, items !! x = Some true -> items' !! x = Some true).
Proof.
  induction fuel as [| fuel IH]; intros items slots stack Iv F Cl; [lia |]. cbn [reach]. destruct stack as [| u stack].
  - exists items, slots. split; [reflexivity |]. split; [exact Iv |]. split; [| auto]. intros x v Ex A L. destruct (Cl x v Ex A L) as [K | K]; [apply elem_of_nil in K as [] | exact K].
  - assert (Eu : items !! u = Some true) by (apply (r_stack _ _ _ Iv); left). assert (Lu : u < n) by (rewrite <- (r_il _ _ _ Iv); apply lookup_lt_Some in Eu; exact Eu).
    destruct (lookup_lt_is_Some_2 adj u Lu) as [row Er]. rewrite Er. cbn [mbind option_bind].
    assert (Iv' : reach_inv items slots stack). { destruct Iv as [R1 R2 R3 R4 R5]. split; auto. intros x I. apply R3. right. exact I. }
    destruct (reach_slots_ok u row) with (items := items) (slots := slots) (stack := stack) as (i1 & s1 & t1 & E1 & I1 & V1 & M1 & N1 & Q1 & O1 & L1); [intros v I; exists row; auto | exact Iv' | exact Eu |]. rewrite E1. cbn [mbind option_bind].
    destruct (IH i1 s1 t1 I1) as (i2 & s2 & E2 & I2 & C2 & M2); [cbn [length] in F; lia | |].
    { intros x v Ex A L. destruct (O1 x Ex) as [K | K]; [| left; exact K]. destruct (Cl x v K A L) as [K' | K']; [| right; apply N1, K'].
      apply elem_of_cons in K' as [-> | K']; [right | left; apply Q1, K']. destruct A as (vs & Evs & I). rewrite Er in Evs. injection Evs as <-. apply V1; assumption. }
    exists i2, s2. split; [exact E2 |]. split; [exact I2 |]. split; [exact C2 | auto].
Qed.
Lemma free_unmarked : length (free_items im) + unmarked (map is_free im) = n.
Proof.
  rewrite <- (m_il _ _ _ _ _ M). unfold unmarked, free_items. clear.
  assert (A : forall k, length (List.filter (fun u => match im !! (u - k) with Some None => true | _ => false end) (seq k (length im))) + length (List.filter negb (map is_free im)) = length im).
  { induction im as [| m im' IH]; intros k; [reflexivity |]. cbn [length seq map List.filter]. rewrite Nat.sub_diag. cbn [lookup list_lookup]. specialize (IH (S k)).
    assert (Q : List.filter (fun u => match (m :: im') !! (u - k) with Some None => true | _ => false end) (seq (S k) (length im')) = List.filter (fun u => match im' !! (u - S k) with Some None => true | _ => false end) (seq (S k) (length im'))).
    { apply List.filter_ext_in. intros a Ia. apply in_seq in Ia. replace (a - k) with (S (a - S k)) by lia. reflexivity. }
    rewrite Q. destruct m as [v |]; cbn [is_free negb length]; lia. }
  specialize (A 0). erewrite List.filter_ext in A; [exact A |]. intros a. cbv beta. rewrite Nat.sub_0_r. reflexivity.
Qed.
Lemma extract_ok : (exists x, im !! x = Some None) -> exists w, extract_hall adj ns sm im = Some w /\ length (h_slots w) < length (h_items w) /\ NoDup (h_items w) /\ NoDup (h_slots w) /\
  (forall x, x ∈ h_items w -> x < n) /\ (forall x v, x ∈ h_items w -> allowed adj x v -> v < ns -> v ∈ h_slots w) /\ (forall v, v ∈ h_slots w -> v < ns /\ exists x, x ∈ h_items w /\ allowed adj x v).
Proof.
  intros (x0 & E0). unfold extract_hall.
  assert (L0 : forall x, map is_free im !! x = Some true <-> im !! x = Some None). { intros x. rewrite list_lookup_fmap. destruct (im !! x) as [[v |] |]; cbn; split; congruence. }
  destruct (reach_ok (S n) (map is_free im) (replicate ns false) (rev (free_items im))) as (items & slots & E & I & C & F).
  - split.
    + rewrite map_length. apply M.
    + apply replicate_length.
    + intros x Ix. apply L0, free_items_in. apply elem_of_list_In, in_rev, elem_of_list_In, Ix.
    + intros x Ex. apply P_free, L0, Ex.
    + intros v Ev. apply lookup_replicate in Ev as [Ev _]. discriminate.
  - rewrite rev_length, free_unmarked. lia.
  - intros x v Ex _ _. left. apply L0, free_items_in in Ex. apply elem_of_list_In. apply (proj1 (in_rev _ _)). apply elem_of_list_In, Ex.
  - rewrite E. cbn [mbind option_bind]. eexists. split; [reflexivity |]. cbn [h_items h_slots].
    assert (Nf : forall v, slots !! v = Some true -> exists w, sm !! v = Some (Some w) /\ items !! w = Some true).
    { intros v Ev. destruct (r_slot _ _ _ I v Ev) as [(x & Ex & A) K]. destruct (P_next x v (r_sound _ _ _ I x Ex) A) as [N _]. assert (Lv : v < length sm) by (rewrite (m_sl _ _ _ _ _ M), <- (r_sl _ _ _ I); apply lookup_lt_Some in Ev; exact Ev).
      destruct (lookup_lt_is_Some_2 sm v Lv) as [[w |] Es]; [| contradiction]. exists w. split; [exact Es | apply K, Es]. }
    split; [| split; [apply filter_seq_nodup | split; [apply filter_seq_nodup | split; [| split]]]].
    + set (g := fun v => match sm !! v with Some (Some w) => w | _ => 0 end). apply Nat.lt_le_trans with (length (x0 :: map g (marked slots))); [cbn [length]; rewrite map_length; lia |]. apply nodup_length_le.
      * apply NoDup_cons. split.
        -- intros K. apply elem_of_list_fmap in K as (v & -> & Iv). apply marked_in in Iv. destruct (Nf v Iv) as (w & Es & _). unfold g in E0. rewrite Es in E0. destruct (m_out _ _ _ _ _ M v w Es) as [_ [K | K]]; congruence.
        -- apply NoDup_fmap_2_strong; [| apply filter_seq_nodup]. intros x y Ix Iy Exy. apply marked_in in Ix. apply marked_in in Iy. destruct (Nf x Ix) as (wx & Ex & _). destruct (Nf y Iy) as (wy & Ey & _). unfold g in Exy. rewrite Ex, Ey in Exy. subst wy.
           destruct (m_out _ _ _ _ _ M x wx Ex) as [_ [Kx | Kx]]; [| discriminate]. destruct (m_out _ _ _ _ _ M y wx Ey) as [_ [Ky | Ky]]; [| discriminate]. congruence.
      * intros y Iy. apply marked_in. apply elem_of_cons in Iy as [-> | Iy]; [apply F, L0, E0 |]. apply elem_of_list_fmap in Iy as (v & -> & Iv). apply marked_in in Iv. destruct (Nf v Iv) as (w & Es & Ew). unfold g. rewrite Es. exact Ew.
    + intros x Ix. apply marked_in in Ix. apply lookup_lt_Some in Ix. rewrite (r_il _ _ _ I) in Ix. exact Ix.
    + intros x v Ix A L. apply marked_in. apply marked_in in Ix. apply (C x v Ix A L).
    + intros v Iv. apply marked_in in Iv. split; [apply lookup_lt_Some in Iv; rewrite (r_sl _ _ _ I) in Iv; exact Iv |]. destruct (r_slot _ _ _ I v Iv) as [(x & Ex & A) _]. exists x. split; [apply marked_in, Ex | exact A].
Qed.
End reach.

(** ** Every instance is decided *)
Lemma pigeonhole_placement adj ns a items slots : placement adj ns a -> NoDup items -> (forall x, x ∈ items -> x < length adj) -> (forall x v, x ∈ items -> allowed adj x v -> v < ns -> v ∈ slots) -> length items <= length slots.
Proof.
  intros (L & N & A) Ni Li Cl. set (g := fun x => match a !! x with Some s => s | None => 0 end). rewrite <- (map_length g). apply nodup_length_le.
  - apply NoDup_fmap_2_strong; [| exact Ni]. intros x y Ix Iy E. unfold g in E. destruct (lookup_lt_is_Some_2 a x) as [sx Ex]; [rewrite L; apply Li, Ix |]. destruct (lookup_lt_is_Some_2 a y) as [sy Ey]; [rewrite L; apply Li, Iy |]. rewrite Ex, Ey in E. subst sy. apply (NoDup_lookup _ _ _ _ N Ex Ey).
  - intros s Is. apply elem_of_list_fmap in Is as (x & -> & Ix). unfold g. destruct (lookup_lt_is_Some_2 a x) as [sx Ex]; [rewrite L; apply Li, Ix |]. rewrite Ex. destruct (A x sx Ex) as [Ls As]. apply (Cl x); assumption.
Qed.
Definition deficient (adj : list (list nat)) (ns : nat) (w : hall) : Prop :=
  length (h_slots w) < length (h_items w) /\ NoDup (h_items w) /\ NoDup (h_slots w) /\ (forall x, x ∈ h_items w -> x < length adj) /\ (forall x v, x ∈ h_items w -> allowed adj x v -> v < ns -> v ∈ h_slots w) /\
  ((forall v, v ∈ h_slots w -> v < ns /\ exists x, x ∈ h_items w /\ allowed adj x v) \/ h_slots w = seq 0 ns).
Lemma assign_spec adj ns : exists r, assign_or_hall adj ns = Some r /\ match r with Feasible a => placement adj ns a | Infeasible w => deficient adj ns w end.
Proof.
  unfold assign_or_hall. destruct (Nat.ltb_spec ns (length adj)) as [Hl | Hl].
  - eexists. split; [reflexivity |]. unfold deficient. cbn [h_items h_slots]. rewrite !seq_length. split; [exact Hl |]. split; [apply NoDup_ListNoDup, seq_NoDup |]. split; [apply NoDup_ListNoDup, seq_NoDup |]. split; [intros x I; apply elem_of_seq in I; lia |].
    split; [intros x v _ _ L; apply elem_of_seq; lia | right; reflexivity].
  - assert (M0 : match_ok adj ns (replicate ns None) (replicate (length adj) None) None).
    { split; [apply replicate_length | apply replicate_length | |]; intros x v E; apply lookup_replicate in E as [E _]; discriminate. }
    destruct (hopcroft_karp_ok adj ns (S (length adj)) _ _ M0) as (sm & im & E & M & P & P1 & P2).
    { assert (A : length (free_items (replicate (length adj) (@None nat))) <= length (seq 0 (length adj))); [| rewrite seq_length in A; lia]. apply nodup_length_le; [apply filter_seq_nodup |]. intros x I. apply filter_seq_in in I as [I _]. rewrite replicate_length in I. apply elem_of_seq. lia. }
    rewrite E. cbn [mbind option_bind]. destruct (mapM id im) as [a |] eqn:Ea.
    + eexists. split; [reflexivity |]. apply mapM_Some in Ea. split; [rewrite <- (Forall2_length _ _ _ Ea); apply M |].
      assert (K : forall i s, a !! i = Some s -> im !! i = Some (Some s)). { intros i s Ei. destruct (Forall2_lookup_r _ _ _ _ _ Ea Ei) as (m & Em & Es). cbn in Es. congruence. }
      split; [apply NoDup_alt; intros i j s Ei Ej; apply K, (m_in _ _ _ _ _ M) in Ei as [_ Ei]; apply K, (m_in _ _ _ _ _ M) in Ej as [_ Ej]; congruence |].
      intros i s Ei. apply K, (m_in _ _ _ _ _ M) in Ei as [A S0]. split; [rewrite <- (m_sl _ _ _ _ _ M); apply lookup_lt_Some in S0; exact S0 | exact A].
    + destruct (extract_ok adj ns sm im M P P1 P2) as (w & Ew & K1 & K2 & K3 & K4 & K5 & K6).
      { apply mapM_None in Ea. apply Exists_exists in Ea as (m & Im & Em). cbn in Em. subst m. apply elem_of_list_lookup in Im as [x Ex]. exists x. exact Ex. }
      rewrite Ew. cbn [mbind option_bind]. eexists. split; [reflexivity |]. unfold deficient. repeat split; auto.
Qed.
(** The search answers on every instance: no index panic, no overflow, no endless loop. *)
Theorem C75_total adj ns : exists r, assign_or_hall adj ns = Some r.
Proof. destruct (assign_spec adj ns) as (r & E & _). exists r. exact E. Qed.
(** A returned assignment gives every item a slot of its own among its allowed ones, and the
    checker accepts exactly such assignments. *)
Theorem C75_feasible adj ns a : assign_or_hall adj ns = Some (Feasible a) -> placement adj ns a /\ is_valid_assignment adj ns a = true.
Proof.
  intros E. destruct (assign_spec adj ns) as (r & E' & H). rewrite E in E'. injection E' as <-. split; [exact H |].
  destruct H as (L & N & A). unfold is_valid_assignment. apply andb_true_iff. split; [apply Nat.eqb_eq, L |].
  assert (K : forall rows b used, (forall i s, b !! i = Some s -> s < ns /\ s ∉ used /\ allowed rows i s) -> NoDup b -> valid_from ns used rows b = true).
  { clear. induction rows as [| vs rows IH]; intros [| s b] used H N; try reflexivity. cbn [valid_from]. destruct (H 0 s eq_refl) as (L & U & vs' & Ev & Iv). injection Ev as <-. apply NoDup_cons in N as [Ns N].
    apply Nat.ltb_lt in L. rewrite L. rewrite bool_decide_eq_true_2 by exact Iv. rewrite bool_decide_eq_false_2 by exact U. cbn [andb negb]. apply IH; [| exact N]. intros i t Et. destruct (H (S i) t Et) as (Lt & Ut & A). split; [exact Lt |]. split; [| exact A].
    rewrite not_elem_of_cons. split; [| exact Ut]. intros ->. apply Ns. apply elem_of_list_lookup. exists i. exact Et. }
  apply K; [| exact N]. intros i s Ei. destruct (A i s Ei) as [Ls As]. split; [exact Ls |]. split; [apply not_elem_of_nil | exact As].
Qed.
Theorem C75_valid_exact adj ns a : is_valid_assignment adj ns a = true <-> placement adj ns a.
Proof.
  unfold is_valid_assignment. rewrite andb_true_iff, Nat.eqb_eq. 
  assert (K : forall rows b used, length b = length rows -> valid_from ns used rows b = true <-> NoDup b /\ forall i s, b !! i = Some s -> s < ns /\ s ∉ used /\ allowed rows i s).
  { clear. induction rows as [| vs rows IH]; intros [| s b] used L; try discriminate L; cbn [valid_from].
    - split; [intros _; split; [apply NoDup_nil_2 | intros i s E; discriminate] | reflexivity].
    - injection L as L. rewrite !andb_true_iff, negb_true_iff, bool_decide_eq_true, bool_decide_eq_false, Nat.ltb_lt, (IH b (s :: used) L), NoDup_cons. split.
      + intros (((H1 & H2) & H3) & H4 & H5). split; [split; [| exact H4] |].
        * intros I. apply elem_of_list_lookup in I as [i E]. destruct (H5 i s E) as (_ & K & _). apply K. left.
        * intros [| i] t E; cbn in E; [injection E as <-; split; [exact H1 |]; split; [exact H3 |]; exists vs; auto |]. destruct (H5 i t E) as (K1 & K2 & K3). split; [exact K1 |]. split; [intros I; apply K2; right; exact I | exact K3].
      + intros ((H1 & H2) & H3). destruct (H3 0 s eq_refl) as (K1 & K2 & vs' & Ev & K3). injection Ev as <-. split; [auto |]. split; [exact H2 |]. intros i t E. destruct (H3 (S i) t E) as (J1 & J2 & J3). split; [exact J1 |]. split; [| exact J3].
        rewrite not_elem_of_cons. split; [| exact J2]. intros ->. apply H1, elem_of_list_lookup. exists i. exact E. }
  unfold placement. split.
  - intros [L H]. apply (K _ _ _ L) in H as [N H]. split; [exact L |]. split; [exact N |]. intros i s E. destruct (H i s E) as (J1 & _ & J3). auto.
  - intros (L & N & H). split; [exact L |]. apply (K _ _ _ L). split; [exact N |]. intros i s E. destruct (H i s E) as [J1 J3]. split; [exact J1 |]. split; [apply not_elem_of_nil | exact J3].
Qed.
(** An infeasibility verdict is right: there is no placement, and with slots in range the witness
    passes its check. *)
Theorem C75_infeasible adj ns w : assign_or_hall adj ns = Some (Infeasible w) ->
  (~ exists a, placement adj ns a) /\ NoDup (h_items w) /\ ((forall x v, allowed adj x v -> v < ns) -> is_hall_witness adj w = true).
Proof.
  intros E. destruct (assign_spec adj ns) as (r & E' & H). rewrite E in E'. injection E' as <-. destruct H as (K1 & K2 & K3 & K4 & K5 & K6). split; [| split; [exact K2 |]].
  - intros [a Pa]. pose proof (pigeonhole_placement adj ns a _ _ Pa K2 K4 K5). lia.
  - intros R. unfold is_hall_witness. destruct (Nat.leb_spec (length (h_items w)) (length (h_slots w))) as [L | L]; [lia |]. apply forallb_forall. intros x Ix. apply elem_of_list_In in Ix. destruct (lookup_lt_is_Some_2 adj x (K4 x Ix)) as [vs Ev]. rewrite Ev.
    apply forallb_forall. intros v Iv. apply elem_of_list_In in Iv. apply bool_decide_eq_true. apply (K5 x); [exact Ix | exists vs; auto | apply (R x); exists vs; auto].
Qed.
(** So the answer is feasible exactly when a placement exists. *)
Theorem C75_decides adj ns : (exists a, assign_or_hall adj ns = Some (Feasible a)) <-> exists a, placement adj ns a.
Proof.
  split.
  - intros [a E]. exists a. apply C75_feasible, E.
  - intros Pa. destruct (C75_total adj ns) as [[a | w] E]; [exists a; exact E |]. exfalso. apply (C75_infeasible adj ns w E), Pa.
Qed.
(** The witness check is sound for a list of different items. Missing: repeated items, for which
    it is false. *)
Theorem C75_hall_sound_partial adj ns w : is_hall_witness adj w = true -> NoDup (h_items w) -> ~ exists a, placement adj ns a.
Proof.
  unfold is_hall_witness. destruct (Nat.leb_spec (length (h_items w)) (length (h_slots w))) as [L | L]; [discriminate |]. intros H N [a Pa]. rewrite forallb_forall in H.
  assert (Li : forall x, x ∈ h_items w -> x < length adj). { intros x Ix. apply elem_of_list_In in Ix. specialize (H x Ix). destruct (adj !! x) eqn:Ex; [apply lookup_lt_Some in Ex; exact Ex | discriminate]. }
  pose proof (pigeonhole_placement adj ns a (h_items w) (h_slots w) Pa N Li) as K. cut (length (h_items w) <= length (h_slots w)); [lia |]. apply K. intros x v Ix (vs & Ev & Iv) _. apply elem_of_list_In in Ix. specialize (H x Ix). rewrite Ev in H. rewrite forallb_forall in H. apply elem_of_list_In in Iv. specialize (H v Iv). apply bool_decide_eq_true in H. exact H.
Qed.
(** Counting an item twice makes the check accept a witness for a feasible instance. *)
Theorem C75_hall_refuted : exists adj ns w a, is_hall_witness adj w = true /\ placement adj ns a.
Proof. exists [[0]], 1, (Hall [0; 0] [0]), [0]. split; [vm_compute; reflexivity |]. apply C75_valid_exact. vm_compute. reflexivity. Qed.

(** ** Capacities *)
Definition sum (l : list nat) : nat := fold_right Nat.add 0 l.
Definition cap_placement (adj : list (list nat)) (caps : list nat) (a : list nat) : Prop :=
  length a = length adj /\ (forall i s, a !! i = Some s -> s < length caps /\ allowed adj i s) /\ forall s, length (List.filter (Nat.eqb s) a) <= nth s caps 0.
Definition off (caps : list nat) (s : nat) : nat := sum (take s caps).
Lemma off_S c caps s : off (c :: caps) (S s) = c + off caps s.
Proof. reflexivity. Qed.
Lemma offsets_nth : forall caps o s, s <= length caps -> nth s (offsets_from o caps) 0 = o + off caps s.
Proof.
  induction caps as [| c caps IH]; intros o [| s] H; cbn [offsets_from nth length] in *; try (unfold off; cbn; lia). rewrite IH by lia. unfold off. cbn [take sum fold_right]. unfold sum. lia.
Qed.
Lemma offsets_ge caps : forall o x, In x (offsets_from o caps) -> o <= x.
Proof. induction caps as [| c caps IH]; intros o x [-> | I]; try lia; [destruct I | apply IH in I; lia]. Qed.
Lemma offsets_count caps : forall o s k, s < length caps -> k < nth s caps 0 -> length (List.filter (fun x => x <=? o + off caps s + k) (offsets_from o caps)) = S s.
Proof.
  induction caps as [| c caps IH]; intros o s k Hs Hk; cbn [length] in *; [lia |]. cbn [offsets_from List.filter]. destruct (Nat.leb_spec o (o + off (c :: caps) s + k)) as [_ | K]; [| lia]. cbn [length]. f_equal. destruct s as [| s].
  - cbn [nth] in Hk. replace (List.filter (fun x => x <=? o + off (c :: caps) 0 + k) (offsets_from (o + c) caps)) with (@nil nat); [reflexivity |]. symmetry.
    assert (A : forall l, (forall x, In x l -> o + off (c :: caps) 0 + k < x) -> List.filter (fun x => x <=? o + off (c :: caps) 0 + k) l = []).
    { induction l as [| x l IHl]; intros H; [reflexivity |]. cbn [List.filter]. destruct (Nat.leb_spec x (o + off (c :: caps) 0 + k)) as [K | K]; [specialize (H x (or_introl eq_refl)); lia |]. apply IHl. intros y Iy. apply H. right. exact Iy. }
    apply A. intros x I. apply offsets_ge in I. unfold off. cbn. lia.
  - cbn [nth] in Hk. etransitivity; [| apply (IH (o + c) s k); lia]. f_equal. apply List.filter_ext. intros x. rewrite off_S. f_equal. lia.
Qed.
Lemma copy_slot caps s k : s < length caps -> k < nth s caps 0 -> copy_to_slot caps (off caps s + k) = s.
Proof. intros Hs Hk. unfold copy_to_slot, offsets. pose proof (offsets_count caps 0 s k Hs Hk) as E. cbn [Nat.add] in E. rewrite E. lia. Qed.
Lemma copy_split caps : forall c, c < sum caps -> exists s k, s < length caps /\ k < nth s caps 0 /\ c = off caps s + k.
Proof.
  induction caps as [| c0 caps IH]; intros c H; cbn [sum fold_right] in H; [lia |]. destruct (Nat.lt_ge_cases c c0) as [L | L].
  - exists 0, c. unfold off. cbn. lia.
  - destruct (IH (c - c0)) as (s & k & Hs & Hk & E); [unfold sum; lia |]. exists (S s), k. unfold off in *. cbn [length nth take sum fold_right]. unfold sum in *. lia.
Qed.
Lemma off_total caps s : s < length caps -> off caps s + nth s caps 0 <= sum caps.
Proof.
  unfold off. revert s. induction caps as [| c caps IH]; intros [| s] H; cbn [length take sum fold_right nth] in *; try lia. specialize (IH s ltac:(lia)). unfold sum in *. lia.
Qed.
Lemma copies_in caps s c : s < length caps -> c ∈ copies caps s <-> exists k, k < nth s caps 0 /\ c = off caps s + k.
Proof.
  intros H. unfold copies, offsets. rewrite (offsets_nth caps 0 s) by lia. cbn [Nat.add]. rewrite elem_of_seq. split; [intros [A B]; exists (c - off caps s); lia | intros (k & A & ->); lia].
Qed.
Lemma expand_allowed adj caps x c : allowed (expand caps adj) x c <-> exists s k, allowed adj x s /\ s < length caps /\ k < nth s caps 0 /\ c = off caps s + k.
Proof.
  unfold expand. split.
  - intros (vs' & E & I). rewrite list_lookup_fmap in E. destruct (adj !! x) as [vs |] eqn:Ev; [| discriminate]. injection E as <-. apply elem_of_list_In, in_flat_map in I as (s & Is & Ic). apply filter_In in Is as [Is Ls]. apply Nat.ltb_lt in Ls. apply elem_of_list_In in Ic. apply (copies_in caps s c Ls) in Ic as (k & Hk & ->).
    exists s, k. split; [exists vs; split; [reflexivity | apply elem_of_list_In, Is] |]. auto.
  - intros (s & k & (vs & Ev & Is) & Ls & Hk & ->). exists (flat_map (copies caps) (List.filter (fun s => s <? length caps) vs)). split; [rewrite list_lookup_fmap, Ev; reflexivity |]. apply elem_of_list_In, in_flat_map. exists s. split.
    + apply filter_In. split; [apply elem_of_list_In, Is | apply Nat.ltb_lt, Ls].
    + apply elem_of_list_In, copies_in; [exact Ls |]. exists k. auto.
Qed.
Lemma from_copies adj caps a : placement (expand caps adj) (sum caps) a -> cap_placement adj caps (map (copy_to_slot caps) a).
Proof.
  intros (L & N & A). unfold expand in L. rewrite map_length in L. split; [rewrite map_length; exact L |]. split.
  - intros i s E. rewrite list_lookup_fmap in E. destruct (a !! i) as [c |] eqn:E'; [| discriminate]. injection E as <-. rename E' into E. destruct (A i c E) as [_ K]. apply expand_allowed in K as (s & k & As & Ls & Hk & ->). rewrite copy_slot by assumption. auto.
  - intros s.
    assert (F : length (List.filter (Nat.eqb s) (map (copy_to_slot caps) a)) = length (List.filter (fun c => s =? copy_to_slot caps c) a)). { clear. induction a as [| c a IH]; [reflexivity |]. cbn [map List.filter]. destruct (s =? copy_to_slot caps c); cbn [length]; rewrite IH; reflexivity. }
    rewrite F. assert (Sub : forall c, c ∈ List.filter (fun c => s =? copy_to_slot caps c) a -> exists k, s < length caps /\ k < nth s caps 0 /\ c = off caps s + k).
    { intros c Ic. apply elem_of_list_In, filter_In in Ic as [Ic Ec]. apply Nat.eqb_eq in Ec. apply elem_of_list_In, elem_of_list_lookup in Ic as [i Ei]. destruct (A i c Ei) as [_ K]. apply expand_allowed in K as (s' & k & _ & Ls & Hk & ->). rewrite copy_slot in Ec by assumption. subst s'. exists k. auto. }
    destruct (Nat.lt_ge_cases s (length caps)) as [Ls | Ls].
    + rewrite <- (seq_length (nth s caps 0) (off caps s)). apply nodup_length_le; [apply NoDup_ListNoDup, List.NoDup_filter, NoDup_ListNoDup, N |]. intros c Ic. destruct (Sub c Ic) as (k & _ & Hk & ->). apply elem_of_seq. lia.
    + destruct (List.filter (fun c => s =? copy_to_slot caps c) a) as [| c r]; [cbn; lia |]. destruct (Sub c) as (k & K & _); [left | lia].
Qed.
Lemma to_copies adj caps a : cap_placement adj caps a -> exists b, placement (expand caps adj) (sum caps) b.
Proof.
  intros (L & A & C). set (rank := fun i s => length (List.filter (Nat.eqb s) (take i a))). exists (imap (fun i s => off caps s + rank i s) a).
  assert (R : forall i s, a !! i = Some s -> rank i s < nth s caps 0).
  { intros i s E. apply Nat.lt_le_trans with (length (List.filter (Nat.eqb s) a)); [| apply C]. unfold rank. rewrite <- (take_drop_middle a i s E) at 2. rewrite List.filter_app, app_length. cbn [List.filter]. rewrite Nat.eqb_refl. cbn [length]. lia. }
  assert (Rm : forall i j s, a !! i = Some s -> i < j -> rank i s < rank j s).
  { intros i j s E H. unfold rank. assert (T : take j a = take i a ++ s :: drop (S i) (take j a)). { assert (E' : take j a !! i = Some s) by (rewrite lookup_take by lia; exact E). rewrite <- (take_drop_middle (take j a) i s E') at 1. rewrite take_take. rewrite Nat.min_l by lia. reflexivity. }
    rewrite T, List.filter_app, app_length. cbn [List.filter]. rewrite Nat.eqb_refl. cbn [length]. lia. }
  split; [rewrite imap_length; unfold expand; rewrite map_length; exact L |]. split.
  - apply NoDup_alt. intros i j c Ei Ej. rewrite list_lookup_imap in Ei, Ej. destruct (a !! i) as [s |] eqn:Ea; [| discriminate]. destruct (a !! j) as [t |] eqn:Eb; [| discriminate]. cbn in Ei, Ej. injection Ei as Ei. injection Ej as Ej.
    assert (s = t). { rewrite <- (copy_slot caps s (rank i s)) by (try apply (A i s Ea); apply R, Ea). rewrite <- (copy_slot caps t (rank j t)) by (try apply (A j t Eb); apply R, Eb). congruence. } subst t.
    destruct (Nat.lt_trichotomy i j) as [K | [K | K]]; [| exact K |]; [pose proof (Rm i j s Ea K) | pose proof (Rm j i s Eb K)]; lia.
  - intros i c E. rewrite list_lookup_imap in E. destruct (a !! i) as [s |] eqn:Ea; [| discriminate]. cbn in E. injection E as <-. destruct (A i s Ea) as [Ls As]. pose proof (R i s Ea) as Hr. split; [pose proof (off_total caps s Ls); lia |]. apply expand_allowed. exists s, (rank i s). auto.
Qed.
(** With capacities: a returned assignment respects them, and none exists when none is returned. *)
Theorem C75_capacitated adj caps : exists r, assign_or_hall_capacitated adj caps = Some r /\
  match r with Feasible a => cap_placement adj caps a | Infeasible _ => ~ exists a, cap_placement adj caps a end.
Proof.
  unfold assign_or_hall_capacitated. change (fold_right Nat.add 0 caps) with (sum caps). destruct (C75_total (expand caps adj) (sum caps)) as [[a | w] E]; rewrite E; cbn [mbind option_bind]; eexists; (split; [reflexivity |]).
  - apply from_copies, C75_feasible, E.
  - intros [a K]. apply (C75_infeasible _ _ _ E). apply (to_copies adj caps a K).
Qed.
Lemma insert_sorted_in x l y : y ∈ insert_sorted x l <-> y = x \/ y ∈ l.
Proof.
  induction l as [| z l IH]; cbn [insert_sorted]; [rewrite elem_of_list_singleton, elem_of_nil; tauto |]. destruct (x <? z); [rewrite elem_of_cons; reflexivity |]. destruct (Nat.eqb_spec x z) as [-> | D]; [rewrite elem_of_cons; tauto |]. rewrite !elem_of_cons, IH. tauto.
Qed.
Lemma sort_dedup_in l y : y ∈ sort_dedup l <-> y ∈ l.
Proof. induction l as [| x l IH]; [reflexivity |]. cbn [sort_dedup fold_right]. rewrite insert_sorted_in, elem_of_cons. fold (sort_dedup l). rewrite IH. reflexivity. Qed.
Lemma insert_sorted_sorted x l : Sorted.StronglySorted lt l -> Sorted.StronglySorted lt (insert_sorted x l).
Proof.
  induction 1 as [| y l S0 IH F]; cbn [insert_sorted]; [repeat constructor |]. destruct (Nat.ltb_spec x y) as [L | L].
  - constructor; [constructor; assumption |]. constructor; [exact L |]. rewrite List.Forall_forall in *. intros z Iz. specialize (F z Iz). lia.
  - destruct (Nat.eqb_spec x y) as [-> | D]; [constructor; assumption |]. constructor; [exact IH |]. rewrite List.Forall_forall in *. intros z Iz. apply elem_of_list_In, insert_sorted_in in Iz as [-> | Iz]; [lia | apply F, elem_of_list_In, Iz].
Qed.
Lemma sort_dedup_nodup l : NoDup (sort_dedup l).
Proof.
  assert (H : Sorted.StronglySorted lt (sort_dedup l)) by (induction l as [| x l IH]; [constructor | apply insert_sorted_sorted, IH]). generalize dependent (sort_dedup l). clear l. intros l H. induction H as [| x l S0 IH F]; [apply NoDup_nil_2 |]. apply NoDup_cons. split; [| exact IH]. intros I. rewrite List.Forall_forall in F. apply elem_of_list_In, F in I. lia.
Qed.
Lemma sum_copies caps l : NoDup l -> (forall s, s ∈ l -> s < length caps) -> NoDup (flat_map (copies caps) l) /\ length (flat_map (copies caps) l) = sum (map (fun s => nth s caps 0) l).
Proof.
  induction l as [| s l IH]; intros N H; [split; [apply NoDup_nil_2 | reflexivity] |]. apply NoDup_cons in N as [Ns N]. destruct (IH N) as [I1 I2]; [intros t It; apply H; right; exact It |]. cbn [flat_map map sum fold_right]. split.
  - apply NoDup_app. split; [apply NoDup_ListNoDup, seq_NoDup |]. split; [| exact I1]. intros c Ic Ic'. apply copies_in in Ic as (k & Hk & Ek); [| apply H; left]. apply elem_of_list_In, in_flat_map in Ic' as (t & It & Ic'). apply elem_of_list_In in It. apply elem_of_list_In, copies_in in Ic' as (j & Hj & Ej); [| apply H; right; exact It].
    assert (s = t); [| subst; contradiction]. rewrite <- (copy_slot caps s k), <- (copy_slot caps t j); [congruence | apply H; right; exact It | exact Hj | apply H; left | exact Hk].
  - rewrite app_length, I2. unfold copies at 1. rewrite seq_length. reflexivity.
Qed.
(** With positive capacities and slots in range the capacitated witness passes its check. Missing:
    slots of capacity 0, for which it is false. *)
Theorem C75_capacity_witness_partial adj caps w : assign_or_hall_capacitated adj caps = Some (Infeasible w) -> (forall s, s < length caps -> 0 < nth s caps 0) -> (forall x v, allowed adj x v -> v < length caps) ->
  is_cap_hall_witness adj caps w = true /\ NoDup (h_items w).
Proof.
  unfold assign_or_hall_capacitated. change (fold_right Nat.add 0 caps) with (sum caps). destruct (assign_spec (expand caps adj) (sum caps)) as ([a | w0] & E & D); rewrite E; cbn [mbind option_bind]; [discriminate |]. intros [= <-] Pos R. destruct D as (K1 & K2 & K3 & K4 & K5 & K6). cbn [h_items h_slots].
  split; [| exact K2]. unfold is_cap_hall_witness. cbn [h_items h_slots]. set (T := sort_dedup (map (copy_to_slot caps) (h_slots w0))).
  assert (In_T : forall s, s ∈ T <-> exists c, c ∈ h_slots w0 /\ s = copy_to_slot caps c). { intros s. unfold T. rewrite sort_dedup_in, elem_of_list_fmap. split; intros (c & A & B); exists c; auto. }
  assert (Slots : forall c, c ∈ h_slots w0 -> exists s k, s < length caps /\ k < nth s caps 0 /\ c = off caps s + k). { intros c Ic. apply copy_split. destruct K6 as [K6 | K6]; [apply (K6 c Ic) | rewrite K6 in Ic; apply elem_of_seq in Ic; lia]. }
  assert (All : forall s, s ∈ T -> s < length caps /\ forall c, c ∈ copies caps s -> c ∈ h_slots w0).
  { intros s Is. apply In_T in Is as (c & Ic & ->). destruct (Slots c Ic) as (s & k & Ls & Hk & ->). rewrite copy_slot by assumption. split; [exact Ls |]. intros c' Ic'. apply (copies_in caps s c' Ls) in Ic' as (k' & Hk' & ->). destruct K6 as [K6 | K6].
    - destruct (K6 _ Ic) as [_ (x & Ix & Ax)]. apply expand_allowed in Ax as (s2 & k2 & A2 & L2 & H2 & E2). assert (s = s2); [| subst s2]. { rewrite <- (copy_slot caps s k), <- (copy_slot caps s2 k2) by assumption. congruence. }
      apply (K5 x); [exact Ix | apply expand_allowed; exists s, k'; auto | pose proof (off_total caps s Ls); lia].
    - rewrite K6. apply elem_of_seq. pose proof (off_total caps s Ls). lia. }
  assert (Cap : sum (map (fun s => nth s caps 0) T) <= length (h_slots w0)).
  { destruct (sum_copies caps T) as [S1 S2]; [apply sort_dedup_nodup | intros s Is; apply All, Is |]. rewrite <- S2. apply nodup_length_le; [exact S1 |]. intros c Ic. apply elem_of_list_In, in_flat_map in Ic as (s & Is & Ic). apply (All s); [apply elem_of_list_In, Is | apply elem_of_list_In, Ic]. }
  change (fold_right Nat.add 0 (map (fun s => nth s caps 0) T)) with (sum (map (fun s => nth s caps 0) T)). destruct (Nat.leb_spec (length (h_items w0)) (sum (map (fun s => nth s caps 0) T))) as [L | L]; [lia |].
  apply forallb_forall. intros x Ix. apply elem_of_list_In in Ix. pose proof (K4 x Ix) as Lx. unfold expand in Lx. rewrite map_length in Lx. destruct (lookup_lt_is_Some_2 adj x Lx) as [vs Ev]. rewrite Ev. apply forallb_forall. intros s Is. apply elem_of_list_In in Is. apply bool_decide_eq_true. apply In_T.
  assert (As : allowed adj x s) by (exists vs; auto). pose proof (R x s As) as Ls. pose proof (Pos s Ls) as Ps. exists (off caps s + 0). split; [| rewrite copy_slot; auto]. apply (K5 x); [exact Ix | apply expand_allowed; exists s, 0; auto | pose proof (off_total caps s Ls); lia].
Qed.
(** The capacitated witness check is sound for different items. *)
Theorem C75_capacity_sound_partial adj caps w : is_cap_hall_witness adj caps w = true -> NoDup (h_items w) -> ~ exists a, cap_placement adj caps a.
Proof.
  unfold is_cap_hall_witness. destruct (Nat.leb_spec (length (h_items w)) (fold_right Nat.add 0 (map (fun s => nth s caps 0) (h_slots w)))) as [L | L]; [discriminate |]. intros H N [a Ca]. rewrite forallb_forall in H.
  destruct Ca as (La & A & C).
  assert (K : length (h_items w) <= sum (map (fun s => nth s caps 0) (h_slots w))); [| unfold sum in K; lia].
  assert (B : forall items, NoDup items -> (forall x, x ∈ items -> exists s, a !! x = Some s /\ s ∈ h_slots w) -> length items <= sum (map (fun s => nth s caps 0) (h_slots w))).
  { clear H L N. generalize (h_slots w). induction l as [| t l IH]; intros items Ni Hi.
    - destruct items as [| x items]; [cbn; lia |]. destruct (Hi x) as (s & _ & Is); [left | apply elem_of_nil in Is as []].
    - cbn [map sum fold_right]. set (here := List.filter (fun x => match a !! x with Some s => t =? s | None => false end) items). set (rest := List.filter (fun x => negb (match a !! x with Some s => t =? s | None => false end)) items).
      assert (Sp : length items = length here + length rest). { unfold here, rest. clear. induction items as [| x items IH]; [reflexivity |]. cbn [List.filter]. destruct (match a !! x with Some s => t =? s | None => false end); cbn [negb length]; lia. }
      assert (Hh : length here <= nth t caps 0).
      { etransitivity; [| apply (C t)]. assert (Q : length (List.filter (Nat.eqb t) a) = length (List.filter (fun x => match a !! x with Some s => t =? s | None => false end) (seq 0 (length a)))).
        { clear. assert (G : forall k, length (List.filter (Nat.eqb t) a) = length (List.filter (fun x => match a !! (x - k) with Some s => t =? s | None => false end) (seq k (length a)))).
          { induction a as [| y a IH]; intros k; [reflexivity |]. cbn [length seq List.filter]. rewrite Nat.sub_diag. cbn [lookup list_lookup]. rewrite (List.filter_ext_in (fun x => match (y :: a) !! (x - k) with Some s => t =? s | None => false end) (fun x => match a !! (x - S k) with Some s => t =? s | None => false end) (seq (S k) (length a))).
            - destruct (t =? y); cbn [length]; rewrite (IH (S k)); reflexivity.
            - intros x Ix. apply in_seq in Ix. replace (x - k) with (S (x - S k)) by lia. reflexivity. }
          rewrite (G 0). f_equal. apply List.filter_ext. intros x. rewrite Nat.sub_0_r. reflexivity. }
        rewrite Q. apply nodup_length_le; [apply NoDup_ListNoDup, List.NoDup_filter, NoDup_ListNoDup, Ni |]. intros x Ix. apply elem_of_list_In, filter_In in Ix as [Ix Ex]. apply filter_seq_in. split; [| exact Ex]. destruct (a !! x) eqn:E; [apply lookup_lt_Some in E; exact E | discriminate]. }
      assert (Hr : length rest <= sum (map (fun s => nth s caps 0) l)).
      { apply IH; [apply NoDup_ListNoDup, List.NoDup_filter, NoDup_ListNoDup, Ni |]. intros x Ix. apply elem_of_list_In, filter_In in Ix as [Ix Ex]. destruct (Hi x) as (s & Es & Is); [apply elem_of_list_In, Ix |]. rewrite Es in Ex. apply negb_true_iff, Nat.eqb_neq in Ex. exists s. split; [exact Es |]. apply elem_of_cons in Is as [-> | Is]; [congruence | exact Is]. }
      unfold sum in *. lia. }
  apply B; [exact N |]. intros x Ix. apply elem_of_list_In in Ix. specialize (H x Ix). destruct (adj !! x) as [vs |] eqn:Ev; [| discriminate]. destruct (lookup_lt_is_Some_2 a x) as [s Es]; [rewrite La; apply lookup_lt_Some in Ev; exact Ev |]. exists s. split; [exact Es |].
  destruct (A x s Es) as [_ (vs' & Ev' & Is)]. rewrite Ev in Ev'. injection Ev' as <-. rewrite forallb_forall in H. apply elem_of_list_In in Is. specialize (H s Is). apply bool_decide_eq_true in H. exact H.
Qed.
(** A slot of capacity 0 is left out of the witness, which then fails its own check. *)
Theorem C75_capacity_refuted : exists adj caps w, (forall x v, allowed adj x v -> v < length caps) /\ assign_or_hall_capacitated adj caps = Some (Infeasible w) /\ is_cap_hall_witness adj caps w = false.
Proof.
  exists [[0]], [0], (Hall [0] []). split; [| split; vm_compute; reflexivity]. intros [| x] v (vs & E & I); [| destruct x; discriminate]. injection E as <-. apply elem_of_list_singleton in I as ->. cbn. lia.
Qed.
Example C75_example :
  assign_or_hall [[0; 1]; [0]; [1; 2]] 3 = Some (Feasible [1; 0; 2]) /\
  assign_or_hall [[0; 1]; [0; 1]; [0; 1]; [2; 3]] 4 = Some (Infeasible (Hall [0; 1; 2] [0; 1])) /\
  assign_or_hall_capacitated [[0]; [0; 1]; [0]] [2; 1] = Some (Feasible [0; 1; 0]) /\
  (exists w, assign_or_hall_capacitated [[0]; [0]; [0]; [1; 0]] [2; 2] = Some (Infeasible w) /\ is_cap_hall_witness [[0]; [0]; [0]; [1; 0]] [2; 2] w = true).
Proof. repeat (split; [vm_compute; reflexivity |]). eexists. split; vm_compute; reflexivity. Qed.
