(** Counting operations decides what is known: the bridge from vector clocks to
    causality used by the multi-value register and the observed-remove types. *)
From stdpp Require Import gmap.
From Verif Require Import Replication ReplicationCount CrdtCounterProofs.

Section Order.
  Context {O : Type}.
  Implicit Types (h : history O) (K L : gset nat).

  Lemma sum_from_strict (f : opinfo O -> N) h i K L j x :
    (forall k y, h !! k = Some y -> f y <> 0%N -> i + k ∈ L -> i + k ∈ K) ->
    h !! j = Some x -> f x <> 0%N -> i + j ∈ K -> i + j ∉ L ->
    (sum_from f h i L < sum_from f h i K)%N.
  Proof.
    revert i j. induction h as [|z h IH]; intros i j H Hx Hf HK HL; [discriminate|].
    assert (T : forall k y, h !! k = Some y -> f y <> 0%N -> S i + k ∈ L -> S i + k ∈ K).
    { intros k y Hy Hne. specialize (H (S k) y Hy Hne). now rewrite <- Nat.add_succ_comm in H. }
    destruct j as [|j]; simpl in *.
    - injection Hx as ->. rewrite Nat.add_0_r in HK, HL.
      pose proof (sum_from_mono f h (S i) L K T). rewrite (decide_False (P := i ∈ L)) by exact HL.
      rewrite decide_True by exact HK. lia.
    - rewrite <- Nat.add_succ_comm in HK, HL.
      pose proof (IH (S i) j T Hx Hf HK HL).
      specialize (H 0 z eq_refl). rewrite Nat.add_0_r in H.
      destruct (decide (f z = 0%N)) as [E|E].
      + rewrite E. repeat case_decide; lia.
      + specialize (H E). repeat case_decide; lia || tauto.
  Qed.

  (** If [L] counts at least as many operations of one replica as [K], it holds all of them. *)
  Lemma only_covered (f : opinfo O -> N) h K L i x :
    wf h -> closed h K -> closed h L -> i ∈ K -> h !! i = Some x -> f x <> 0%N ->
    (sum_known (only (op_origin x) f) h K <= sum_known (only (op_origin x) f) h L)%N -> i ∈ L.
  Proof.
    intros W CK CL Hi Hx Hf Hle.
    destruct (decide (i ∈ L)) as [|Hn]; [assumption|]. exfalso.
    destruct (closed_comparable h K L (op_origin x) W CK CL) as [S1|S1].
    - exact (Hn (S1 i x Hx eq_refl Hi)).
    - assert (A : (sum_from (only (op_origin x) f) h 0 L < sum_from (only (op_origin x) f) h 0 K)%N).
      { apply sum_from_strict with (j := i) (x := x); auto.
        - simpl. intros k y Hy Hne Hk. apply (S1 k y Hy); [|exact Hk].
          unfold only in Hne. case_decide as E; [exact E|congruence].
        - unfold only. now rewrite decide_True. }
      unfold sum_known in Hle. lia.
  Qed.

  Lemma only_subset (f : opinfo O -> N) h K L q :
    K ⊆ L -> (sum_known (only q f) h K <= sum_known (only q f) h L)%N.
  Proof. intros S1. apply sum_from_mono. intros j x _ _ Hj. now apply S1. Qed.

  (** An operation together with its causal past. *)
  Definition upto h (i : nat) : gset nat :=
    match h !! i with Some x => op_past x ∪ {[i]} | None => ∅ end.

  Lemma upto_some h i x : h !! i = Some x -> upto h i = op_past x ∪ {[i]}.
  Proof. intros H. unfold upto. now rewrite H. Qed.

  Lemma upto_closed h i x : wf h -> h !! i = Some x -> closed h (upto h i).
  Proof.
    intros W Hx. rewrite (upto_some h i x Hx). destruct (W i x Hx) as ((A & B) & _ & _). split.
    - intros j Hj. apply elem_of_union in Hj as [Hj|Hj]; [auto|].
      apply elem_of_singleton in Hj. subst. now apply lookup_lt_Some in Hx.
    - intros j y Hj Hy. apply elem_of_union in Hj as [Hj|Hj].
      + specialize (B j y Hj Hy). set_solver.
      + apply elem_of_singleton in Hj. subst. assert (y = x) by congruence. subst. set_solver.
  Qed.

  Lemma upto_subset h K i : closed h K -> i ∈ K -> upto h i ⊆ K.
  Proof.
    intros [A B] Hi. destruct (lookup_lt_is_Some_2 h i (A i Hi)) as [x Hx].
    rewrite (upto_some h i x Hx). specialize (B i x Hi Hx). set_solver.
  Qed.

  Lemma upto_mono_hist h x i : i < length h -> upto (h ++ [x]) i = upto h i.
  Proof. intros H. unfold upto. now rewrite lookup_app_l by exact H. Qed.

  Lemma past_irrefl h i x : wf h -> h !! i = Some x -> i ∉ op_past x.
  Proof. intros W Hx Hi. destruct (W i x Hx) as (_ & B & _). specialize (B i Hi). lia. Qed.

  Lemma upto_self h i x : h !! i = Some x -> i ∈ upto h i.
  Proof. intros H. rewrite (upto_some h i x H). set_solver. Qed.

  Lemma upto_in_past h i j x y :
    wf h -> h !! i = Some x -> h !! j = Some y -> i ∈ upto h j -> i <> j -> i ∈ op_past y.
  Proof. intros W Hx Hy Hi Hne. rewrite (upto_some h j y Hy) in Hi. set_solver. Qed.

  (** Rank of an operation among the [f]-operations of its own replica. *)
  Definition rank (f : opinfo O -> N) h (i : nat) : N :=
    match h !! i with Some x => sum_known (only (op_origin x) f) h (upto h i) | None => 0%N end.

  Lemma rank_known (f : opinfo O -> N) h K i x :
    wf h -> closed h K -> h !! i = Some x -> f x <> 0%N ->
    i ∈ K <-> (rank f h i <= sum_known (only (op_origin x) f) h K)%N.
  Proof.
    intros W CK Hx Hf. unfold rank. rewrite Hx. split.
    - intros Hi. apply only_subset. now apply upto_subset.
    - intros Hle. eapply (only_covered f h (upto h i) K i x); eauto using upto_closed, upto_self.
  Qed.

  Lemma sum_known_upto_hist (f : opinfo O -> N) h x i :
    wf h -> i < length h -> sum_known f (h ++ [x]) (upto (h ++ [x]) i) = sum_known f h (upto h i).
  Proof.
    intros W Hi. rewrite upto_mono_hist by exact Hi. apply sum_known_mono_hist.
    destruct (lookup_lt_is_Some_2 h i Hi) as [y Hy]. now apply (upto_closed h i y).
  Qed.

  Lemma rank_mono_hist (f : opinfo O -> N) h x i :
    wf h -> i < length h -> rank f (h ++ [x]) i = rank f h i.
  Proof.
    intros W Hi. unfold rank. rewrite lookup_app_l by exact Hi.
    destruct (h !! i) as [y|]; [|reflexivity]. now apply sum_known_upto_hist.
  Qed.

  Lemma rank_new (f : opinfo O -> N) h o q K :
    closed h K ->
    rank f (h ++ [{| op_origin := q; op_op := o; op_past := K |}]) (length h) =
    (sum_known (only q f) h K + f {| op_origin := q; op_op := o; op_past := K |})%N.
  Proof.
    intros C. unfold rank, upto. rewrite lookup_app_r, Nat.sub_diag by lia. simpl.
    rewrite sum_known_snoc by exact C. unfold only at 2. simpl. now rewrite decide_True.
  Qed.

  Lemma rank_inj (f : opinfo O -> N) h i j x y :
    wf h -> h !! i = Some x -> h !! j = Some y -> op_origin x = op_origin y ->
    f x <> 0%N -> f y <> 0%N -> rank f h i = rank f h j -> i = j.
  Proof.
    intros W Hx Hy E Fx Fy Hr.
    assert (A : i ∈ upto h j).
    { apply (rank_known f h (upto h j) i x); eauto using upto_closed.
      rewrite Hr. unfold rank. rewrite Hy, E. reflexivity. }
    assert (B : j ∈ upto h i).
    { apply (rank_known f h (upto h i) j y); eauto using upto_closed.
      rewrite <- Hr. unfold rank. rewrite Hx, E. reflexivity. }
    destruct (decide (i = j)) as [|Hne]; [assumption|]. exfalso.
    pose proof (upto_in_past h i j x y W Hx Hy A Hne) as A'.
    pose proof (upto_in_past h j i y x W Hy Hx B (not_eq_sym Hne)) as B'.
    destruct (W i x Hx) as (_ & P & _). destruct (W j y Hy) as (_ & Q & _).
    specialize (P j B'). specialize (Q i A'). lia.
  Qed.

  Lemma rank_pos (f : opinfo O -> N) h i x :
    wf h -> h !! i = Some x -> f x <> 0%N -> (0 < rank f h i)%N.
  Proof.
    intros W Hx Hf. unfold rank. rewrite Hx.
    eapply N.le_lt_trans; [|unfold sum_known; eapply (sum_from_strict _ h 0 (upto h i) ∅ i x)].
    - apply N.le_0_l.
    - set_solver.
    - exact Hx.
    - unfold only. now rewrite decide_True.
    - simpl. now apply (upto_self h i x).
    - set_solver.
  Qed.
End Order.
