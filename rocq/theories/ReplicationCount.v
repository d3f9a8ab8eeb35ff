(** Counting known operations: consequences of causal delivery. *)
From stdpp Require Import gmap.
From Verif Require Import Replication.

Section Count.
  Context {O : Type}.
  Implicit Types (h : history O) (K L : gset nat).

  (** Sum of [f] over the operations of [h] that belong to [K]. This is the
      specification of "total amount known". *)
  Fixpoint sum_from (f : opinfo O -> N) (h : history O) (i : nat) (K : gset nat) : N :=
    match h with
    | [] => 0%N
    | x :: h' => ((if decide (i ∈ K) then f x else 0) + sum_from f h' (S i) K)%N
    end.
  Definition sum_known (f : opinfo O -> N) (h : history O) (K : gset nat) : N := sum_from f h 0 K.

  Lemma sum_from_app f h h' i K :
    sum_from f (h ++ h') i K = (sum_from f h i K + sum_from f h' (i + length h) K)%N.
  Proof.
    revert i. induction h as [|x h IH]; intros i; simpl.
    - now rewrite Nat.add_0_r.
    - rewrite IH. rewrite <- Nat.add_succ_comm. lia.
  Qed.

  Lemma sum_from_ext f h i K L :
    (forall j x, h !! j = Some x -> f x <> 0%N -> i + j ∈ K <-> i + j ∈ L) ->
    sum_from f h i K = sum_from f h i L.
  Proof.
    revert i. induction h as [|x h IH]; intros i H; simpl; [reflexivity|].
    rewrite (IH (S i)).
    - specialize (H 0 x eq_refl). rewrite Nat.add_0_r in H.
      destruct (decide (f x = 0%N)) as [E|E].
      + rewrite E. now repeat case_decide.
      + specialize (H E). repeat case_decide; tauto || reflexivity.
    - intros j y Hy Hf. specialize (H (S j) y Hy Hf).
      now rewrite <- Nat.add_succ_comm in H.
  Qed.

  Lemma sum_from_mono f h i K L :
    (forall j x, h !! j = Some x -> f x <> 0%N -> i + j ∈ K -> i + j ∈ L) ->
    (sum_from f h i K <= sum_from f h i L)%N.
  Proof.
    revert i. induction h as [|x h IH]; intros i H; simpl; [reflexivity|].
    assert (A : (sum_from f h (S i) K <= sum_from f h (S i) L)%N).
    { apply IH. intros j y Hy Hf Hi. specialize (H (S j) y Hy Hf).
      rewrite <- Nat.add_succ_comm in H. auto. }
    specialize (H 0 x eq_refl). rewrite Nat.add_0_r in H.
    destruct (decide (f x = 0%N)) as [E|E].
    - rewrite E. repeat case_decide; lia.
    - specialize (H E). repeat case_decide; lia || tauto.
  Qed.

  Lemma sum_known_mono_hist f h x K :
    closed h K -> sum_known f (h ++ [x]) K = sum_known f h K.
  Proof.
    intros [C _]. unfold sum_known. rewrite sum_from_app. simpl.
    case_decide as H; [|lia]. apply C in H. lia.
  Qed.

  Lemma sum_known_snoc f h x K :
    closed h K -> sum_known f (h ++ [x]) (K ∪ {[length h]}) = (sum_known f h K + f x)%N.
  Proof.
    intros C. unfold sum_known. rewrite sum_from_app. simpl.
    rewrite decide_True by set_solver.
    rewrite (sum_from_ext f h 0 (K ∪ {[length h]}) K); [lia|].
    intros j y Hy _. simpl. apply lookup_lt_Some in Hy. set_unfold. intuition lia.
  Qed.

  (** Two causally closed sets are comparable on the operations of one replica. *)
  Lemma closed_comparable h K L (q : N) :
    wf h -> closed h K -> closed h L ->
    (forall i x, h !! i = Some x -> op_origin x = q -> i ∈ K -> i ∈ L) \/
    (forall i x, h !! i = Some x -> op_origin x = q -> i ∈ L -> i ∈ K).
  Proof.
    intros W CK CL.
    destruct (decide (set_Forall (fun i => i ∈ K -> i ∈ L \/ (op_origin <$> h !! i) <> Some q) K)) as [D|D].
    - left. intros i x Hx Hq Hi. destruct (D i Hi Hi) as [?|E]; [assumption|].
      rewrite Hx in E. simpl in E. congruence.
    - right. apply not_set_Forall_Exists in D; [|apply _].
      destruct D as (i & Hi & D). simpl in D.
      assert (D' : i ∉ L /\ (op_origin <$> h !! i) = Some q).
      { destruct (decide (i ∈ L)); [exfalso; apply D; auto|].
        destruct (decide ((op_origin <$> h !! i) = Some q)); [auto|exfalso; apply D; auto]. }
      destruct D' as [HiL Hq].
      destruct (h !! i) as [x|] eqn:Hx; [|discriminate]. injection Hq as Hq.
      intros j y Hy Hjq Hj.
      destruct (lt_eq_lt_dec j i) as [[Hlt|Heq]|Hgt].
      + eapply (closed_prefix h K i j); eauto. congruence.
      + congruence.
      + exfalso. apply HiL. eapply (closed_prefix h L j i); eauto. congruence.
  Qed.

  Lemma sum_known_union h K L f (q : N) :
    wf h -> closed h K -> closed h L ->
    (forall x, op_origin x <> q -> f x = 0%N) ->
    sum_known f h (K ∪ L) = N.max (sum_known f h K) (sum_known f h L).
  Proof.
    intros W CK CL Hf. unfold sum_known.
    assert (Q : forall j x, h !! j = Some x -> f x <> 0%N -> op_origin x = q).
    { intros j x _ Hx. destruct (decide (op_origin x = q)); [assumption|]. exfalso. auto. }
    destruct (closed_comparable h K L q W CK CL) as [H|H].
    - assert (E : sum_from f h 0 (K ∪ L) = sum_from f h 0 L).
      { apply sum_from_ext. simpl. intros j x Hx Hne. specialize (H j x Hx (Q j x Hx Hne)). set_solver. }
      assert (M : (sum_from f h 0 K <= sum_from f h 0 L)%N).
      { apply sum_from_mono. simpl. intros j x Hx Hne. apply (H j x Hx (Q j x Hx Hne)). }
      lia.
    - assert (E : sum_from f h 0 (K ∪ L) = sum_from f h 0 K).
      { apply sum_from_ext. simpl. intros j x Hx Hne. specialize (H j x Hx (Q j x Hx Hne)). set_solver. }
      assert (M : (sum_from f h 0 L <= sum_from f h 0 K)%N).
      { apply sum_from_mono. simpl. intros j x Hx Hne. apply (H j x Hx (Q j x Hx Hne)). }
      lia.
  Qed.
End Count.
