(** Stable insertion sort, the model of Rust's [sort_by]/[sort_by_key] (stable by contract). *)
From stdpp Require Import list sorting.

Section Sort.
  Context {A : Type} (leb : A -> A -> bool).

  Fixpoint sort_insert (x : A) (l : list A) : list A :=
    match l with
    | [] => [x]
    | y :: l' => if leb x y then x :: l else y :: sort_insert x l'
    end.
  Definition sort_by (l : list A) : list A := foldr sort_insert [] l.

  Definition ordered := StronglySorted (fun a b => leb a b = true).

  Lemma sort_insert_perm x l : sort_insert x l ≡ₚ x :: l.
  Proof.
    induction l as [|y l IH]; simpl; [reflexivity|]. destruct (leb x y); [reflexivity|].
    rewrite IH. apply Permutation_swap.
  Qed.
  Lemma sort_by_perm l : sort_by l ≡ₚ l.
  Proof.
    induction l as [|x l IH]; simpl; [reflexivity|]. unfold sort_by in *. rewrite sort_insert_perm. now constructor.
  Qed.
  Lemma elem_of_sort_by x l : x ∈ sort_by l <-> x ∈ l.
  Proof. now rewrite sort_by_perm. Qed.

  Lemma sort_by_ordered l :
    (forall a b, leb a b = true \/ leb b a = true) ->
    (forall a b c, leb a b = true -> leb b c = true -> leb a c = true) ->
    ordered (sort_by l).
  Proof.
    intros Tot Tr. induction l as [|x l IH]; simpl; [constructor|].
    fold (sort_by l). revert IH. generalize (sort_by l). clear l.
    induction l as [|y l IH]; intros S; simpl; [repeat constructor|].
    inversion S as [|? ? S' F]; subst. destruct (leb x y) eqn:E.
    - constructor; [exact S|]. constructor; [exact E|]. eapply Forall_impl; [exact F|]. intros z Hz. eauto.
    - constructor; [apply IH; exact S'|].
      assert (Y : leb y x = true) by (destruct (Tot x y); [congruence|assumption]).
      rewrite Forall_forall in F |- *. intros z Hz. rewrite sort_insert_perm in Hz.
      apply elem_of_cons in Hz as [->|Hz]; [exact Y|auto].
  Qed.

  Lemma ordered_filter (P : A -> Prop) `{forall x, Decision (P x)} l : ordered l -> ordered (filter P l).
  Proof.
    induction 1 as [|x l S IH F]; [constructor|]. rewrite filter_cons. case_decide; [|exact IH].
    constructor; [exact IH|]. rewrite Forall_forall in F |- *. intros z Hz. apply elem_of_list_filter in Hz. apply F, Hz.
  Qed.

  Lemma ordered_unique l l' :
    ordered l -> ordered l' -> l ≡ₚ l' ->
    (forall a b, a ∈ l -> b ∈ l -> leb a b = true -> leb b a = true -> a = b) -> l = l'.
  Proof.
    intros S. revert l'. induction S as [|x l S IH F]; intros l' S' P Anti.
    - now apply Permutation_nil_l in P.
    - destruct S' as [|y l' S' F'].
      { apply Permutation_nil_r in P. discriminate. }
      assert (E : x = y).
      { assert (Hx : x ∈ y :: l') by (rewrite <- P; left).
        assert (Hy : y ∈ x :: l) by (rewrite P; left).
        apply elem_of_cons in Hx as [?|Hx]; [assumption|].
        apply elem_of_cons in Hy as [?|Hy]; [now symmetry|].
        rewrite Forall_forall in F, F'.
        apply Anti; [left|now right|apply F; exact Hy|apply F'; exact Hx]. }
      subst y. f_equal. apply IH; [exact S'|now apply Permutation_cons_inv in P|].
      intros a b Ha Hb. apply Anti; now right.
  Qed.
End Sort.
