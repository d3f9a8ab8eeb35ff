(** Finite sums indexed by finite maps, over any commutative ring: used to give meaning to the
    sparse expressions of [lia.rs], [omega.rs] and [ring.rs]. *)
From Coq Require Import List Ring_theory Ring.
From stdpp Require Import gmap list.

Section Lin.
  Context {K : Type} `{Countable K}.
  Context {R : Type} (rO rI : R) (radd rmul rsub : R -> R -> R) (ropp : R -> R).
  Context (Rth : ring_theory rO rI radd rmul rsub ropp eq).
  Add Ring Rring : Rth.

  Fixpoint lsum {X} (l : list X) (f : X -> R) : R :=
    match l with [] => rO | k :: l => radd (f k) (lsum l f) end.
  Lemma lsum_perm {X} (l l' : list X) f : l ≡ₚ l' -> lsum l f = lsum l' f.
  Proof. induction 1; cbn; try congruence. ring. Qed.
  Lemma lsum_app {X} (l l' : list X) f : lsum (l ++ l') f = radd (lsum l f) (lsum l' f).
  Proof. induction l as [|a l IH]; cbn; [ring|rewrite IH; ring]. Qed.
  Lemma lsum_zero {X} (l : list X) f : (forall k, k ∈ l -> f k = rO) -> lsum l f = rO.
  Proof.
    induction l as [|a l IH]; cbn; intros Hz; [done|].
    rewrite Hz by left. rewrite IH; [ring|]. intros k Hk. apply Hz. by right.
  Qed.
  Lemma lsum_ext {X} (l : list X) f g : (forall k, k ∈ l -> f k = g k) -> lsum l f = lsum l g.
  Proof.
    induction l as [|a l IH]; cbn; intros Hz; [done|].
    rewrite Hz by left. rewrite IH; [done|]. intros k Hk. apply Hz. by right.
  Qed.
  Lemma lsum_lin {X} (l : list X) a b f g :
    lsum l (fun k => radd (rmul a (f k)) (rmul b (g k))) = radd (rmul a (lsum l f)) (rmul b (lsum l g)).
  Proof. induction l as [|x l IH]; cbn; [ring|rewrite IH; ring]. Qed.
  Lemma lsum_mul {X} (l : list X) a f : lsum l (fun k => rmul a (f k)) = rmul a (lsum l f).
  Proof. induction l as [|x l IH]; cbn; [ring|rewrite IH; ring]. Qed.
  Lemma lsum_map {X Y} (l : list X) (h : X -> Y) f : lsum (h <$> l) f = lsum l (fun x => f (h x)).
  Proof. induction l as [|x l IH]; cbn; [done|by rewrite IH]. Qed.

  Definition get (m : gmap K R) (k : K) : R := default rO (m !! k).
  Definition msum (m : gmap K R) (w : K -> R) : R := lsum (elements (dom m)) (fun k => rmul (get m k) (w k)).

  Lemma get_none m k : m !! k = None -> get m k = rO.
  Proof. unfold get. by intros ->. Qed.
  Lemma msum_on (l : list K) m w : NoDup l -> (forall k, is_Some (m !! k) -> k ∈ l) ->
    msum m w = lsum l (fun k => rmul (get m k) (w k)).
  Proof.
    intros Hn Hc. unfold msum. set (D := dom m).
    assert (Hp : l ≡ₚ elements D ++ elements (list_to_set (C := gset K) l ∖ D)).
    { apply NoDup_Permutation; [done| |].
      - apply NoDup_app. repeat split; try apply NoDup_elements. intros x Hx1 Hx2.
        apply elem_of_elements in Hx1. apply elem_of_elements in Hx2. set_solver.
      - intros x. rewrite elem_of_app, !elem_of_elements, elem_of_difference, elem_of_list_to_set.
        destruct (decide (x ∈ D)) as [Hx|Hx]; [|naive_solver].
        assert (x ∈ l) by (apply Hc; by apply elem_of_dom). naive_solver. }
    rewrite (lsum_perm _ _ _ Hp), lsum_app, (lsum_zero (elements (_ ∖ _))); [ring|].
    intros k Hk. apply elem_of_elements in Hk. apply elem_of_difference in Hk as [_ Hk].
    rewrite get_none; [ring|]. by apply not_elem_of_dom in Hk.
  Qed.
  Lemma msum_lin m m1 m2 a b w : (forall k, get m k = radd (rmul a (get m1 k)) (rmul b (get m2 k))) ->
    msum m w = radd (rmul a (msum m1 w)) (rmul b (msum m2 w)).
  Proof.
    intros E. set (l := elements (dom m ∪ dom m1 ∪ dom m2)).
    assert (Hn : NoDup l) by apply NoDup_elements.
    assert (Hl : forall m', (m' = m \/ m' = m1 \/ m' = m2) -> forall k, is_Some (m' !! k) -> k ∈ l).
    { intros m' Hm k Hk%elem_of_dom. apply elem_of_elements. set_solver. }
    rewrite (msum_on l m), (msum_on l m1), (msum_on l m2) by eauto.
    rewrite <- lsum_lin. apply lsum_ext. intros k _. rewrite E. ring.
  Qed.
  Lemma msum_ext m m' w : (forall k, get m k = get m' k) -> msum m w = msum m' w.
  Proof. intros E. rewrite (msum_lin m m' m' rI rO); [ring|]. intros k. rewrite E. ring. Qed.
  Lemma msum_scale m m' a w : (forall k, get m k = rmul a (get m' k)) -> msum m w = rmul a (msum m' w).
  Proof. intros E. rewrite (msum_lin m m' m' a rO); [ring|]. intros k. rewrite E. ring. Qed.
  Lemma msum_add m m1 m2 w : (forall k, get m k = radd (get m1 k) (get m2 k)) -> msum m w = radd (msum m1 w) (msum m2 w).
  Proof. intros E. rewrite (msum_lin m m1 m2 rI rI); [ring|]. intros k. rewrite E. ring. Qed.
  Lemma msum_empty w : msum ∅ w = rO.
  Proof. rewrite (msum_on []); [done|constructor|]. intros k [x Hx]. by rewrite lookup_empty in Hx. Qed.
  Lemma msum_singleton k c w : msum {[k := c]} w = rmul c (w k).
  Proof.
    rewrite (msum_on [k]); [|apply NoDup_singleton|].
    - cbn. unfold get. rewrite lookup_singleton. cbn. ring.
    - intros k' [x Hx]. apply lookup_singleton_Some in Hx as [-> _]. by left.
  Qed.
  Lemma get_singleton_ne k k' c : k <> k' -> get {[k := c]} k' = rO.
  Proof. intros. apply get_none. by apply lookup_singleton_ne. Qed.
  Lemma get_singleton k c : get {[k := c]} k = c.
  Proof. unfold get. by rewrite lookup_singleton. Qed.
  Lemma get_delete m k k' : get (delete k m) k' = if decide (k = k') then rO else get m k'.
  Proof.
    unfold get. case_decide as Hk.
    - subst. by rewrite lookup_delete.
    - by rewrite lookup_delete_ne.
  Qed.
  Lemma msum_split m k w : msum m w = radd (rmul (get m k) (w k)) (msum (delete k m) w).
  Proof.
    rewrite <- (msum_singleton k (get m k) w). apply msum_add. intros k'.
    rewrite get_delete. case_decide as Hk.
    - subst. rewrite get_singleton. ring.
    - rewrite get_singleton_ne by done. ring.
  Qed.
  Lemma msum_w_ext m w w' : (forall k, get m k <> rO -> w k = w' k) -> (forall r : R, {r = rO} + {r <> rO}) -> msum m w = msum m w'.
  Proof.
    intros E D. unfold msum. apply lsum_ext. intros k _. destruct (D (get m k)) as [Hk|Hk].
    - rewrite Hk. ring.
    - by rewrite E.
  Qed.
  Lemma msum_to_list m w : msum m w = lsum (map_to_list m) (fun p => rmul (snd p) (w (fst p))).
  Proof.
    rewrite (msum_on ((map_to_list m).*1)).
    - rewrite lsum_map. apply lsum_ext. intros [k c] Hk. apply elem_of_map_to_list in Hk. unfold get. cbn. by rewrite Hk.
    - apply NoDup_fst_map_to_list.
    - intros k [c Hc]. apply elem_of_list_fmap. exists (k, c). split; [done|]. by apply elem_of_map_to_list.
  Qed.
End Lin.
