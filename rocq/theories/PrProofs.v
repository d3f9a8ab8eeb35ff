(** Lemmas on the propagation-redundancy checker. *)
From Coq Require Import List Arith Bool Lia Sorted.
From stdpp Require Import list sorting.
From Verif Require Import RupModel RupProofs RupProps PrModel.

(** ** Clause keys identify sets of literals *)
Definition same_lits (c d : clause) : Prop := forall l, l ∈ c <-> l ∈ d.
Lemma code_inj l k : code l = code k -> l = k.
Proof. destruct l as [v []], k as [w []]; unfold code; cbn; intros H; f_equal; try lia; exfalso; lia. Qed.
Lemma dedup_elem l x : x ∈ dedup l <-> x ∈ l.
Proof.
  induction l as [| y l IH]; [reflexivity |]. destruct l as [| z l]; [reflexivity |]. change (dedup (y :: z :: l)) with (if Nat.eqb y z then dedup (z :: l) else y :: dedup (z :: l)).
  destruct (Nat.eqb_spec y z) as [-> | N]; rewrite ?elem_of_cons, IH, !elem_of_cons; tauto.
Qed.
Lemma dedup_sorted l : StronglySorted le l -> StronglySorted lt (dedup l).
Proof.
  induction l as [| y l IH]; intros Hs; [constructor |]. apply StronglySorted_inv in Hs as [Hs Hf]. destruct l as [| z l]; [repeat constructor |].
  change (dedup (y :: z :: l)) with (if Nat.eqb y z then dedup (z :: l) else y :: dedup (z :: l)). destruct (Nat.eqb_spec y z) as [-> | N]; [exact (IH Hs) |].
  constructor; [exact (IH Hs) |]. apply List.Forall_forall. intros x Hx. apply elem_of_list_In in Hx. apply (proj1 (dedup_elem _ _)) in Hx. apply StronglySorted_inv in Hs as [Hs Hz]. rewrite List.Forall_forall in Hf, Hz.
  assert (y <= z)%nat by (apply Hf; left; reflexivity). apply elem_of_cons in Hx as [-> | Hx]; [lia |]. assert (z <= x)%nat by (apply Hz, elem_of_list_In, Hx). lia.
Qed.
Lemma sorted_unique l : forall k, StronglySorted lt l -> StronglySorted lt k -> (forall x, x ∈ l <-> x ∈ k) -> l = k.
Proof.
  induction l as [| x l IH]; intros k Hl Hk E.
  - destruct k as [| y k]; [reflexivity |]. exfalso. apply (not_elem_of_nil y), E. left.
  - destruct k as [| y k]; [exfalso; apply (not_elem_of_nil x), E; left |]. apply StronglySorted_inv in Hl as [Hl Fl], Hk as [Hk Fk]. rewrite List.Forall_forall in Fl, Fk.
    assert (forall z, z ∈ l -> (x < z)%nat) as Gl by (intros z Hz; apply Fl, elem_of_list_In, Hz). assert (forall z, z ∈ k -> (y < z)%nat) as Gk by (intros z Hz; apply Fk, elem_of_list_In, Hz).
    assert (x = y) as ->.
    { assert (x ∈ y :: k) as A by (apply E; left). assert (y ∈ x :: l) as B by (apply E; left). apply elem_of_cons in A as [-> | A]; [reflexivity |]. apply elem_of_cons in B as [-> | B]; [reflexivity |].
      specialize (Gl _ B). specialize (Gk _ A). lia. }
    f_equal. apply IH; [exact Hl | exact Hk |]. intros z. specialize (E z). rewrite !elem_of_cons in E. split; intros Hz.
    + destruct (proj1 E (or_intror Hz)) as [-> | K]; [specialize (Gl _ Hz); lia | exact K].
    + destruct (proj2 E (or_intror Hz)) as [-> | K]; [specialize (Gk _ Hz); lia | exact K].
Qed.
Lemma key_elem c x : x ∈ clause_key c <-> exists l, l ∈ c /\ x = code l.
Proof.
  unfold clause_key. rewrite dedup_elem, merge_sort_Permutation. rewrite elem_of_list_In, in_map_iff. split; intros (l & A & B); exists l; (split; [first [apply elem_of_list_In; exact B | symmetry; exact B] | first [symmetry; exact A | apply elem_of_list_In; exact A]]).
Qed.
Lemma key_iff c d : clause_key c = clause_key d <-> same_lits c d.
Proof.
  split.
  - intros E l. assert (code l ∈ clause_key c <-> code l ∈ clause_key d) as H by (rewrite E; reflexivity). rewrite !key_elem in H. split; intros K.
    + destruct (proj1 H (ex_intro _ l (conj K eq_refl))) as (k & Hk & Ek). apply code_inj in Ek as ->. exact Hk.
    + destruct (proj2 H (ex_intro _ l (conj K eq_refl))) as (k & Hk & Ek). apply code_inj in Ek as ->. exact Hk.
  - intros E. apply sorted_unique.
    + apply dedup_sorted, StronglySorted_merge_sort; typeclasses eauto.
    + apply dedup_sorted, StronglySorted_merge_sort; typeclasses eauto.
    + intros x. rewrite !key_elem. split; intros (l & A & B); exists l; (split; [apply E; exact A | exact B]).
Qed.
Lemma has_key_iff cs d : has_key cs (clause_key d) = true <-> exists c, c ∈ cs /\ same_lits c d.
Proof.
  unfold has_key. rewrite existsb_exists. split.
  - intros (c & Hc & E). apply bool_decide_eq_true, key_iff in E. exists c. split; [apply elem_of_list_In; exact Hc | exact E].
  - intros (c & Hc & E). exists c. split; [apply elem_of_list_In; exact Hc |]. apply bool_decide_eq_true, key_iff. exact E.
Qed.

(** ** Permutations *)
Lemma apply_neg s l : apply_lit s (negated l) = option_map negated (apply_lit s l).
Proof. unfold apply_lit. destruct l as [v p]. cbn. destruct (s !! v); [| reflexivity]. destruct p; cbn; [reflexivity | rewrite negated_invol; reflexivity]. Qed.
Lemma apply_clause_elem s c d : apply_clause s c = Some d -> (forall l, l ∈ c -> exists k, apply_lit s l = Some k /\ k ∈ d) /\ (forall k, k ∈ d -> exists l, l ∈ c /\ apply_lit s l = Some k).
Proof.
  unfold apply_clause. intros H. apply mapM_Some in H. split.
  - intros l Hl. apply elem_of_list_lookup in Hl as [i Hi]. destruct (Forall2_lookup_l _ _ _ _ _ H Hi) as (k & Hk & E). exists k. split; [exact E | eapply elem_of_list_lookup_2; exact Hk].
  - intros k Hk. apply elem_of_list_lookup in Hk as [i Hi]. destruct (Forall2_lookup_r _ _ _ _ _ H Hi) as (l & Hl & E). exists l. split; [eapply elem_of_list_lookup_2; exact Hl | exact E].
Qed.
Lemma apply_clause_total s c : (forall l, l ∈ c -> (lvar l < length s)%nat) -> is_Some (apply_clause s c).
Proof.
  intros H. assert (forall l, l ∈ c -> is_Some (apply_lit s l)) as K.
  { intros l Hl. destruct (lookup_lt_is_Some_2 s (lvar l) (H l Hl)) as [k E]. unfold apply_lit. rewrite E. eexists. reflexivity. }
  unfold apply_clause. apply mapM_is_Some, Forall_forall. exact K.
Qed.
Lemma apply_fixed s l : moved s (lvar l) = false -> (lvar l < length s)%nat -> apply_lit s l = Some l.
Proof.
  unfold moved, apply_lit. intros M L. destruct (lookup_lt_is_Some_2 s (lvar l) L) as [k E]. rewrite E in *. apply negb_false_iff, bool_decide_eq_true in M. subst k. destruct l as [v []]; reflexivity.
Qed.
(** The assignment read through a permutation. *)
Definition pull (s : perm) (f : nat -> bool) (v : nat) : bool :=
  match s !! v with Some img => Bool.eqb (f (lvar img)) (lpos img) | None => f v end.
Lemma pull_lit s f l k : apply_lit s l = Some k -> lit_true (pull s f) l <-> lit_true f k.
Proof.
  unfold apply_lit, lit_true, pull. destruct (s !! lvar l) as [img |]; [| discriminate]. intros [= <-]. destruct l as [v p], img as [w q]. cbn. destruct p; cbn; destruct (f w), q; cbn; split; intros; congruence.
Qed.
Lemma pull_clause s f c d : apply_clause s c = Some d -> clause_true (pull s f) c <-> clause_true f d.
Proof.
  intros H. destruct (apply_clause_elem s c d H) as [A B]. split; intros (l & Hl & T).
  - destruct (A l Hl) as (k & E & Hk). exists k. split; [exact Hk | apply (pull_lit s f l k E); exact T].
  - destruct (B l Hl) as (k & Hk & E). exists k. split; [exact Hk | apply (pull_lit s f k l E); exact T].
Qed.
Lemma pull_unmoved s f c : existsb (fun l => moved s (lvar l)) c = false -> clause_true f c -> clause_true (pull s f) c.
Proof.
  intros H (l & Hl & T). exists l. split; [exact Hl |]. assert (moved s (lvar l) = false) as M.
  { destruct (moved s (lvar l)) eqn:M; [| reflexivity]. rewrite <- H. symmetry. apply existsb_exists. exists l. split; [apply elem_of_list_In; exact Hl | exact M]. }
  destruct (Nat.lt_ge_cases (lvar l) (length s)) as [L | L].
  - apply (pull_lit s f l l (apply_fixed s l M L)). exact T.
  - unfold lit_true, pull. rewrite lookup_ge_None_2 by exact L. exact T.
Qed.
Lemma images_present_true s cs todo : images_present s cs todo = Some true -> forall c, c ∈ todo -> existsb (fun l => moved s (lvar l)) c = true ->
  exists d e, apply_clause s c = Some d /\ e ∈ cs /\ same_lits e d.
Proof.
  induction todo as [| c todo IH]; intros H c' Hc T; [apply elem_of_nil in Hc; contradiction |]. cbn [images_present] in H. apply elem_of_cons in Hc as [-> | Hc].
  - rewrite T in H. destruct (apply_clause s c) as [d |] eqn:E; [| discriminate]. destruct (has_key cs (clause_key d)) eqn:K; [| discriminate]. apply has_key_iff in K as (e & He & S). exists d, e. auto.
  - destruct (existsb _ c); [| exact (IH H c' Hc T)]. destruct (apply_clause s c) as [d |]; [| discriminate]. destruct (has_key cs (clause_key d)); [exact (IH H c' Hc T) | discriminate].
Qed.
Lemma automorphism_spec cs s : perm_is_automorphism cs s = Some true -> forall c, c ∈ cs -> existsb (fun l => moved s (lvar l)) c = true ->
  exists d e, apply_clause s c = Some d /\ e ∈ cs /\ same_lits e d.
Proof.
  unfold perm_is_automorphism. destruct (forallb _ _) eqn:F; [| intros H; apply (images_present_true s cs cs H)]. intros _ c Hc T. exfalso. apply existsb_exists in T as (l & _ & M).
  rewrite forallb_forall in F. destruct (Nat.lt_ge_cases (lvar l) (length s)) as [L | L].
  - specialize (F (lvar l)). rewrite M in F. discriminate F. apply in_seq. lia.
  - unfold moved in M. rewrite lookup_ge_None_2 in M by exact L. discriminate.
Qed.
Lemma automorphism_models cs s f : perm_is_automorphism cs s = Some true -> satisfies f cs -> satisfies (pull s f) cs.
Proof.
  intros H Sat c Hc. destruct (existsb (fun l => moved s (lvar l)) c) eqn:T; [| apply pull_unmoved; [exact T | apply Sat; exact Hc]].
  destruct (automorphism_spec cs s H c Hc T) as (d & e & E & He & S). apply (pull_clause s f c d E). destruct (Sat e He) as (l & Hl & Tl). exists l. split; [apply S; exact Hl | exact Tl].
Qed.

(** ** Propagation from assumptions *)
Lemma assume_agrees f ls : (forall l, l ∈ ls -> lit_true f l) -> forall a, agrees f a -> assume a ls <> Some None /\ forall a', assume a ls = Some (Some a') -> agrees f a'.
Proof.
  induction ls as [| k ls IH]; intros T a A; cbn [assume]; [split; [discriminate | intros a' [= <-]; exact A] |].
  destruct (set_true a k) as [[a' b] |] eqn:S; [| split; discriminate]. destruct (set_true_sound f _ _ _ _ A S) as [S1 S2]. destruct b.
  - apply IH; [intros l Hl; apply T; right; exact Hl | apply S1; [reflexivity | apply T; left]].
  - destruct (S2 eq_refl). apply T. left.
Qed.
Lemma up_conflict_sound n db ls f : up_conflict n db ls = Some true -> satisfies f db -> exists l, l ∈ ls /\ ~ lit_true f l.
Proof.
  intros H Sat. destruct (List.Exists_dec (fun l => ~ lit_true f l) ls) as [E | E].
  { intros l. destruct (bool_dec (f (lvar l)) (lpos l)) as [Y | N]; [right; intros K; apply K; exact Y | left; exact N]. }
  - apply List.Exists_exists in E as (l & Hl & N). exists l. split; [apply elem_of_list_In; exact Hl | exact N].
  - exfalso. assert (forall l, l ∈ ls -> lit_true f l) as T.
    { intros l Hl. destruct (bool_dec (f (lvar l)) (lpos l)) as [Y | N]; [exact Y |]. exfalso. apply E, List.Exists_exists. exists l. split; [apply elem_of_list_In; exact Hl | exact N]. }
    destruct (assume_agrees f ls T (replicate n None) (agrees_empty f n)) as [A1 A2]. unfold up_conflict in H. destruct (assume (replicate n None) ls) as [[a |] |]; [| apply A1; reflexivity | discriminate].
    exact (propagate_sound f db Sat _ a (A2 a eq_refl) H).
Qed.
Lemma up_conflict_neg n db c d f : up_conflict n db (map negated c ++ map negated d) = Some true -> satisfies f db -> ~ clause_true f c -> clause_true f d.
Proof.
  intros H Sat N. destruct (up_conflict_sound _ _ _ _ H Sat) as (l & Hl & T). rewrite elem_of_app in Hl. destruct Hl as [Hl | Hl]; apply elem_of_list_In, in_map_iff in Hl as (k & <- & Hk).
  - exfalso. apply T, lit_true_neg. intros K. apply N. exists k. split; [apply elem_of_list_In; exact Hk | exact K].
  - exists k. split; [apply elem_of_list_In; exact Hk |]. destruct (lit_true_dec f k) as [K | K]; [exact K | contradiction].
Qed.

(** ** Assignment witnesses *)
Definition override (w : assign) (f : nat -> bool) (v : nat) : bool := match w !! v with Some (Some b) => b | _ => f v end.
Lemma override_true w f l : is_t w l -> lit_true (override w f) l.
Proof. unfold is_t, lit_val, lit_true, override. destruct (w !! lvar l) as [[b |] |]; intros H; try discriminate. destruct (lpos l), b; try discriminate; reflexivity. Qed.
Lemma override_unset w f l : is_u w l -> lit_true f l -> lit_true (override w f) l.
Proof. unfold is_u, lit_val, lit_true, override. destruct (w !! lvar l) as [[b |] |]; intros H; try discriminate. auto. Qed.
Lemma any_true_spec w c : any_true w c = Some true -> exists l, l ∈ c /\ is_t w l.
Proof.
  induction c as [| l c IH]; cbn [any_true]; [discriminate |]. destruct (lit_val w l) as [[[] |] |] eqn:V; intros H; try discriminate; try (destruct (IH H) as (k & Hk & T); exists k; split; [right; exact Hk | exact T]).
  exists l. split; [left | exact V].
Qed.
Lemma unassigned_elem w c l : l ∈ unassigned w c <-> l ∈ c /\ is_u w l.
Proof.
  unfold unassigned, is_u. rewrite elem_of_list_In, filter_In, <- elem_of_list_In. destruct (lit_val w l) as [[[] |] |]; intuition congruence.
Qed.
Lemma obligations_sound n db c w f todo : satisfies f db -> ~ clause_true f c -> obligations n db c w todo = Some true -> forall d, d ∈ todo -> clause_true (override w f) d.
Proof.
  intros Sat N. induction todo as [| d todo IH]; intros H d' Hd; [apply elem_of_nil in Hd; contradiction |]. cbn [obligations] in H.
  destruct (any_true w d) as [[] |] eqn:A; [| | discriminate].
  - apply elem_of_cons in Hd as [-> | Hd]; [| exact (IH H d' Hd)]. destruct (any_true_spec w d A) as (l & Hl & T). exists l. split; [exact Hl | apply override_true; exact T].
  - destruct (up_conflict n db _) as [[] |] eqn:U; try discriminate. apply elem_of_cons in Hd as [-> | Hd]; [| exact (IH H d' Hd)].
    destruct (up_conflict_neg _ _ _ _ _ U Sat N) as (l & Hl & T). apply unassigned_elem in Hl as [Hl Ul]. exists l. split; [exact Hl | apply override_unset; assumption].
Qed.
Lemma clause_true_dec f c : clause_true f c \/ ~ clause_true f c.
Proof.
  destruct (existsb (fun l => Bool.eqb (f (lvar l)) (lpos l)) c) eqn:E.
  - left. apply existsb_exists in E as (l & Hl & T). exists l. split; [apply elem_of_list_In; exact Hl | apply eqb_prop; exact T].
  - right. intros (l & Hl & T). apply not_true_iff_false in E. apply E, existsb_exists. exists l. split; [apply elem_of_list_In; exact Hl |]. rewrite T. apply eqb_reflx.
Qed.

(** ** Deletion *)
Lemma swap_remove_sub i db d : d ∈ swap_remove i db -> d ∈ db.
Proof.
  unfold swap_remove. destruct (last db) as [e |] eqn:L; [| auto]. intros H. apply elem_of_take in H as (j & Hj & _). destruct (decide (i = j)) as [-> | N].
  - destruct (Nat.lt_ge_cases j (length db)) as [Lt | Ge].
    + rewrite list_lookup_insert in Hj by exact Lt. injection Hj as <-. apply last_Some in L as [l' ->]. apply elem_of_app. right. left.
    + rewrite list_insert_ge in Hj by lia. eapply elem_of_list_lookup_2. exact Hj.
  - rewrite list_lookup_insert_ne in Hj by exact N. eapply elem_of_list_lookup_2. exact Hj.
Qed.
Lemma delete_sub c db d : d ∈ delete_clause c db -> d ∈ db.
Proof. unfold delete_clause. destruct (position (clause_key c) db); [apply swap_remove_sub | auto]. Qed.
