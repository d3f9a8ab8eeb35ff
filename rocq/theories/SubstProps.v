(** C90: named substitution is substitution of nameless terms, and the comparison of terms is equality of nameless terms as long as no name is bound twice. *)
From Coq Require Import List Bool Lia PeanoNat.
From stdpp Require Import base decidable list strings pretty.
From Verif Require Import SubstModel SubstProofs.

Section Props.
Variable leaf : Type.
Variable leaf_eq : leaf -> leaf -> bool.
Notation name := string.
Notation term := (term leaf).
Notation db := (db leaf).
Notation TVar := (TVar leaf). Notation TLeaf := (TLeaf leaf). Notation THole := (THole leaf). Notation TNode := (TNode leaf). Notation TBind := (TBind leaf).
Notation DFree := (DFree leaf). Notation DIdx := (DIdx leaf).
Notation nameless := (nameless leaf). Notation plug := (plug leaf). Notation depth := (depth leaf). Notation occurs_free := (occurs_free leaf).
Notation substitute := (substitute leaf). Notation types_equal := (types_equal leaf leaf_eq). Notation same := (same leaf leaf_eq).

(** ** Substitution *)
(** Replacing the free variable [v] in the nameless form; no renaming is needed there, as bound variables have no names. *)
Theorem C90_substitute : forall n t v r, depth t <= n -> exists u, substitute n t v r = Some u /\ nameless [] u = plug v (nameless [] r) (nameless [] t).
Proof. intros n t v r D. destruct (substitute_ok leaf n t v r D) as (u & E & _ & H). eauto. Qed.
(** So the names of bound variables do not matter. *)
Theorem C90_alpha : forall n t t' v r r' u u', depth t <= n -> depth t' <= n -> nameless [] t = nameless [] t' -> nameless [] r = nameless [] r' ->
  substitute n t v r = Some u -> substitute n t' v r' = Some u' -> nameless [] u = nameless [] u'.
Proof.
  intros n t t' v r r' u u' D D' Et Er E E'. destruct (C90_substitute n t v r D) as (x & Ex & Hx). destruct (C90_substitute n t' v r' D') as (y & Ey & Hy). congruence.
Qed.
Lemma plug_absent v R d : ~ free_in leaf v d -> plug v R d = d.
Proof.
  induction d as [i|z|l| |j ds IH|j ds b IH IHb] using (db_ind2 leaf); intros H; try done.
  - cbn in *. destruct (decide (z = v)); done.
  - cbn [SubstProofs.plug]. f_equal. rewrite List.Forall_forall in IH. rewrite <- (map_id ds) at 2. apply map_ext_in. intros d Hd. apply (IH d Hd). intros K. apply H. cbn [free_in]. apply free_in_list. eauto.
  - cbn [SubstProofs.plug]. cbn [free_in] in H. rewrite free_in_list in H. f_equal; [|apply IHb; tauto]. rewrite List.Forall_forall in IH. rewrite <- (map_id ds) at 2. apply map_ext_in. intros d Hd. apply (IH d Hd). intros K. apply H. left. eauto.
Qed.
Lemma plug_comm x y R S d : x <> y -> ~ free_in leaf x S -> plug y S (plug x R d) = plug x (plug y S R) (plug y S d).
Proof.
  intros N F. induction d as [i|z|l| |j ds IH|j ds b IH IHb] using (db_ind2 leaf); try done.
  - cbn. destruct (decide (z = x)) as [->|Nx]; [destruct (decide (x = y)); [done|]; cbn; destruct (decide (x = x)); done|]. cbn. destruct (decide (z = y)) as [->|Ny]; [now rewrite plug_absent|]. cbn. destruct (decide (z = x)); done.
  - cbn [SubstProofs.plug]. f_equal. rewrite !map_map. rewrite List.Forall_forall in IH. apply map_ext_in. intros d Hd. now apply IH.
  - cbn [SubstProofs.plug]. f_equal; [|done]. rewrite !map_map. rewrite List.Forall_forall in IH. apply map_ext_in. intros d Hd. now apply IH.
Qed.
(** One substitution after another. *)
Theorem C90_substitution_lemma : forall n t x r y s a b c d, x <> y -> occurs_free s x = false -> depth t <= n -> depth r <= n -> depth a <= n -> depth b <= n ->
  substitute n t x r = Some a -> substitute n a y s = Some c -> substitute n t y s = Some b -> forall r', substitute n r y s = Some r' -> substitute n b x r' = Some d ->
  nameless [] c = nameless [] d.
Proof.
  intros n t x r y s a b c d N O Dt Dr Da Db Ea Ec Eb r' Er Ed.
  destruct (C90_substitute n t x r Dt) as (a' & Ea' & Ha). destruct (C90_substitute n a y s Da) as (c' & Ec' & Hc). destruct (C90_substitute n t y s Dt) as (b' & Eb' & Hb). destruct (C90_substitute n r y s Dr) as (q & Eq & Hq). destruct (C90_substitute n b x r' Db) as (d' & Ed' & Hd).
  assert (a' = a) as -> by congruence. assert (c' = c) as -> by congruence. assert (b' = b) as -> by congruence. assert (q = r') as -> by congruence. assert (d' = d) as -> by congruence.
  rewrite Hc, Hd, Ha, Hb, Hq. apply plug_comm; [done|]. intros K. apply free_in_nameless in K as [K _]. congruence.
Qed.

(** ** Comparison *)
Fixpoint hole_free (t : term) : bool :=
  match t with SubstModel.TVar _ _ | SubstModel.TLeaf _ _ => true | SubstModel.THole _ => false | SubstModel.TNode _ _ ts => forallb hole_free ts | SubstModel.TBind _ _ ts _ b => forallb hole_free ts && hole_free b end.
Fixpoint let_free (t : term) : bool :=
  match t with SubstModel.TVar _ _ | SubstModel.TLeaf _ _ | SubstModel.THole _ => true | SubstModel.TNode _ _ ts => forallb let_free ts | SubstModel.TBind _ k ts _ b => negb (bool_decide (k = BLet)) && (forallb let_free ts && let_free b) end.
(** No binder of the term takes a name of [B], or the name of a binder around it. *)
Fixpoint fresh_binders (B : list name) (t : term) : bool :=
  match t with SubstModel.TVar _ _ | SubstModel.TLeaf _ _ | SubstModel.THole _ => true | SubstModel.TNode _ _ ts => forallb (fresh_binders B) ts
  | SubstModel.TBind _ _ ts x b => forallb (fresh_binders B) ts && (bool_decide (x ∉ B) && fresh_binders (x :: B) b) end.
Lemma all_equal_total f ts us : (forall t u, In t ts -> In u us -> exists r, f t u = Some r) -> exists r, all_equal leaf f ts us = Some r.
Proof.
  revert us. induction ts as [|t ts IH]; intros [|u us] H; cbn; eauto. destruct (H t u (or_introl eq_refl) (or_introl eq_refl)) as ([|] & ->); cbn; [|eauto]. apply IH. intros a b Ha Hb. apply H; now right.
Qed.
Lemma all_equal_true f ts us : all_equal leaf f ts us = Some true <-> Forall2 (fun t u => f t u = Some true) ts us.
Proof.
  revert us. induction ts as [|t ts IH]; intros [|u us]; cbn; [split; [constructor|done]|split; [done|intros H; inversion H]|split; [done|intros H; inversion H]|]. rewrite Forall2_cons, <- IH. destruct (f t u) as [[|]|]; cbn; [tauto| |]; split; (done || now intros [? _]).
Qed.
Lemma depth_In ts t n : list_max (map depth ts) <= n -> In t ts -> depth t <= n.
Proof. intros H Ht. pose proof (list_max_In (map depth ts) (depth t) (in_map _ _ _ Ht)). lia. Qed.
(** The comparison returns. *)
Theorem C90_total : forall n a b, depth b <= n -> exists r, types_equal n a b = Some r.
Proof.
  induction n as [|n IH]; intros a b D; [destruct b; cbn in D; lia|]. cbn [SubstModel.types_equal].
  assert (L : forall ts us, list_max (map depth us) <= n -> exists r, all_equal leaf (types_equal n) ts us = Some r). { intros ts us H. apply all_equal_total. intros t u _ Hu. apply IH. eapply depth_In; eauto. }
  destruct a as [x|l| |k ts|k ts x t], b as [y|m| |j us|j us y u]; eauto; cbn in D.
  - destruct (decide (k = j)); [|eauto]. destruct (decide (length ts = length us)); [|eauto]. apply L. lia.
  - destruct (decide (k = j)); [|eauto]. destruct (L ts us ltac:(lia)) as (r & E). rewrite E. destruct (substitute_ok leaf n u y (TVar x) ltac:(lia)) as (u' & Eu & Du & _). rewrite Eu. cbn. destruct k; eauto; destruct r; cbn; eauto; apply IH; rewrite (Du x eq_refl); lia.
Qed.
Fixpoint dhole (d : db) : bool := match d with SubstProofs.DIdx _ _ | SubstProofs.DFree _ _ | SubstProofs.DLeaf _ _ => true | SubstProofs.DHole _ => false | SubstProofs.DNode _ _ ds => forallb dhole ds | SubstProofs.DBind _ _ ds b => forallb dhole ds && dhole b end.
Lemma forallb_map {A B} (f : B -> bool) (g : A -> B) l : forallb f (map g l) = forallb (fun a => f (g a)) l.
Proof. induction l as [|a l IH]; [done|]. cbn. now rewrite IH. Qed.
Lemma forallb_ext_In {A} (f g : A -> bool) l : (forall a, In a l -> f a = g a) -> forallb f l = forallb g l.
Proof. induction l as [|a l IH]; intros H; [done|]. cbn. rewrite (H a) by now left. f_equal. apply IH. intros b Hb. apply H. now right. Qed.
Lemma hole_nameless t : forall s, dhole (nameless s t) = hole_free t.
Proof.
  induction t as [z|l| |k ts IH|k ts z b IH IHb] using (term_ind2 leaf); intros s; try done.
  - cbn. destruct (index z s); done.
  - cbn. rewrite forallb_map. rewrite List.Forall_forall in IH. apply forallb_ext_In. intros t Ht. now apply IH.
  - cbn. rewrite forallb_map, IHb. f_equal. rewrite List.Forall_forall in IH. apply forallb_ext_In. intros t Ht. now apply IH.
Qed.
Lemma hole_plug v x d : dhole (plug v (DFree x) d) = dhole d.
Proof.
  induction d as [i|z|l| |j ds IH|j ds b IH IHb] using (db_ind2 leaf); try done.
  - cbn. destruct (decide (z = v)); done.
  - cbn. rewrite forallb_map. rewrite List.Forall_forall in IH. apply forallb_ext_In. intros t Ht. now apply IH.
  - cbn. rewrite forallb_map, IHb. f_equal. rewrite List.Forall_forall in IH. apply forallb_ext_In. intros t Ht. now apply IH.
Qed.
Lemma free_in_plug w v x d : free_in leaf w (plug v (DFree x) d) -> w = x \/ (w <> v /\ free_in leaf w d).
Proof.
  induction d as [i|z|l| |j ds IH|j ds b IH IHb] using (db_ind2 leaf); try done.
  - cbn. destruct (decide (z = v)) as [->|N]; cbn; [now left|]. intros <-. tauto.
  - cbn [SubstProofs.plug free_in]. rewrite !free_in_list. rewrite List.Forall_forall in IH. intros (e & He & H). apply in_map_iff in He as (d & <- & Hd). apply (IH d Hd) in H as [?|[? ?]]; [now left|right]. eauto.
  - cbn [SubstProofs.plug free_in]. rewrite !free_in_list. rewrite List.Forall_forall in IH. intros [(e & He & H)|H].
    + apply in_map_iff in He as (d & <- & Hd). apply (IH d Hd) in H as [?|[? ?]]; [now left|right]. eauto.
    + apply IHb in H. tauto.
Qed.
Lemma occurs_free_in x t : forall s, occurs_free t x = true -> x ∉ s -> free_in leaf x (nameless s t).
Proof.
  induction t as [z|l| |k ts IH|k ts z b IH IHb] using (term_ind2 leaf); intros s H Hs; try done.
  - cbn in *. apply bool_decide_eq_true in H as ->. apply index_none in Hs. rewrite Hs. done.
  - cbn [SubstProofs.nameless free_in]. rewrite free_in_list. rewrite occurs_node, existsb_In in H. destruct H as (t & Ht & H). rewrite List.Forall_forall in IH. exists (nameless s t). split; [now apply in_map|]. now apply IH.
  - cbn [SubstProofs.nameless free_in]. rewrite free_in_list. rewrite occurs_bind, orb_true_iff, existsb_In, andb_true_iff, negb_true_iff, bool_decide_eq_false in H. rewrite List.Forall_forall in IH. destruct H as [(t & Ht & H)|[N H]]; [left; exists (nameless s t); split; [now apply in_map|]; now apply IH|]. right. apply IHb; [done|]. rewrite not_elem_of_cons. split; [congruence|done].
Qed.
Lemma equal_sound : forall n B a b, depth b <= n -> hole_free a = true -> hole_free b = true -> (forall x, occurs_free b x = true -> x ∈ B) -> fresh_binders B a = true -> types_equal n a b = Some true -> same (nameless [] a) (nameless [] b).
Proof.
  induction n as [|n IH]; intros B a b D Ha Hb F S E; [done|]. cbn [SubstModel.types_equal] in E.
  assert (L : forall ts us, list_max (map depth us) <= n -> forallb hole_free ts = true -> forallb hole_free us = true -> (forall u x, In u us -> occurs_free u x = true -> x ∈ B) -> forallb (fresh_binders B) ts = true ->
     all_equal leaf (types_equal n) ts us = Some true -> Forall2 same (map (nameless []) ts) (map (nameless []) us)).
  { clear -IH. intros ts us D Ha Hb F S E. apply all_equal_true in E. unfold list_max in *. induction E as [|t u ts us Htu _ IHl]; cbn in *; [constructor|]. apply andb_true_iff in Ha as [? ?], Hb as [? ?], S as [? ?]. constructor; [apply (IH B); [lia|done|done|intros x; apply F; now left|done|done]|]. apply IHl; try done; [lia|]. intros v x Hv. apply F. now right. }
  destruct a as [x|l| |k ts|k ts x t], b as [y|m| |j us|j us y u]; try done; cbn in D, Ha, Hb, S.
  - injection E as E. apply bool_decide_eq_true in E as ->. cbn. constructor.
  - injection E as E. now constructor.
  - destruct (decide (k = j)) as [->|]; [|done]. destruct (decide (length ts = length us)); [|done]. cbn. constructor. apply L; try done; [lia|]. intros v z Hv O. apply F. rewrite occurs_node, existsb_In. eauto.
  - destruct (decide (k = j)) as [->|]; [|done]. apply andb_true_iff in Ha as [Ha1 Ha2], Hb as [Hb1 Hb2], S as [S1 S2]. apply andb_true_iff in S2 as [S2 S3]. apply bool_decide_eq_true in S2.
    destruct (substitute_ok leaf n u y (TVar x) ltac:(lia)) as (u' & Eu & Du & Nu). rewrite Eu in E. cbn [mbind option_bind] in E. assert (E' : both (all_equal leaf (types_equal n) ts us) (types_equal n t u') = Some true) by (destruct j; done). clear E. unfold both in E'. destruct (all_equal leaf (types_equal n) ts us) as [[|]|] eqn:Eall; try done.
    assert (Fy : forall w, free_in leaf w (nameless [] u) -> w <> y -> w ∈ B). { intros w Hw N. apply free_in_nameless in Hw as [Hw _]. apply F. rewrite occurs_bind, orb_true_iff, andb_true_iff, negb_true_iff, bool_decide_eq_false. right. split; [congruence|done]. }
    cbn [SubstProofs.nameless]. constructor.
    + apply L; try done; [lia|]. intros v z Hv O. apply F. rewrite occurs_bind, orb_true_iff, existsb_In. left. eauto.
    + assert (K : same (nameless [] t) (nameless [] u')).
      { apply (IH (x :: B)); try done; [rewrite (Du x eq_refl); lia| |].
        - rewrite <- (hole_nameless u' []), Nu. cbn. rewrite hole_plug, hole_nameless. done.
        - intros w Hw. apply (occurs_free_in w u' []) in Hw; [|apply not_elem_of_nil]. rewrite Nu in Hw. cbn in Hw. apply free_in_plug in Hw as [->|[N Hw]]; [left|right; now apply Fy]. }
      apply (same_close leaf leaf_eq x _ _ 0) in K. pose proof (nameless_close leaf t x []) as C1. pose proof (nameless_close leaf u y []) as C2. cbn [length app] in C1, C2. rewrite <- C1 in K. rewrite Nu in K. cbn [SubstProofs.nameless index] in K. rewrite close_plug in K; [rewrite <- C2 in K; exact K|]. destruct (decide (x = y)) as [->|N]; [now left|right]. intros O. apply S2. now apply Fy.
Qed.
(** Where no binder of [a] takes the name of a free variable of [b] or of a binder around it, the comparison accepts only terms that are equal up to the names of bound variables. *)
Theorem C90_equal_sound_partial : forall n a b, depth b <= n -> hole_free a = true -> hole_free b = true -> fresh_binders (free_vars leaf [] b) a = true -> types_equal n a b = Some true -> same (nameless [] a) (nameless [] b).
Proof. intros n a b D Ha Hb S E. eapply equal_sound; eauto. intros x Hx. apply elem_of_list_In, free_occurs. split; [done|apply not_elem_of_nil]. Qed.
(** It accepts all such terms but those with a let. *)
Theorem C90_equal_complete : forall n a b, depth b <= n -> let_free a = true -> same (nameless [] a) (nameless [] b) -> types_equal n a b = Some true.
Proof.
  induction n as [|n IH]; intros a b D La S; [destruct b; cbn in D; lia|]. cbn [SubstModel.types_equal].
  assert (L : forall ts us, list_max (map depth us) <= n -> forallb let_free ts = true -> Forall2 same (map (nameless []) ts) (map (nameless []) us) -> all_equal leaf (types_equal n) ts us = Some true).
  { clear -IH. intros ts us D Lt S. apply all_equal_true. unfold list_max in *. revert us D S. induction ts as [|t ts IHl]; intros [|u us] D S; cbn in *; inversion S; subst; constructor; apply andb_true_iff in Lt as [? ?]; [apply IH; [lia|done|done]|apply IHl; [done|lia|done]]. }
  destruct a as [x|l| |k ts|k ts x t], b as [y|m| |j us|j us y u]; cbn [SubstProofs.nameless index] in S; inversion S; subst; cbn in D, La.
  - now rewrite bool_decide_eq_true_2.
  - congruence.
  - destruct (decide (j = j)); [|done]. match goal with H : Forall2 _ _ _ |- _ => pose proof (Forall2_length _ _ _ H) as HL; rewrite !map_length in HL; apply L in H; [|lia|done] end. now destruct (decide (length ts = length us)).
  - destruct (decide (j = j)); [|done]. apply andb_true_iff in La as [Lk La]. apply andb_true_iff in La as [La1 La2]. apply negb_true_iff, bool_decide_eq_false in Lk.
    destruct (substitute_ok leaf n u y (TVar x) ltac:(lia)) as (u' & Eu & Du & Nu). rewrite Eu. cbn [mbind option_bind].
    assert (K1 : all_equal leaf (types_equal n) ts us = Some true) by (apply L; [lia|done|done]). rewrite K1. cbn [both].
    assert (K2 : types_equal n t u' = Some true); [|destruct j; done].
    apply IH; [rewrite (Du x eq_refl); lia|done|]. match goal with H : same (nameless [x] t) _ |- _ => apply (same_open leaf leaf_eq x _ _ 0) in H; rename H into K end. pose proof (nameless_open_at leaf t x []) as C1. pose proof (nameless_open_at leaf u y []) as C2. cbn [length app] in C1, C2. rewrite C1 in K. rewrite Nu. cbn [SubstProofs.nameless index]. rewrite <- C2. rewrite plug_open; [done|]. intros O. apply free_in_nameless in O as [_ O]. apply O. left.
Qed.
End Props.

(** ** Examples, with numbers as leaves *)
Local Notation "'V' x" := (SubstModel.TVar nat x) (at level 9, x at level 0). Local Notation "'L' l" := (SubstModel.TLeaf nat l) (at level 9, l at level 0).
Local Notation pi x a b := (SubstModel.TBind nat BPi [a] x b). Local Notation lam x a b := (SubstModel.TBind nat BLambda [a] x b). Local Notation app f a := (SubstModel.TNode nat NApp [f; a]).
Local Open Scope string_scope.
Local Notation equal n := (SubstModel.types_equal nat Nat.eqb n).
(** In [fun y => x y], replacing x by y renames the binder. *)
Example C90_substitute_ex : SubstModel.substitute nat 5 (lam "y" (L 0) (app (V "x") (V "y"))) "x" (V "y") = Some (lam "y'" (L 0) (app (V "y") (V "y'"))) /\
  SubstModel.substitute nat 6 (lam "y" (V "x") (lam "y'" (L 0) (app (V "x") (app (V "y") (V "y'"))))) "x" (app (V "y") (V "y'")) =
    Some (lam "y'1" (app (V "y") (V "y'")) (lam "y''" (L 0) (app (app (V "y") (V "y'")) (app (V "y'1") (V "y''"))))).
Proof. vm_compute. done. Qed.
Example C90_lemma_ex : let t := lam "z" (V "x") (app (V "y") (V "z")) in "x" <> "y" /\ SubstModel.occurs_free nat (V "z") "x" = false /\
  SubstModel.substitute nat 5 t "x" (app (V "y") (V "z")) = Some (lam "z'" (app (V "y") (V "z")) (app (V "y") (V "z'"))).
Proof. vm_compute. done. Qed.
Example C90_equal_ex : let a := lam "x" (L 0) (lam "y" (V "x") (app (V "x") (app (V "f") (V "y")))) in let b := lam "y" (L 0) (lam "x" (V "y") (app (V "y") (app (V "f") (V "x")))) in
  fresh_binders nat (SubstModel.free_vars nat [] b) a = true /\ hole_free nat a = true /\ hole_free nat b = true /\ let_free nat a = true /\ SubstProofs.depth nat b <= 10 /\ equal 10 a b = Some true /\ equal 10 a (lam "y" (L 0) (lam "x" (V "y") (app (V "x") (app (V "f") (V "x"))))) = Some false.
Proof. vm_compute. repeat split; lia. Qed.

Ltac equal_by := exists 10; let n := fresh in intros n ?; do 10 (destruct n as [|n]; [exfalso; lia|]); vm_compute; reflexivity.
(** The comparison renames the binders of the second term to those of the first: where the first binds a name twice, the outer and the inner variable of the second are taken to be the same.
    So the closed types [forall A A : Prop, A -> A] and [forall P Q : Prop, P -> Q] are equal. *)
Theorem C90_shadow_refuted : exists a b, a = pi "A" (L 0) (pi "A" (L 0) (pi "h" (V "A") (V "A"))) /\ b = pi "P" (L 0) (pi "Q" (L 0) (pi "h" (V "P") (V "Q"))) /\
  (exists n0, forall n, n0 <= n -> equal n a b = Some true) /\ ~ SubstProofs.same nat Nat.eqb (SubstProofs.nameless nat [] a) (SubstProofs.nameless nat [] b).
Proof.
  eexists _, _. split; [reflexivity|]. split; [reflexivity|]. split; [equal_by|]. intros H. cbn in H. repeat match goal with H : SubstProofs.same _ _ _ _ |- _ => inversion H; clear H; subst | H : Forall2 _ _ _ |- _ => inversion H; clear H; subst end.
Qed.
(** A binder of the first term captures a free variable of the second: [fun x => x] and [fun y => x]. *)
Theorem C90_capture_refuted : exists a b, hole_free nat a = true /\ hole_free nat b = true /\ (exists n0, forall n, n0 <= n -> equal n a b = Some true) /\ ~ SubstProofs.same nat Nat.eqb (SubstProofs.nameless nat [] a) (SubstProofs.nameless nat [] b).
Proof.
  exists (lam "x" (L 0) (V "x")), (lam "y" (L 0) (V "x")). split; [done|]. split; [done|]. split; [equal_by|]. intros H. cbn in H. inversion H; subst. match goal with H : SubstProofs.same _ _ (DIdx _ _) _ |- _ => inversion H end.
Qed.
(** And so it does in the eta rule: [fun x => f x x] and [f x], with x free. *)
Theorem C90_eta_refuted : exists x body b, ~ fresh_binders nat (SubstModel.free_vars nat [] b) (lam x (L 0) body) = true /\ (exists n0, forall n, n0 <= n -> eta_equal nat Nat.eqb n (lam x (L 0) body) b = Some true) /\
  SubstModel.occurs_free nat (lam x (L 0) body) x = false /\ SubstModel.occurs_free nat b x = true.
Proof.
  exists "x", (app (app (V "f") (V "x")) (V "x")), (app (V "f") (V "x")). split; [done|]. split; [equal_by|]. done.
Qed.
(** A hole is equal to everything, and a let to nothing, even itself. *)
Theorem C90_hole_refuted : exists a b, (exists n0, forall n, n0 <= n -> equal n a b = Some true) /\ ~ SubstProofs.same nat Nat.eqb (SubstProofs.nameless nat [] a) (SubstProofs.nameless nat [] b).
Proof. exists (SubstModel.THole nat), (L 0). split; [equal_by|]. intros H. inversion H. Qed.
Theorem C90_let_refuted : exists a, hole_free nat a = true /\ SubstModel.free_vars nat [] a = [] /\ SubstProofs.same nat Nat.eqb (SubstProofs.nameless nat [] a) (SubstProofs.nameless nat [] a) /\ exists n0, forall n, n0 <= n -> equal n a a = Some false.
Proof.
  exists (SubstModel.TBind nat BLet [L 1; L 0] "x" (V "x")). split; [done|]. split; [done|]. split; [|equal_by]. cbn. repeat constructor.
Qed.
