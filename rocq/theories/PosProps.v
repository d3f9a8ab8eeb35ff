(** C98: the positivity check, what it guarantees, and what the registration of constructors does not check. *)
From Coq Require Import List Bool Lia.
From stdpp Require Import base decidable list strings gmap.
From Verif Require Import SubstModel SubstProofs UnivModel InferModel InferProps PosModel.

Section Props.
Notation name := string.
Variable univ : Type.
Notation leaf := (InferModel.leaf univ).
Notation term := (SubstModel.term leaf).
Notation app f a := (TNode leaf NApp [f; a]).
Notation glob g := (TLeaf leaf (LGlobal univ g)).
Notation occurs_in := (occurs_in univ). Notation is_recursive_arg := (is_recursive_arg univ). Notation strictly_positive := (strictly_positive univ). Notation unwind := (unwind univ).
Variable block : list name.

(** A member of the block is mentioned, inside that many types of binders. *)
Inductive mentions : nat -> term -> Prop :=
| m_here g : g ∈ block -> mentions 0 (glob g)
| m_node d k ts t : t ∈ ts -> mentions d t -> mentions d (TNode leaf k ts)
| m_domain d k ts x b A : k = BPi \/ k = BLambda -> A ∈ ts -> mentions d A -> mentions (S d) (TBind leaf k ts x b)
| m_outer d k ts x b A : k = BFix \/ k = BLet -> A ∈ ts -> mentions d A -> mentions d (TBind leaf k ts x b)
| m_body d k ts x b : mentions d b -> mentions d (TBind leaf k ts x b).
Definition absent (t : term) : Prop := forall d, ~ mentions d t.
(** A member applied to arguments that do not mention the block. *)
Inductive member_applied : term -> Prop :=
| ma_head g : g ∈ block -> member_applied (glob g)
| ma_app f a : member_applied f -> absent a -> member_applied (app f a).
(** A recursive field: such a member at the end of a product whose domains do not mention the block. *)
Inductive recursive_field : term -> Prop :=
| rf_base t : member_applied t -> recursive_field t
| rf_pi ts x B : (forall A, A ∈ ts -> absent A) -> recursive_field B -> recursive_field (TBind leaf BPi ts x B).
(** [u] is a part of [t] that is not inside the type of a product or abstraction, or a part of a let other than its body. *)
Inductive inside (u : term) : term -> Prop :=
| in_here : inside u u
| in_node k ts t : t ∈ ts -> inside u t -> inside u (TNode leaf k ts)
| in_fix ts x b t : t ∈ ts -> inside u t -> inside u (TBind leaf BFix ts x b)
| in_body k ts x b : inside u b -> inside u (TBind leaf k ts x b).
Definition part_fits (u : term) : Prop :=
  match u with
  | TBind _ (BPi | BLambda) ts _ _ => forall A, A ∈ ts -> absent A \/ recursive_field A
  | TBind _ BLet ts _ _ => forall A, A ∈ ts -> absent A
  | _ => True
  end.

Lemma go_or (f : term -> bool) ts : (fix go ts := match ts with [] => false | t :: ts => f t || go ts end) ts = existsb f ts.
Proof. induction ts as [|t ts IH]; [done|]. cbn. by rewrite IH. Qed.
Lemma go_and (f : term -> bool) ts : (fix go ts := match ts with [] => true | t :: ts => f t && go ts end) ts = forallb f ts.
Proof. induction ts as [|t ts IH]; [done|]. cbn. by rewrite IH. Qed.
Lemma occurs_node k ts : occurs_in block (TNode leaf k ts) = existsb (occurs_in block) ts.
Proof. cbn [PosModel.occurs_in]. apply go_or. Qed.
Lemma occurs_bind k ts x b : occurs_in block (TBind leaf k ts x b) = existsb (occurs_in block) ts || occurs_in block b.
Proof. cbn [PosModel.occurs_in]. by rewrite go_or. Qed.
Lemma occurs_ok t : occurs_in block t = true <-> exists d, mentions d t.
Proof.
  induction t as [x|[u|g]| |k ts IH|k ts x b IH IHb] using (term_ind2 leaf).
  - split; [done|]. intros [d H]. inversion H.
  - split; [done|]. intros [d H]. inversion H.
  - cbn. rewrite bool_decide_eq_true. split; [intros H; exists 0; by constructor|]. intros [d H]. by inversion H.
  - split; [done|]. intros [d H]. inversion H.
  - rewrite occurs_node, existsb_exists. rewrite List.Forall_forall in IH. split.
    + intros (t & Ht & O). apply (IH t Ht) in O as [d O]. exists d. econstructor; [apply elem_of_list_In; exact Ht|done].
    + intros [d H]. inversion H as [|d' k' ts' t Ht O| | |]; subst. apply elem_of_list_In in Ht. exists t. split; [done|]. apply IH; eauto.
  - rewrite occurs_bind, orb_true_iff, existsb_exists. rewrite List.Forall_forall in IH. rewrite IHb. split.
    + intros [(t & Ht & O)|[d O]]; [|exists d; by apply m_body]. apply (IH t Ht) in O as [d O]. apply elem_of_list_In in Ht. destruct k; [exists (S d); eapply m_domain; eauto..|exists d; eapply m_outer; eauto|exists d; eapply m_outer; eauto].
    + intros [d H]. inversion H as [| |d' k' ts' x' b' A Hk HA O|d' k' ts' x' b' A Hk HA O|d' k' ts' x' b' O]; subst; [left; apply elem_of_list_In in HA; exists A; split; [done|]; apply IH; eauto..|right; eauto].
Qed.
Lemma absent_ok t : negb (occurs_in block t) = true <-> absent t.
Proof. rewrite negb_true_iff, <- not_true_iff_false, occurs_ok. unfold absent. firstorder. Qed.
Lemma absents_ok ts : forallb (fun A => negb (occurs_in block A)) ts = true <-> forall A, A ∈ ts -> absent A.
Proof. rewrite forallb_forall. split; intros H A HA; [apply absent_ok, H, elem_of_list_In, HA|apply absent_ok, H, elem_of_list_In, HA]. Qed.
Lemma unwind_ok t : forall args, (let '(head, args) := unwind t args in match head with TLeaf _ (LGlobal _ g) => bool_decide (g ∈ block) && forallb (fun a => negb (occurs_in block a)) args | _ => false end) = true <->
  member_applied t /\ forall a, a ∈ args -> absent a.
Proof.
  induction t as [x|[u|g]| |k ts IH|k ts x b IH IHb] using (term_ind2 leaf); intros args.
  - cbn. split; [done|]. intros [H _]. inversion H.
  - cbn. split; [done|]. intros [H _]. inversion H.
  - cbn. rewrite andb_true_iff, bool_decide_eq_true, absents_ok. split; intros [H1 H2]; (split; [|done]); [by constructor|by inversion H1].
  - cbn. split; [done|]. intros [H _]. inversion H.
  - assert (K : (exists f a, k = NApp /\ ts = [f; a]) \/ ((forall f a, TNode leaf k ts <> app f a) /\ unwind (TNode leaf k ts) args = (TNode leaf k ts, args))).
    { destruct k; [|right; done]. destruct ts as [|f [|a [|y ts]]]; [right; done|right; done|left; eauto|right; done]. }
    destruct K as [(f & a & -> & ->)|[N ->]].
    + cbn [PosModel.unwind]. inversion IH as [|? ? IHf _]; subst. rewrite IHf. split.
      * intros [H1 H2]. split; [constructor; [done|]; apply H2, elem_of_app; right; left|]. intros b Hb. apply H2, elem_of_app. by left.
      * intros [H1 H2]. inversion H1 as [|f' a' Hf Ha]; subst. split; [done|]. intros b Hb. apply elem_of_app in Hb as [Hb|Hb]; [auto|]. apply elem_of_list_singleton in Hb as ->. done.
    + split; [done|]. intros [H _]. inversion H; subst. by destruct (N f a).
  - cbn. split; [done|]. intros [H _]. inversion H.
Qed.
Lemma recursive_ok t : is_recursive_arg block t = true <-> recursive_field t.
Proof.
  induction t as [x|l| |k ts IH|k ts x b IH IHb] using (term_ind2 leaf).
  - cbn. split; [done|]. intros H. inversion H as [t M|]; subst. inversion M.
  - destruct l as [u|g]; [cbn; split; [done|]; intros H; inversion H as [t M|]; subst; inversion M|]. cbn. rewrite andb_true_r, bool_decide_eq_true. split; [intros H; by apply rf_base, ma_head|]. intros H. inversion H as [t M|]; subst. by inversion M.
  - cbn. split; [done|]. intros H. inversion H as [t M|]; subst. inversion M.
  - pose proof (unwind_ok (TNode leaf k ts) []) as U. split; intros H.
    + apply rf_base. apply U. exact H.
    + inversion H as [t M|]; subst. apply U. split; [done|]. intros a Ha. by apply elem_of_nil in Ha.
  - destruct k.
    + cbn [PosModel.is_recursive_arg]. rewrite andb_true_iff, absents_ok, IHb. split; [intros [H1 H2]; by apply rf_pi|]. intros H. inversion H as [t M|]; subst; [inversion M|done].
    + cbn. split; [done|]. intros H. inversion H as [t M|]; subst. inversion M.
    + cbn. split; [done|]. intros H. inversion H as [t M|]; subst. inversion M.
    + cbn. split; [done|]. intros H. inversion H as [t M|]; subst. inversion M.
Qed.
Lemma fields_ok ts : forallb (fun A => is_recursive_arg block A || negb (occurs_in block A)) ts = true <-> forall A, A ∈ ts -> absent A \/ recursive_field A.
Proof.
  rewrite forallb_forall. split; intros H A HA; apply elem_of_list_In in HA; specialize (H A HA).
  - apply orb_true_iff in H as [H|H]; [right; by apply recursive_ok|left; by apply absent_ok].
  - apply orb_true_iff. destruct H as [H|H]; [right; by apply absent_ok|left; by apply recursive_ok].
Qed.
(** A type is accepted exactly if, outside domains, every domain is without the block or a recursive field, and the type and the value of every let are without the block. *)
Theorem C98_exact t : strictly_positive block t = true <-> forall u, inside u t -> part_fits u.
Proof.
  induction t as [x|l| |k ts IH|k ts x b IH IHb] using (term_ind2 leaf).
  - split; [|done]. intros _ u H. by inversion H.
  - split; [|done]. intros _ u H. by inversion H.
  - split; [|done]. intros _ u H. by inversion H.
  - cbn [PosModel.strictly_positive]. rewrite go_and, forallb_forall. rewrite List.Forall_forall in IH. split.
    + intros H u Hu. inversion Hu as [|k' ts' t Ht It| |]; subst; [done|]. apply elem_of_list_In in Ht. by apply (proj1 (IH t Ht) (H t Ht)).
    + intros H t Ht. apply (IH t Ht). intros u Hu. apply H. eapply in_node; [by apply elem_of_list_In|done].
  - assert (B : (forall u, inside u (TBind leaf k ts x b) -> part_fits u) <-> part_fits (TBind leaf k ts x b) /\ (k = BFix -> forall t, t ∈ ts -> forall u, inside u t -> part_fits u) /\ (forall u, inside u b -> part_fits u)).
    { split.
      - intros H. split; [apply H, in_here|]. split; [intros -> t Ht u Hu; apply H; by eapply in_fix|]. intros u Hu. apply H. by apply in_body.
      - intros (H1 & H2 & H3) u Hu. inversion Hu as [| |ts' x' b' t Ht It|k' ts' x' b' It]; subst; [done|by eapply H2|by apply H3]. }
    rewrite B, <- IHb. clear B. cbn [PosModel.strictly_positive part_fits]. rewrite List.Forall_forall in IH. destruct k.
    + rewrite andb_true_iff, fields_ok. split; [intros [H1 H2]; done|]. intros (H1 & _ & H2). done.
    + rewrite andb_true_iff, fields_ok. split; [intros [H1 H2]; done|]. intros (H1 & _ & H2). done.
    + rewrite go_and, andb_true_iff, forallb_forall. split.
      * intros [H1 H2]. split; [done|]. split; [|done]. intros _ t Ht. apply elem_of_list_In in Ht. apply (IH t Ht). auto.
      * intros (_ & H1 & H2). split; [|done]. intros t Ht. apply (IH t Ht). apply H1; [done|by apply elem_of_list_In].
    + rewrite andb_true_iff, absents_ok. split; [intros [H1 H2]; done|]. intros (H1 & _ & H2). done.
Qed.
(** No mention of the block is inside a domain of a domain. *)
Lemma member_depth t : member_applied t -> forall d, mentions d t -> d = 0.
Proof.
  induction 1 as [g Hg|f a Hf IH Ha]; intros d M; [by inversion M|]. inversion M as [|d' k ts t Ht O| | |]; subst. apply elem_of_cons in Ht as [->|Ht]; [auto|]. apply elem_of_list_singleton in Ht as ->. by apply Ha in O.
Qed.
Lemma field_depth t : recursive_field t -> forall d, mentions d t -> d = 0.
Proof.
  induction 1 as [t M|ts x B HA HB IH]; [by apply member_depth|]. intros d M. inversion M as [| |d' k' ts' x' b' A Hk Hts O|d' k' ts' x' b' A Hk Hts O|]; subst; [by apply (HA A) in O|by destruct Hk|auto].
Qed.
Theorem C98_depth t d : strictly_positive block t = true -> mentions d t -> d <= 1.
Proof.
  intros P M. pose proof (proj1 (C98_exact t) P) as F. clear P. induction M as [g Hg|d k ts t Ht M IH|d k ts x b A Hk HA M _|d k ts x b A Hk HA M IH|d k ts x b M IH]; [lia| | | |].
  - apply IH. intros u Hu. apply F. by eapply in_node.
  - assert (X : absent A \/ recursive_field A) by (specialize (F _ (in_here _)); destruct Hk as [-> | ->]; cbn in F; auto). destruct X as [X|X]; [by apply X in M|]. apply (field_depth A X) in M. lia.
  - destruct Hk as [-> | ->]; [apply IH; intros u Hu; apply F; by eapply in_fix|]. specialize (F _ (in_here _)). cbn in F. by apply (F A) in M.
  - apply IH. intros u Hu. apply F. by apply in_body.
Qed.

(** ** Accepted constructors have a least meaning *)
(** Products read as implications; other types have the truth values given. *)
Fixpoint holds (V : term -> Prop) (t : term) : Prop :=
  match t with TBind _ BPi ts x B => (fix all ts := match ts with [] => True | A :: ts => holds V A /\ all ts end) ts -> holds V B | _ => V t end.
Fixpoint fields (t : term) : list term := match t with TBind _ BPi ts x B => ts ++ fields B | _ => [] end.
Lemma holds_pi V ts x B : holds V (TBind leaf BPi ts x B) <-> ((forall A, A ∈ ts -> holds V A) -> holds V B).
Proof.
  assert (E : (fix all ts := match ts with [] => True | A :: ts => holds V A /\ all ts end) ts <-> forall A, A ∈ ts -> holds V A).
  { induction ts as [|A ts IH]; [split; [intros _ A H; by apply elem_of_nil in H|done]|]. rewrite IH. split; [intros [H1 H2] D [->|H]%elem_of_cons; auto|]. intros H. split; [apply H; left|]. intros D HD. apply H. by right. }
  cbn [holds]. by rewrite E.
Qed.
Lemma holds_absent V W : (forall t, absent t -> V t <-> W t) -> forall t, absent t -> holds V t <-> holds W t.
Proof.
  intros E t. induction t as [x|l| |k ts IH|k ts x b IH IHb] using (term_ind2 leaf); try (intros A; apply (E _ A)).
  intros A. destruct k; try (apply (E _ A)). rewrite !holds_pi. rewrite List.Forall_forall in IH. assert (Ab : absent b) by (intros d M; apply (A d); by apply m_body). rewrite (IHb Ab).
  assert (At : forall D, D ∈ ts -> holds V D <-> holds W D). { intros D HD. apply IH; [by apply elem_of_list_In|]. intros d M. apply (A (S d)). eapply m_domain; [by left|done|done]. }
  split; intros H K; apply H; intros D HD; apply At; auto.
Qed.
Lemma holds_field V W : (forall t, absent t -> V t <-> W t) -> (forall t, member_applied t -> V t -> W t) -> forall t, recursive_field t -> holds V t -> holds W t.
Proof.
  intros E G t. induction 1 as [t M|ts x B HA HB IH].
  - destruct M; by apply G; constructor.
  - rewrite !holds_pi. intros H K. apply IH, H. intros A HA'. apply (holds_absent V W E A); auto.
Qed.
(** The truth of every field of an accepted constructor grows with that of the members of the block. *)
Theorem C98_monotone t V W : strictly_positive block t = true -> (forall u, absent u -> V u <-> W u) -> (forall u, member_applied u -> V u -> W u) -> forall A, A ∈ fields t -> holds V A -> holds W A.
Proof.
  intros P E G A HA. assert (X : absent A \/ recursive_field A).
  { pose proof (proj1 (C98_exact t) P) as F. clear P. revert F. induction t as [x|l| |k ts IH|k ts x b IH IHb] using (term_ind2 leaf); try (by apply elem_of_nil in HA).
    destruct k; try (by apply elem_of_nil in HA). cbn [fields] in HA. intros F. apply elem_of_app in HA as [HA|HA]; [exact (F _ (in_here _) A HA)|]. apply IHb; [done|]. intros u Hu. apply F. by apply in_body. }
  destruct X as [X|X]; [apply (holds_absent V W E A X)|by apply holds_field].
Qed.
End Props.
Section Least.
Variable univ : Type.
Notation leaf := (InferModel.leaf univ).
Notation term := (SubstModel.term leaf).
Notation glob g := (TLeaf leaf (LGlobal univ g)).
Variable i : string.
Variable V : term -> Prop.
(** [i] has truth value [P], and the rest those of [V]. *)
Definition with_i (P : Prop) (t : term) : Prop := match t with TLeaf _ (LGlobal _ g) => if decide (g = i) then P else V t | _ => V t end.
(** Some constructor has all its fields. *)
Definition built (ks : list (string * term)) (P : Prop) : Prop := exists k t, (k, t) ∈ ks /\ forall A, A ∈ fields univ t -> holds univ (with_i P) A.
Lemma with_i_absent P Q u : absent univ [i] u -> with_i P u <-> with_i Q u.
Proof.
  intros A. destruct u as [x|[l|g]| |k ts|k ts x b]; try done. cbn. destruct (decide (g = i)) as [->|N]; [|done]. destruct (A 0). apply m_here. by left.
Qed.
Lemma with_i_member (P Q : Prop) u : (P -> Q) -> member_applied univ [i] u -> with_i P u -> with_i Q u.
Proof. intros H M. destruct M as [g Hg|f a Hf Ha]; [|done]. cbn. by destruct (decide (g = i)). Qed.
(** For constructors accepted by the check there is a least truth value of the inductive that agrees with its constructors. *)
Theorem C98_least ks : (forall k t, (k, t) ∈ ks -> strictly_positive univ [i] t = true) -> exists P : Prop, (P <-> built ks P) /\ forall Q : Prop, (built ks Q -> Q) -> P -> Q.
Proof.
  intros Pos. assert (Mono : forall P Q : Prop, (P -> Q) -> built ks P -> built ks Q).
  { intros P Q H (k & t & Hk & F). exists k, t. split; [done|]. intros A HA. eapply (C98_monotone univ [i] t (with_i P) (with_i Q)); [by eapply Pos|intros u; apply with_i_absent|intros u; by apply with_i_member|done|auto]. }
  exists (forall Q : Prop, (built ks Q -> Q) -> Q). split; [|intros Q HQ H; exact (H Q HQ)]. assert (In : built ks (forall Q : Prop, (built ks Q -> Q) -> Q) -> forall Q : Prop, (built ks Q -> Q) -> Q).
  { intros H Q HQ. apply HQ. eapply Mono; [|exact H]. intros X. exact (X Q HQ). }
  split; [|done]. intros H. apply H. intros B. exact (Mono _ _ In B).
Qed.
End Least.

Section Registered.
Variable univ : Type.
Notation leaf := (InferModel.leaf univ).
Notation term := (SubstModel.term leaf).
Variable infer_sort : context univ -> list (string * term) -> term -> option univ.
Variable sub : univ -> univ -> bool.
Variable is_prop : univ -> bool.
(** The constructors of a block that is registered are checked against all of its names. *)
Theorem C98_mutual c c' block m k t d : add_mutual_inductives univ infer_sort sub is_prop c block = Some c' -> m ∈ block -> (k, t) ∈ m_ctors univ m -> mentions univ (map (m_name univ) block) d t -> d <= 1.
Proof.
  unfold add_mutual_inductives. destruct (forallb _ block && _) eqn:E; [|done]. intros _ Hm Hk. apply andb_true_iff in E as [E _]. rewrite forallb_forall in E. apply elem_of_list_In in Hm. apply E in Hm. rewrite forallb_forall in Hm.
  apply elem_of_list_In in Hk. apply Hm in Hk. by apply C98_depth.
Qed.
(** The domain of a product that many products down, under the bindings of those. *)
Inductive field_at : nat -> list (string * term) -> term -> term -> Prop :=
| fa_here A x B : field_at 0 [] A (TBind leaf BPi [A] x B)
| fa_next n G A D x B : field_at n G A B -> field_at (S n) (G ++ [(x, D)]) A (TBind leaf BPi [D] x B).
Lemma fit_ok c u t : forall skip G, fields_fit univ infer_sort sub c u skip G t = true -> forall n G' A, field_at n G' A t -> skip <= n -> exists s, infer_sort c (G' ++ G) A = Some s /\ sub s u = true.
Proof.
  intros skip G H n G' A F. revert skip G H. induction F as [A x B|n G' A D x B F IH]; intros skip G H L; cbn [fields_fit] in H.
  - destruct skip; [|lia]. destruct (infer_sort c G A) as [s|] eqn:E; [|done]. apply andb_true_iff in H as [H _]. eauto.
  - rewrite <- app_assoc. destruct skip; [|apply (IH skip); [done|lia]]. destruct (infer_sort c G D) as [s|] eqn:E; [|done]. apply andb_true_iff in H as [_ H]. apply (IH 0); [done|lia].
Qed.
(** The fields of a registered constructor, after as many as the inductive has parameters, have sorts within that of the inductive, unless it is a proposition. *)
Theorem C98_universes c c' k i t s u n G A : add_constructor_checked univ infer_sort sub is_prop c k i t = Some c' -> get_global univ c i = Some s -> result_sort univ s = Some u -> is_prop u = false ->
  field_at n G A t -> num_params univ c i <= n -> exists v, infer_sort c G A = Some v /\ sub v u = true.
Proof.
  unfold add_constructor_checked, check_universes. intros H Eg Es Ep F L. rewrite Eg, Es, Ep in H. destruct (strictly_positive univ [i] t && _) eqn:E; [|done]. apply andb_true_iff in E as [_ E].
  destruct (fit_ok c u t _ _ E n G A F L) as (v & Ev & S). rewrite app_nil_r in Ev. eauto.
Qed.
(** The headers of a block: every member is there under its name, with its sort and parameters, and nothing else changes. *)
Lemma headers_other c block g : g ∉ map (m_name univ) block -> get_global univ (headers univ c block) g = get_global univ c g.
Proof.
  unfold headers. revert c. induction block as [|m block IH]; intros c H; cbn in *; [done|]. apply not_elem_of_cons in H as [H1 H2]. rewrite IH by done.
  unfold get_global, add_indexed_inductive. cbn. by rewrite lookup_insert_ne.
Qed.
Lemma headers_params_other c block g : g ∉ map (m_name univ) block -> num_params univ (headers univ c block) g = num_params univ c g.
Proof.
  unfold headers. revert c. induction block as [|m block IH]; intros c H; cbn in *; [done|]. apply not_elem_of_cons in H as [H1 H2]. rewrite IH by done.
  unfold num_params, add_indexed_inductive. cbn. by rewrite !lookup_insert_ne.
Qed.
Lemma headers_member c block m : NoDup (map (m_name univ) block) -> m ∈ block ->
  get_global univ (headers univ c block) (m_name univ m) = Some (m_sort univ m) /\ num_params univ (headers univ c block) (m_name univ m) = m_params univ m.
Proof.
  revert c. induction block as [|m' block IH]; intros c N H; [by apply elem_of_nil in H|]. cbn [map] in N. apply NoDup_cons in N as [N1 N2]. apply elem_of_cons in H as [->|H]; [|by apply (IH (add_indexed_inductive univ c (m_name univ m') (m_sort univ m') (m_params univ m')))].
  change (headers univ c (m' :: block)) with (headers univ (add_indexed_inductive univ c (m_name univ m') (m_sort univ m') (m_params univ m')) block).
  rewrite headers_other, headers_params_other by done. unfold get_global, num_params, add_indexed_inductive. cbn. by rewrite !lookup_insert.
Qed.
(** The fields of the constructors of a registered block fit the sorts of their own inductives, judged with all members of the block in scope. *)
Theorem C98_block_universes c c' block : NoDup (map (m_name univ) block) -> add_mutual_inductives univ infer_sort sub is_prop c block = Some c' ->
  exists temp, (forall g, g ∉ map (m_name univ) block -> get_global univ temp g = get_global univ c g) /\ (forall m, m ∈ block -> get_global univ temp (m_name univ m) = Some (m_sort univ m)) /\
  forall m k t u n G A, m ∈ block -> (k, t) ∈ m_ctors univ m -> result_sort univ (m_sort univ m) = Some u -> is_prop u = false -> field_at n G A t -> m_params univ m <= n ->
  exists v, infer_sort temp G A = Some v /\ sub v u = true.
Proof.
  intros N. unfold add_mutual_inductives. destruct (forallb _ block && _) eqn:E; [|done]. intros _. apply andb_true_iff in E as [_ E]. exists (headers univ c block).
  split; [intros; by apply headers_other|]. split; [intros; by apply headers_member|]. intros m k t u n G A Hm Hk Hs Hp F L.
  destruct (headers_member c block m N Hm) as [G1 G2]. rewrite forallb_forall in E. apply elem_of_list_In in Hm, Hk. apply E in Hm. rewrite forallb_forall in Hm. apply Hm in Hk.
  unfold check_universes in Hk. cbn [snd] in Hk. rewrite G1, Hs, Hp, G2 in Hk. destruct (fit_ok _ u t _ _ Hk n G A F L) as (v & Ev & S). rewrite app_nil_r in Ev. eauto.
Qed.
End Registered.

(** ** What is not checked *)
Local Notation T := (SubstModel.term (InferModel.leaf universe)).
Local Notation glob g := (TLeaf (InferModel.leaf universe) (LGlobal universe g)).
Local Notation usort u := (TLeaf (InferModel.leaf universe) (LSort universe u)).
Local Notation arrow a b := (TBind (InferModel.leaf universe) BPi [a] "_" b).
(** The sort found by the inference of C91. *)
Definition kernel_sort (nz : list (string * T) -> T -> option T) (slow : list (string * T) -> T -> T -> option bool) (c : context universe) (G : list (string * T)) (t : T) : option universe :=
  a ← kernel_infer (get_global universe c) nz slow 30 G t; as_sort universe a.
Definition kernel_sub (u v : universe) : bool := bool_decide (level_leq 20 u v = Some true).
Definition kernel_prop (u : universe) : bool := match u with Prp => true | _ => false end.
Definition command nz slow := inductive_command universe (kernel_sort nz slow) kernel_sub kernel_prop.
Definition empty_context : context universe := Context universe ∅ ∅ ∅ ∅ ∅ ∅.
(** A context with the proposition False, which has no constructors. *)
Definition with_false : context universe := add_inductive universe empty_context "False" (usort Prp).
Definition NAT : list (string * T) := [("Zero", glob "Nat"); ("Succ", arrow (glob "Nat") (glob "Nat"))].
Example C98_nat_ex : forall nz slow, exists c, command nz slow with_false "Nat" (usort (Typ 0)) NAT = (c, true) /\ get_constructors universe c "Nat" = NAT.
Proof. intros nz slow. eexists. split; [vm_compute; reflexivity|vm_compute; reflexivity]. Qed.
(** The type of a constructor need not end in its inductive: [Inductive Oops := oops : False] is accepted, and [oops] is a closed term of type False. *)
Theorem C98_result_refuted : forall nz slow, exists c, command nz slow with_false "Oops" (usort (Typ 0)) [("oops", glob "False")] = (c, true) /\
  get_constructors universe c "False" = [] /\ kernel_infer (get_global universe c) nz slow 1 [] (glob "oops") = Some (glob "False").
Proof. intros nz slow. eexists. split; [vm_compute; reflexivity|]. split; vm_compute; reflexivity. Qed.
(** An inductive can be declared again: its constructors are added to the ones it has, and here False gets one. *)
Theorem C98_again_refuted : forall nz slow, exists c, command nz slow with_false "False" (usort Prp) [("trivial", glob "False")] = (c, true) /\
  get_constructors universe with_false "False" = [] /\ get_constructors universe c "False" = [("trivial", glob "False")].
Proof. intros nz slow. eexists. split; [vm_compute; reflexivity|]. split; vm_compute; reflexivity. Qed.
(** A constructor can be declared again for another inductive: the first one then has a constructor of a type that is not its own. *)
Theorem C98_steal_refuted : forall nz slow, exists c c', command nz slow with_false "Nat" (usort (Typ 0)) NAT = (c, true) /\ command nz slow c "Unit" (usort (Typ 0)) [("Zero", glob "Unit")] = (c', true) /\
  get_constructors universe c' "Nat" = [("Zero", glob "Unit"); ("Succ", arrow (glob "Nat") (glob "Nat"))].
Proof. intros nz slow. eexists _, _. split; [vm_compute; reflexivity|]. split; vm_compute; reflexivity. Qed.
(** Definitions are not unfolded: with [D := I -> False], the constructor [mk : D -> I] is accepted, and [mk : (I -> False) -> I] is not. *)
Definition with_d : context universe := Context universe {["False" := usort Prp; "I" := usort (Typ 0)]} ∅ {["a" := ("I", glob "I")]} {["I" := ["a"]]} {["D" := (usort Prp, arrow (glob "I") (glob "False"))]} ∅.
Theorem C98_unfold_refuted : forall nz slow, exists c, command nz slow with_d "I" (usort (Typ 0)) [("mk", arrow (glob "D") (glob "I"))] = (c, true) /\
  get_constructors universe c "I" = [("a", glob "I"); ("mk", arrow (glob "D") (glob "I"))] /\ strictly_positive universe ["I"] (arrow (arrow (glob "I") (glob "False")) (glob "I")) = false.
Proof. intros nz slow. eexists. split; [vm_compute; reflexivity|]. split; vm_compute; reflexivity. Qed.
(** Nor are redexes: [(fun A : Type => (A -> False) -> I) I] is accepted, and what it reduces to is not. *)
Theorem C98_redex_refuted : exists f a r, strictly_positive universe ["I"] (TNode _ NApp [f; a]) = true /\
  (exists x A b, f = TBind _ BLambda [A] x b /\ SubstModel.substitute _ 10 b x a = Some r) /\ strictly_positive universe ["I"] r = false.
Proof.
  exists (TBind _ BLambda [usort (Typ 0)] "A" (arrow (arrow (TVar _ "A") (glob "False")) (glob "I"))), (glob "I"), (arrow (arrow (glob "I") (glob "False")) (glob "I")).
  split; [vm_compute; reflexivity|]. split; [|vm_compute; reflexivity]. eexists _, _, _. split; [reflexivity|vm_compute; reflexivity].
Qed.
(** A refused command leaves the inductive behind. *)
Theorem C98_refused_refuted : forall nz slow, exists c, command nz slow with_false "Bad" (usort (Typ 0)) [("bad", arrow (arrow (glob "Bad") (glob "False")) (glob "Bad"))] = (c, false) /\ get_global universe c "Bad" = Some (usort (Typ 0)).
Proof. intros nz slow. eexists. split; vm_compute; reflexivity. Qed.

(** ** Examples *)
(** Accessibility: a recursive field behind two products, with arguments. *)
Definition ACC : T := TBind _ BPi [glob "A"] "x" (TBind _ BPi [TBind _ BPi [glob "A"] "y" (arrow (TNode _ NApp [TNode _ NApp [glob "R"; TVar _ "y"]; TVar _ "x"]) (TNode _ NApp [glob "Acc"; TVar _ "y"]))] "_" (TNode _ NApp [glob "Acc"; TVar _ "x"])).
Example C98_acc_ex : strictly_positive universe ["Acc"] ACC = true /\ mentions universe ["Acc"] 1 ACC.
Proof.
  split; [vm_compute; reflexivity|]. apply m_body. eapply m_domain; [by left|left|]. apply m_body, m_body. eapply m_node; [left|]. apply m_here. left.
Qed.
(** No truth value agrees with the constructor [(Bad -> False) -> Bad]; it is refused. *)
Example C98_bad_ex : strictly_positive universe ["Bad"] (arrow (arrow (glob "Bad") (glob "False")) (glob "Bad")) = false /\
  forall P : Prop, ~ (P <-> built universe "Bad" (fun _ => False) [("bad", arrow (arrow (glob "Bad") (glob "False")) (glob "Bad"))] P).
Proof.
  split; [vm_compute; reflexivity|]. intros P [H1 H2]. assert (N : ~ P).
  { intros p. destruct (H1 p) as (k & t & Hk & F). apply elem_of_list_singleton in Hk as [= -> ->]. specialize (F (arrow (glob "Bad") (glob "False")) (elem_of_list_here _ _)). apply F. split; [exact p|done]. }
  apply N, H2. exists "bad", (arrow (arrow (glob "Bad") (glob "False")) (glob "Bad")). split; [left|]. intros A HA. apply elem_of_list_singleton in HA as ->. intros [p _]. exact (N p).
Qed.
(** Siblings count: [(Even -> False) -> Odd] is refused in the block of Even and Odd, and accepted for Odd alone. *)
Example C98_block_ex : strictly_positive universe ["Even"; "Odd"] (arrow (arrow (glob "Even") (glob "False")) (glob "Odd")) = false /\
  strictly_positive universe ["Odd"] (arrow (arrow (glob "Even") (glob "False")) (glob "Odd")) = true /\ strictly_positive universe ["Even"; "Odd"] (arrow (glob "Even") (glob "Odd")) = true.
Proof. repeat split; vm_compute; reflexivity. Qed.
(** A field of a larger sort is refused. *)
Example C98_universe_ex : forall nz slow, snd (command nz slow with_false "Box" (usort (Typ 0)) [("box", arrow (usort (Typ 0)) (glob "Box"))]) = false /\
  snd (command nz slow with_false "Box" (usort (Typ 1)) [("box", arrow (usort (Typ 0)) (glob "Box"))]) = true.
Proof. intros nz slow. split; vm_compute; reflexivity. Qed.
