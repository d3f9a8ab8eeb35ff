(** Proofs for C90. *)
From Coq Require Import List Bool Lia.
From stdpp Require Import base decidable list strings pretty.
From Verif Require Import SubstModel.

Section Proofs.
Variable leaf : Type.
Variable leaf_eq : leaf -> leaf -> bool.
Notation name := string.
Notation term := (term leaf).
Notation TVar := (TVar leaf). Notation TLeaf := (TLeaf leaf). Notation THole := (THole leaf). Notation TNode := (TNode leaf). Notation TBind := (TBind leaf).
Notation occurs_free := (occurs_free leaf). Notation free_vars := (free_vars leaf). Notation all_names := (all_names leaf). Notation freshen := (freshen leaf).
Notation sub := (sub leaf). Notation substitute := (substitute leaf). Notation types_equal := (types_equal leaf leaf_eq).
Lemma term_ind2 (P : term -> Prop) : (forall x, P (TVar x)) -> (forall l, P (TLeaf l)) -> P THole -> (forall k ts, List.Forall P ts -> P (TNode k ts)) ->
  (forall k ts x b, List.Forall P ts -> P b -> P (TBind k ts x b)) -> forall t, P t.
Proof.
  intros H1 H2 H3 H4 H5. fix IH 1. intros [x|l| |k ts|k ts x b]; [apply H1|apply H2|apply H3|apply H4|apply H5; [|apply IH]].
  - induction ts as [|t ts IHts]; constructor; [apply IH|apply IHts].
  - induction ts as [|t ts IHts]; constructor; [apply IH|apply IHts].
Qed.
(** ** Terms without names *)
Inductive db := DIdx (i : nat) | DFree (x : name) | DLeaf (l : leaf) | DHole | DNode (k : node) (ds : list db) | DBind (k : binder) (ds : list db) (d : db).
Lemma db_ind2 (P : db -> Prop) : (forall i, P (DIdx i)) -> (forall x, P (DFree x)) -> (forall l, P (DLeaf l)) -> P DHole -> (forall k ts, List.Forall P ts -> P (DNode k ts)) ->
  (forall k ts b, List.Forall P ts -> P b -> P (DBind k ts b)) -> forall t, P t.
Proof.
  intros H0 H1 H2 H3 H4 H5. fix IH 1. intros [i|x|l| |k ts|k ts b]; [apply H0|apply H1|apply H2|apply H3|apply H4|apply H5; [|apply IH]].
  - induction ts as [|t ts IHts]; constructor; [apply IH|apply IHts].
  - induction ts as [|t ts IHts]; constructor; [apply IH|apply IHts].
Qed.
(** How many binders out a name is bound. *)
Fixpoint index (x : name) (s : list name) : option nat := match s with [] => None | y :: s => if decide (y = x) then Some 0 else S <$> index x s end.
Fixpoint nameless (s : list name) (t : term) : db :=
  match t with
  | SubstModel.TVar _ x => match index x s with Some i => DIdx i | None => DFree x end
  | SubstModel.TLeaf _ l => DLeaf l | SubstModel.THole _ => DHole
  | SubstModel.TNode _ k ts => DNode k (map (nameless s) ts)
  | SubstModel.TBind _ k ts x b => DBind k (map (nameless s) ts) (nameless (x :: s) b)
  end.
(** Replacing a free variable, where there is nothing to capture. *)
Fixpoint plug (v : name) (r : db) (d : db) : db :=
  match d with
  | DIdx i => DIdx i | DFree x => if decide (x = v) then r else DFree x
  | DLeaf l => DLeaf l | DHole => DHole
  | DNode k ds => DNode k (map (plug v r) ds)
  | DBind k ds b => DBind k (map (plug v r) ds) (plug v r b)
  end.
Lemma occurs_node k ts v : occurs_free (TNode k ts) v = existsb (fun t => occurs_free t v) ts.
Proof. cbn. induction ts as [|t ts IH]; [done|]. cbn. now rewrite IH. Qed.
Lemma occurs_bind k ts x b v : occurs_free (TBind k ts x b) v = existsb (fun t => occurs_free t v) ts || (negb (bool_decide (x = v)) && occurs_free b v).
Proof. cbn. first [reflexivity|f_equal; induction ts as [|t ts IH]; [done|]; cbn; now rewrite IH]. Qed.
Lemma free_node s k ts : free_vars s (TNode k ts) = List.concat (map (free_vars s) ts).
Proof. cbn. induction ts as [|t ts IH]; [done|]. cbn. now rewrite IH. Qed.
Lemma free_bind s k ts x b : free_vars s (TBind k ts x b) = List.concat (map (free_vars s) ts) ++ free_vars (x :: s) b.
Proof. cbn. first [reflexivity|f_equal; induction ts as [|t ts IH]; [done|]; cbn; now rewrite IH]. Qed.
Lemma names_node k ts : all_names (TNode k ts) = List.concat (map all_names ts).
Proof. cbn. induction ts as [|t ts IH]; [done|]. cbn. now rewrite IH. Qed.
Lemma names_bind k ts x b : all_names (TBind k ts x b) = x :: List.concat (map all_names ts) ++ all_names b.
Proof. cbn. first [reflexivity|do 2 f_equal; induction ts as [|t ts IH]; [done|]; cbn; now rewrite IH]. Qed.
Lemma existsb_In {A} (f : A -> bool) l : existsb f l = true <-> exists a, In a l /\ f a = true.
Proof. apply existsb_exists. Qed.
Lemma In_concat_map {A B} (f : A -> list B) l b : In b (List.concat (map f l)) <-> exists a, In a l /\ In b (f a).
Proof. rewrite in_concat. split; [intros (x & Hx & Hb); apply in_map_iff in Hx as (a & <- & Ha); eauto|intros (a & Ha & Hb); exists (f a); split; [apply in_map_iff; eauto|done]]. Qed.
Lemma free_occurs t : forall s v, In v (free_vars s t) <-> occurs_free t v = true /\ v ∉ s.
Proof.
  induction t as [x|l| |k ts IH|k ts x b IH IHb] using term_ind2; intros s v.
  - cbn. destruct (decide (x ∈ s)) as [H|H]; cbn; rewrite bool_decide_eq_true; [split; [done|intros [-> ?]; done]|]. split; [intros [->|[]]; done|]. intros [-> _]. now left.
  - cbn. split; [done|intros [? _]; done].
  - cbn. split; [done|intros [? _]; done].
  - rewrite free_node, occurs_node, In_concat_map, existsb_In. rewrite List.Forall_forall in IH. split; [intros (t & Ht & Hv); apply (IH t Ht) in Hv as [? ?]; eauto|]. intros [(t & Ht & Hv) Hs]. exists t. split; [done|]. now apply (IH t Ht).
  - rewrite free_bind, occurs_bind, in_app_iff, In_concat_map, orb_true_iff, andb_true_iff, negb_true_iff, bool_decide_eq_false, existsb_In, IHb, not_elem_of_cons. rewrite List.Forall_forall in IH. split.
    + intros [(t & Ht & Hv)|(Hb & N & Hs)]; [apply (IH t Ht) in Hv as [? ?]; split; [left; eauto|done]|]. split; [right; split; [congruence|done]|done].
    + intros [[(t & Ht & Hv)|[N Hb]] Hs]; [left; exists t; split; [done|]; now apply (IH t Ht)|]. right. split; [done|]. split; [congruence|done].
Qed.
Lemma occurs_names t v : occurs_free t v = true -> In v (all_names t).
Proof.
  induction t as [x|l| |k ts IH|k ts x b IH IHb] using term_ind2; try done.
  - cbn. rewrite bool_decide_eq_true. auto.
  - rewrite occurs_node, names_node, In_concat_map, existsb_In. rewrite List.Forall_forall in IH. intros (t & Ht & H). eauto.
  - rewrite occurs_bind, names_bind, orb_true_iff, existsb_In, andb_true_iff. rewrite List.Forall_forall in IH. intros [(t & Ht & H)|[_ H]]; right; apply in_or_app; [left; apply In_concat_map; eauto|right; auto].
Qed.
Lemma nameless_ext t : forall s s', (forall v, occurs_free t v = true -> index v s = index v s') -> nameless s t = nameless s' t.
Proof.
  induction t as [x|l| |k ts IH|k ts x b IH IHb] using term_ind2; intros s s' H; try done; cbn [nameless].
  - rewrite (H x); [done|]. cbn. now apply bool_decide_eq_true.
  - f_equal. rewrite List.Forall_forall in IH. apply map_ext_in. intros t Ht. apply (IH t Ht). intros v Hv. apply H. rewrite occurs_node, existsb_In. eauto.
  - f_equal.
    + rewrite List.Forall_forall in IH. apply map_ext_in. intros t Ht. apply (IH t Ht). intros v Hv. apply H. rewrite occurs_bind, orb_true_iff, existsb_In. eauto.
    + apply IHb. intros v Hv. cbn [index]. destruct (decide (x = v)) as [->|N]; [done|]. f_equal. apply H. rewrite occurs_bind, orb_true_iff, andb_true_iff, negb_true_iff, bool_decide_eq_false. auto.
Qed.
Lemma index_none v s : index v s = None <-> v ∉ s.
Proof.
  induction s as [|y s IH]; cbn; [split; [intros _ H; inversion H|done]|]. rewrite not_elem_of_cons. destruct (decide (y = v)) as [->|N]; [split; [done|intros [? _]; done]|]. destruct (index v s) as [i|]; cbn; [split; [done|intros [_ H]; apply IH in H; done]|]. split; [intros _; split; [congruence|now apply IH]|done].
Qed.
Lemma plug_bound t v r : forall s, v ∈ s \/ occurs_free t v = false -> plug v r (nameless s t) = nameless s t.
Proof.
  induction t as [x|l| |k ts IH|k ts x b IH IHb] using term_ind2; intros s H; try done; cbn [nameless].
  - destruct (index x s) as [i|] eqn:E; [done|]. cbn. destruct (decide (x = v)) as [->|N]; [|done]. apply index_none in E. destruct H as [?|H]; [done|]. cbn in H. apply bool_decide_eq_false in H. done.
  - cbn. f_equal. rewrite map_map. rewrite List.Forall_forall in IH. apply map_ext_in. intros t Ht. apply (IH t Ht). destruct H as [?|H]; [now left|right]. rewrite occurs_node in H. apply not_true_iff_false. intros K. apply not_true_iff_false in H. apply H. apply existsb_In. eauto.
  - cbn. rewrite occurs_bind, orb_false_iff, andb_false_iff, negb_false_iff, bool_decide_eq_true in H. f_equal.
    + rewrite map_map. rewrite List.Forall_forall in IH. apply map_ext_in. intros t Ht. apply (IH t Ht). destruct H as [?|[H _]]; [now left|right]. apply not_true_iff_false. intros K. apply not_true_iff_false in H. apply H. apply existsb_In. eauto.
    + apply IHb. destruct H as [?|[_ [->|?]]]; [left; now right|left; left|now right].
Qed.

(** ** Depth and fresh names *)
Fixpoint depth (t : term) : nat :=
  match t with SubstModel.TVar _ _ | SubstModel.TLeaf _ _ | SubstModel.THole _ => 1 | SubstModel.TNode _ _ ts => S (list_max (map depth ts)) | SubstModel.TBind _ _ ts _ b => S (max (list_max (map depth ts)) (depth b)) end.
Lemma list_max_In l x : In x l -> x <= list_max l.
Proof. intros H. pose proof (proj1 (list_max_le l (list_max l)) ltac:(lia)) as F. rewrite List.Forall_forall in F. now apply F. Qed.
Lemma pretty_go_length (k : N) : forall s, String.length s <= String.length (pretty_N_go k s).
Proof.
  induction (N.lt_wf_0 k) as [k _ IH]. intros s. destruct (decide (k = 0%N)) as [->|N]; [rewrite pretty_N_go_0; lia|]. rewrite pretty_N_go_step by lia. etransitivity; [|apply IH; apply N.div_lt; lia]. cbn. lia.
Qed.
Lemma pretty_nonempty (k : N) : k <> 0%N -> pretty k <> "".
Proof.
  intros N E. assert (L : 1 <= String.length (pretty k)); [|rewrite E in L; cbn in L; lia]. unfold pretty, pretty_N. destruct (decide (k = 0%N)); [done|]. rewrite pretty_N_go_step by lia. etransitivity; [|apply pretty_go_length]. cbn. lia.
Qed.
Lemma append_inj_l (a b c : string) : a +:+ b = a +:+ c -> b = c.
Proof. induction a as [|x a IH]; [done|]. cbn. intros [= H]. auto. Qed.
Lemma candidate_inj base i j : candidate base i = candidate base j -> i = j.
Proof.
  unfold candidate. intros H. apply append_inj_l in H. injection H as H. destruct (decide (i = 0%N)) as [->|Ni], (decide (j = 0%N)) as [->|Nj]; [done|exfalso; now apply (pretty_nonempty j)|exfalso; now apply (pretty_nonempty i)|]. now apply (inj pretty).
Qed.
Lemma fresh_loop_ok n : forall base k avoid, fresh_loop n base k avoid ∉ avoid \/ (forall i, i <= n -> candidate base (k + N.of_nat i) ∈ avoid).
Proof.
  induction n as [|n IH]; intros base k avoid; cbn [fresh_loop].
  - destruct (decide (candidate base k ∈ avoid)); [|now left]. right. intros i Hi. assert (i = 0) as -> by lia. now rewrite N.add_0_r.
  - destruct (decide (candidate base k ∈ avoid)) as [H|H]; [|now left]. destruct (IH base (k + 1)%N avoid) as [K|K]; [now left|]. right. intros [|i] Hi; [now rewrite N.add_0_r|]. replace (k + N.of_nat (S i))%N with (k + 1 + N.of_nat i)%N by lia. apply K. lia.
Qed.
Lemma fresh_ok base avoid : fresh_name base avoid ∉ avoid.
Proof.
  unfold fresh_name. destruct (fresh_loop_ok (S (length avoid)) base 0 avoid) as [H|H]; [done|]. exfalso. set (cs := map (fun i => candidate base (N.of_nat i)) (seq 0 (S (length avoid)))).
  assert (ND : List.NoDup cs). { apply FinFun.Injective_map_NoDup; [|apply seq_NoDup]. intros i j E. apply candidate_inj in E. lia. }
  assert (L : length cs <= length avoid). { apply List.NoDup_incl_length; [done|]. intros c Hc. apply in_map_iff in Hc as (i & <- & Hi). apply in_seq in Hi. apply elem_of_list_In. specialize (H i ltac:(lia)). now rewrite N.add_0_l in H. }
  unfold cs in L. rewrite map_length, seq_length in L. lia.
Qed.
Lemma freshen_ok x b fvs v : freshen x b fvs v <> v /\ ~ In (freshen x b fvs v) (all_names b) /\ freshen x b fvs v ∉ fvs.
Proof.
  unfold SubstModel.freshen. pose proof (fresh_ok x (v :: all_names b ++ fvs)) as H. set (y := fresh_name x _) in *. rewrite not_elem_of_cons, not_elem_of_app in H. destruct H as (H1 & H2 & H3). split; [done|]. split; [|done]. rewrite <- elem_of_list_In. done.
Qed.

(** ** Renaming to a name that does not occur *)
Lemma mapM_exists {A B} (f : A -> option B) (Q : A -> B -> Prop) l : (forall a, In a l -> exists b, f a = Some b /\ Q a b) -> exists r, mapM f l = Some r /\ Forall2 Q l r.
Proof.
  induction l as [|a l IH]; intros H; [exists []; split; [done|constructor]|]. destruct (H a (or_introl eq_refl)) as (b & E & Hb). destruct IH as (r & Er & F); [intros x Hx; apply H; now right|]. exists (b :: r). cbn. rewrite E. cbn. rewrite Er. split; [done|now constructor].
Qed.
Lemma index_app v s s' : index v (s ++ s') = match index v s with Some i => Some i | None => (Nat.add (length s)) <$> index v s' end.
Proof.
  induction s as [|y s IH]; cbn; [destruct (index v s'); done|]. destruct (decide (y = v)); [done|]. rewrite IH. destruct (index v s) as [i|]; [done|]. destruct (index v s'); done.
Qed.
Lemma rename_ok x y : x <> y -> forall n t, depth t <= n -> ~ In y (all_names t) -> exists u, sub n t x (TVar y) [y] = Some u /\ depth u = depth t /\
  forall s1 s2, x ∉ s1 -> y ∉ s1 -> nameless (s1 ++ y :: s2) u = nameless (s1 ++ x :: s2) t.
Proof.
  intros Nxy n t. revert n. induction t as [z|l| |k ts IH|k ts z b IH IHb] using term_ind2; intros n D Ny; (destruct n as [|n]; [cbn in D; lia|]); cbn [SubstModel.sub].
  - eexists. split; [done|]. cbn in Ny. destruct (decide (z = x)) as [->|N].
    + split; [done|]. intros s1 s2 H1 H2. cbn [nameless]. rewrite !index_app. apply index_none in H1, H2. rewrite H1, H2. cbn. destruct (decide (x = x)), (decide (y = y)); done.
    + split; [done|]. intros s1 s2 H1 H2. cbn [nameless]. rewrite !index_app. destruct (index z s1); [done|]. cbn. destruct (decide (y = z)), (decide (x = z)); [subst; tauto|subst; tauto|congruence|done].
  - exists (TLeaf l). done.
  - exists THole. done.
  - rewrite List.Forall_forall in IH. rewrite names_node, In_concat_map in Ny. cbn in D. destruct (mapM_exists (fun t => sub n t x (TVar y) [y]) (fun t u => depth u = depth t /\ forall s1 s2, x ∉ s1 -> y ∉ s1 -> nameless (s1 ++ y :: s2) u = nameless (s1 ++ x :: s2) t) ts) as (us & E & F).
    { intros t Ht. apply (IH t Ht). - pose proof (list_max_In (map depth ts) (depth t) (in_map _ _ _ Ht)). lia. - intros K. apply Ny. eauto. }
    rewrite E. cbn. eexists. split; [done|]. split.
    + cbn. f_equal. f_equal. clear -F. induction F as [|t u ts us [H _] _ IH]; [done|]. cbn. congruence.
    + intros s1 s2 H1 H2. cbn [nameless]. f_equal. clear -F H1 H2. induction F as [|t u ts us [_ H] _ IH]; [done|]. cbn. rewrite IH, H by done. done.
  - rewrite List.Forall_forall in IH. rewrite names_bind in Ny. cbn in D, Ny. rewrite in_app_iff, In_concat_map in Ny. destruct (mapM_exists (fun t => sub n t x (TVar y) [y]) (fun t u => depth u = depth t /\ forall s1 s2, x ∉ s1 -> y ∉ s1 -> nameless (s1 ++ y :: s2) u = nameless (s1 ++ x :: s2) t) ts) as (us & E & F).
    { intros t Ht. apply (IH t Ht). - pose proof (list_max_In (map depth ts) (depth t) (in_map _ _ _ Ht)). lia. - intros K. apply Ny. right. left. eauto. }
    rewrite E. cbn [mbind option_bind].
    assert (Dd : list_max (map depth us) = list_max (map depth ts)). { f_equal. clear -F. induction F as [|t u ts us [H _] _ IH]; [done|]. cbn. congruence. }
    assert (Nn : forall s1 s2, x ∉ s1 -> y ∉ s1 -> map (nameless (s1 ++ y :: s2)) us = map (nameless (s1 ++ x :: s2)) ts). { intros s1 s2 H1 H2. clear -F H1 H2. induction F as [|t u ts us [_ H] _ IH]; [done|]. cbn. rewrite IH, H by done. done. }
    destruct (decide (z = x)) as [->|N].
    + eexists. split; [done|]. split; [cbn; congruence|]. intros s1 s2 H1 H2. cbn [nameless]. rewrite Nn by done. f_equal. apply nameless_ext. intros v Hv. cbn [index]. destruct (decide (x = v)) as [->|Nv]; [done|]. f_equal. rewrite !index_app. destruct (index v s1); [done|]. cbn. destruct (decide (y = v)), (decide (x = v)); try done. subst v. apply occurs_names in Hv. tauto.
    + destruct (decide (z ∈ [y])) as [H|_]; [apply elem_of_list_singleton in H; subst z; tauto|]. destruct (IHb n ltac:(lia) ltac:(tauto)) as (b' & Eb & Db & Hb). rewrite Eb. cbn. eexists. split; [done|]. split; [cbn; congruence|]. intros s1 s2 H1 H2. cbn [nameless]. rewrite Nn by done. f_equal. apply (Hb (z :: s1) s2); rewrite not_elem_of_cons; (split; [|done]); [congruence|]. intros ->. tauto.
Qed.

(** ** Substitution *)
Lemma nameless_open t s : (forall v, v ∈ s -> occurs_free t v = false) -> nameless s t = nameless [] t.
Proof. intros H. apply nameless_ext. intros v Hv. cbn. apply index_none. intros K. rewrite (H v K) in Hv. done. Qed.
Lemma sub_ok v r fvs : (forall y, occurs_free r y = true -> y ∈ fvs) -> forall n t, depth t <= n -> exists u, sub n t v r fvs = Some u /\
  (forall x, r = TVar x -> depth u = depth t) /\ forall s, v ∉ s -> (forall y, y ∈ s -> occurs_free r y = false) -> nameless s u = plug v (nameless [] r) (nameless s t).
Proof.
  intros Hr. induction n as [|n IH]; intros t D; [destruct t; cbn in D; lia|].
  assert (L : forall ts, list_max (map depth ts) <= n -> exists us, mapM (fun t => sub n t v r fvs) ts = Some us /\ (forall x, r = TVar x -> list_max (map depth us) = list_max (map depth ts)) /\
     forall s, v ∉ s -> (forall y, y ∈ s -> occurs_free r y = false) -> map (nameless s) us = map (plug v (nameless [] r)) (map (nameless s) ts)).
  { intros ts Ht. destruct (mapM_exists (fun t => sub n t v r fvs) (fun t u => (forall x, r = TVar x -> depth u = depth t) /\ forall s, v ∉ s -> (forall y, y ∈ s -> occurs_free r y = false) -> nameless s u = plug v (nameless [] r) (nameless s t)) ts) as (us & E & F).
    { intros t' Ht'. apply IH. pose proof (list_max_In (map depth ts) (depth t') (in_map _ _ _ Ht')). lia. }
    exists us. split; [done|]. split.
    - intros x Hx. f_equal. clear -F Hx. induction F as [|t u ts us [H _] _ IH]; [done|]. cbn. rewrite IH, (H x Hx). done.
    - intros s H1 H2. clear -F H1 H2. induction F as [|t u ts us [_ H] _ IH]; [done|]. cbn. rewrite IH, H by done. done. }
  destruct t as [z|l| |k ts|k ts z b]; cbn [SubstModel.sub].
  - eexists. split; [done|]. destruct (decide (z = v)) as [->|N].
    + split; [intros x ->; done|]. intros s H1 H2. cbn [nameless]. apply index_none in H1. rewrite H1. cbn. destruct (decide (v = v)); [|done]. now apply nameless_open.
    + split; [done|]. intros s H1 H2. cbn [nameless]. destruct (index z s); [done|]. cbn. destruct (decide (z = v)); done.
  - exists (TLeaf l). done.
  - exists THole. done.
  - cbn in D. destruct (L ts ltac:(lia)) as (us & E & H1 & H2). rewrite E. cbn. eexists. split; [done|]. split; [intros x Hx; cbn; now rewrite (H1 x Hx)|]. intros s K1 K2. cbn. now rewrite H2.
  - cbn in D. destruct (L ts ltac:(lia)) as (us & E & H1 & H2). rewrite E. cbn [mbind option_bind]. destruct (decide (z = v)) as [->|N]; [|destruct (decide (z ∈ fvs)) as [Hz|Hz]].
    + eexists. split; [done|]. split; [intros x Hx; cbn; now rewrite (H1 x Hx)|]. intros s K1 K2. cbn. rewrite H2 by done. f_equal. symmetry. apply plug_bound. left. left.
    + destruct (freshen_ok z b fvs v) as (F1 & F2 & F3). set (y := freshen z b fvs v) in *. clearbody y. cbn zeta.
      assert (Nzy : z <> y). { intros Ezy. apply F3. now rewrite <- Ezy. }
      destruct (rename_ok z y Nzy n b ltac:(lia) F2) as (b1 & E1 & D1 & R1). rewrite E1. cbn [mbind option_bind]. destruct (IH b1 ltac:(lia)) as (b2 & E2 & D2 & R2). rewrite E2. cbn [mbind option_bind]. eexists. split; [done|]. split.
      * intros x Hx. cbn. rewrite (H1 x Hx), (D2 x Hx). congruence.
      * intros s K1 K2. cbn. rewrite H2 by done. f_equal. rewrite R2; [|rewrite not_elem_of_cons; split; [congruence|done]|]; [f_equal; apply (R1 [] s); apply not_elem_of_nil|]. intros w Hw. apply elem_of_cons in Hw as [->|Hw]; [|now apply K2]. destruct (occurs_free r y) eqn:O; [|done]. exfalso. apply F3. now apply Hr.
    + destruct (IH b ltac:(lia)) as (b2 & E2 & D2 & R2). rewrite E2. cbn [mbind option_bind]. eexists. split; [done|]. split; [intros x Hx; cbn; now rewrite (H1 x Hx), (D2 x Hx)|].
      intros s K1 K2. cbn. rewrite H2 by done. f_equal. apply R2; [rewrite not_elem_of_cons; split; [congruence|done]|]. intros w Hw. apply elem_of_cons in Hw as [->|Hw]; [|now apply K2]. destruct (occurs_free r z) eqn:O; [|done]. exfalso. apply Hz. now apply Hr.
Qed.
Lemma substitute_ok n t v r : depth t <= n -> exists u, substitute n t v r = Some u /\ (forall x, r = TVar x -> depth u = depth t) /\ nameless [] u = plug v (nameless [] r) (nameless [] t).
Proof.
  intros D. unfold SubstModel.substitute. destruct (occurs_free t v) eqn:O.
  - destruct (sub_ok v r (free_vars [] r)) with (n := n) (t := t) as (u & E & H1 & H2); [|done|].
    + intros y Hy. apply elem_of_list_In. apply free_occurs. split; [done|apply not_elem_of_nil].
    + exists u. split; [done|]. split; [done|]. apply H2; [apply not_elem_of_nil|]. intros y Hy. now apply not_elem_of_nil in Hy.
  - exists t. split; [done|]. split; [done|]. symmetry. apply plug_bound. now right.
Qed.

(** ** Comparison *)
(** Equal up to the names of bound variables, and [leaf_eq] on leaves. *)
Inductive same : db -> db -> Prop :=
  | same_idx i : same (DIdx i) (DIdx i) | same_free x : same (DFree x) (DFree x) | same_leaf l m : leaf_eq l m = true -> same (DLeaf l) (DLeaf m)
  | same_node k ds es : Forall2 same ds es -> same (DNode k ds) (DNode k es)
  | same_bind k ds es d e : Forall2 same ds es -> same d e -> same (DBind k ds d) (DBind k es e).
Fixpoint close (k : nat) (x : name) (d : db) : db :=
  match d with DIdx i => DIdx i | DFree y => if decide (y = x) then DIdx k else DFree y | DLeaf l => DLeaf l | DHole => DHole | DNode j ds => DNode j (map (close k x) ds) | DBind j ds b => DBind j (map (close k x) ds) (close (S k) x b) end.
Fixpoint open (k : nat) (x : name) (d : db) : db :=
  match d with DIdx i => if decide (i = k) then DFree x else DIdx i | DFree y => DFree y | DLeaf l => DLeaf l | DHole => DHole | DNode j ds => DNode j (map (open k x) ds) | DBind j ds b => DBind j (map (open k x) ds) (open (S k) x b) end.
Lemma index_lt v s i : index v s = Some i -> i < length s.
Proof. revert i. induction s as [|y s IH]; intros i; cbn; [done|]. destruct (decide (y = v)); [intros [= <-]; lia|]. destruct (index v s) as [j|]; cbn; [|done]. intros [= <-]. specialize (IH j eq_refl). lia. Qed.
Lemma nameless_close t x : forall s, nameless (s ++ [x]) t = close (length s) x (nameless s t).
Proof.
  induction t as [z|l| |k ts IH|k ts z b IH IHb] using term_ind2; intros s; try done; cbn [nameless close].
  - rewrite index_app. destruct (index z s) as [i|]; [done|]. cbn. destruct (decide (x = z)), (decide (z = x)); try congruence; cbn; [f_equal; lia|done].
  - f_equal. rewrite map_map. rewrite List.Forall_forall in IH. apply map_ext_in. intros t Ht. now apply IH.
  - f_equal; [rewrite map_map; rewrite List.Forall_forall in IH; apply map_ext_in; intros t Ht; now apply IH|]. apply (IHb (z :: s)).
Qed.
Lemma nameless_open_at t x : forall s, open (length s) x (nameless (s ++ [x]) t) = nameless s t.
Proof.
  induction t as [z|l| |k ts IH|k ts z b IH IHb] using term_ind2; intros s; try done; cbn [nameless].
  - rewrite index_app. destruct (index z s) as [i|] eqn:E; [apply index_lt in E; cbn; destruct (decide (i = length s)); [lia|done]|]. cbn. destruct (decide (x = z)) as [->|N]; cbn; [|done]. destruct (decide (length s + 0 = length s)); [done|lia].
  - cbn. f_equal. rewrite map_map. rewrite List.Forall_forall in IH. apply map_ext_in. intros t Ht. now apply IH.
  - cbn. f_equal; [rewrite map_map; rewrite List.Forall_forall in IH; apply map_ext_in; intros t Ht; now apply IH|]. apply (IHb (z :: s)).
Qed.
Fixpoint free_in (x : name) (d : db) : Prop := match d with DIdx _ | DLeaf _ | DHole => False | DFree y => y = x | DNode _ ds => (fix go ds := match ds with [] => False | d :: ds => free_in x d \/ go ds end) ds | DBind _ ds b => (fix go ds := match ds with [] => False | d :: ds => free_in x d \/ go ds end) ds \/ free_in x b end.
Lemma free_in_list x ds : (fix go ds := match ds with [] => False | d :: ds => free_in x d \/ go ds end) ds <-> exists d, In d ds /\ free_in x d.
Proof. induction ds as [|d ds IH]; [split; [done|intros (? & [] & _)]|]. rewrite IH. split; [intros [H|(e & He & H)]; [exists d; split; [now left|done]|exists e; split; [now right|done]]|]. intros (e & [->|He] & H); [now left|right; eauto]. Qed.
Lemma free_in_nameless x t : forall s, free_in x (nameless s t) -> occurs_free t x = true /\ x ∉ s.
Proof.
  induction t as [z|l| |k ts IH|k ts z b IH IHb] using term_ind2; intros s; try done.
  - cbn. destruct (index z s) eqn:E; [done|]. cbn. intros <-. split; [now apply bool_decide_eq_true|now apply index_none].
  - cbn [nameless free_in]. rewrite free_in_list, occurs_node, existsb_In. rewrite List.Forall_forall in IH. intros (d & Hd & H). apply in_map_iff in Hd as (t & <- & Ht). apply (IH t Ht) in H as [? ?]. eauto.
  - cbn [nameless free_in]. rewrite free_in_list, occurs_bind, orb_true_iff, existsb_In, andb_true_iff, negb_true_iff, bool_decide_eq_false. rewrite List.Forall_forall in IH. intros [(d & Hd & H)|H].
    + apply in_map_iff in Hd as (t & <- & Ht). apply (IH t Ht) in H as [? ?]. eauto.
    + apply IHb in H as [? H]. apply not_elem_of_cons in H as [? ?]. split; [right; split; [congruence|done]|done].
Qed.
Lemma close_plug x y d : forall k, x = y \/ ~ free_in x d -> close k x (plug y (DFree x) d) = close k y d.
Proof.
  induction d as [i|z|l| |j ds IH|j ds b IH IHb] using db_ind2; intros k H; try done.
  - cbn in *. destruct (decide (z = y)) as [->|N]; cbn; [destruct (decide (x = x)); done|]. destruct (decide (z = x)) as [->|N']; [|done]. destruct H; [congruence|tauto].
  - cbn [plug close]. f_equal. rewrite map_map. rewrite List.Forall_forall in IH. apply map_ext_in. intros d Hd. apply (IH d Hd). destruct H as [?|H]; [now left|right]. intros K. apply H. cbn [free_in]. apply free_in_list. eauto.
  - cbn [plug close]. cbn [free_in] in H. rewrite free_in_list in H. f_equal.
    + rewrite map_map. rewrite List.Forall_forall in IH. apply map_ext_in. intros d Hd. apply (IH d Hd). destruct H as [?|H]; [now left|right]. intros K. apply H. left. eauto.
    + apply IHb. tauto.
Qed.
Lemma plug_open x y d : forall k, ~ free_in y d -> plug y (DFree x) (open k y d) = open k x d.
Proof.
  induction d as [i|z|l| |j ds IH|j ds b IH IHb] using db_ind2; intros k H; try done.
  - cbn. destruct (decide (i = k)); [|done]. cbn. destruct (decide (y = y)); done.
  - cbn in *. destruct (decide (z = y)); [done|done].
  - cbn [open plug]. f_equal. rewrite map_map. rewrite List.Forall_forall in IH. apply map_ext_in. intros d Hd. apply (IH d Hd). intros K. apply H. cbn [free_in]. apply free_in_list. eauto.
  - cbn [open plug]. cbn [free_in] in H. rewrite free_in_list in H. f_equal; [|apply IHb; tauto]. rewrite map_map. rewrite List.Forall_forall in IH. apply map_ext_in. intros d Hd. apply (IH d Hd). intros K. apply H. left. eauto.
Qed.
Lemma Forall2_map2 {A B} (P : A -> A -> Prop) (Q : B -> B -> Prop) (f : A -> B) l r : Forall2 P l r -> (forall a b, In a l -> P a b -> Q (f a) (f b)) -> Forall2 Q (map f l) (map f r).
Proof. induction 1 as [|a b l r Hab _ IH]; intros H; cbn; constructor; [apply H; [now left|done]|]. apply IH. intros x y Hx. apply H. now right. Qed.
Lemma same_close x d : forall e k, same d e -> same (close k x d) (close k x e).
Proof.
  induction d as [i|z|l| |j ds IH|j ds b IH IHb] using db_ind2; intros e k H; inversion H; subst; cbn.
  - constructor.
  - destruct (decide (z = x)); constructor.
  - now constructor.
  - constructor. rewrite List.Forall_forall in IH. eapply Forall2_map2; [eassumption|]. intros a c Ha Hac. now apply (IH a Ha).
  - constructor; [|now apply IHb]. rewrite List.Forall_forall in IH. eapply Forall2_map2; [eassumption|]. intros a c Ha Hac. now apply (IH a Ha).
Qed.
Lemma same_open x d : forall e k, same d e -> same (open k x d) (open k x e).
Proof.
  induction d as [i|z|l| |j ds IH|j ds b IH IHb] using db_ind2; intros e k H; inversion H; subst; cbn.
  - destruct (decide (i = k)); constructor.
  - constructor.
  - now constructor.
  - constructor. rewrite List.Forall_forall in IH. eapply Forall2_map2; [eassumption|]. intros a c Ha Hac. now apply (IH a Ha).
  - constructor; [|now apply IHb]. rewrite List.Forall_forall in IH. eapply Forall2_map2; [eassumption|]. intros a c Ha Hac. now apply (IH a Ha).
Qed.
End Proofs.
