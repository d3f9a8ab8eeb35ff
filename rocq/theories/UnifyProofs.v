(** Lemmas about [UnifyModel]. *)
From Coq Require Import String List Arith Lia.
From stdpp Require Import gmap strings list.
From Verif Require Import UnifyModel.
Local Open Scope string_scope.
Local Open Scope list_scope.

Section Ind.
  Context (P : pterm -> Prop)
    (Hc : forall c, P (PConst c)) (Hv : forall x, P (PVar x)) (Hb : forall x, P (PBound x))
    (Hf : forall f l, Forall P l -> P (PFun f l)) (Hg : forall l, Forall P l -> P (PGroup l)).
  Fixpoint pterm_ind' (t : pterm) : P t :=
    match t with
    | PConst c => Hc c | PVar x => Hv x | PBound x => Hb x
    | PFun f l => Hf f l ((fix go l : Forall P l := match l with [] => Forall_nil_2 P | a :: l => Forall_cons_2 P a l (pterm_ind' a) (go l) end) l)
    | PGroup l => Hg l ((fix go l : Forall P l := match l with [] => Forall_nil_2 P | a :: l => Forall_cons_2 P a l (pterm_ind' a) (go l) end) l)
    end.
End Ind.

Lemma list_eqb_ok (l : list pterm) : Forall (fun a => forall b, pterm_eqb a b = true <-> a = b) l -> forall m,
  (fix go l m := match l, m with [], [] => true | a :: l, b :: m => pterm_eqb a b && go l m | _, _ => false end) l m = true <-> l = m.
Proof.
  induction 1 as [|a l Ha _ IH]; intros [|b m]; cbn; try done.
  rewrite andb_true_iff, Ha, IH. split; [intros [-> ->]; done|]. intros H; inversion H; done.
Qed.
Lemma pterm_eqb_ok a b : pterm_eqb a b = true <-> a = b.
Proof.
  revert b. induction a as [c|x|x|f l IH|l IH] using pterm_ind'; intros [d|y|g m|m|y]; cbn [pterm_eqb]; try done;
    try (rewrite String.eqb_eq; split; congruence).
  - rewrite andb_true_iff, String.eqb_eq, (list_eqb_ok l IH m). split; [intros [-> ->]; done|]. intros H; inversion H; done.
  - rewrite (list_eqb_ok l IH m). split; [intros ->; done|]. intros H; inversion H; done.
Qed.
Global Instance pterm_eq_dec : EqDecision pterm.
Proof. intros a b. destruct (pterm_eqb a b) eqn:E; [left; by apply pterm_eqb_ok|right]. intros H. apply pterm_eqb_ok in H. congruence. Defined.

(** The names of a term, its size, and simultaneous substitution: each name is replaced once, whatever
    the replacement mentions. *)
Fixpoint names (t : pterm) : list string :=
  match t with
  | PVar x | PBound x => [x]
  | PConst _ => []
  | PFun _ l | PGroup l => flat_map names l
  end.
Fixpoint tsize (t : pterm) : nat :=
  match t with PFun _ l | PGroup l => S (list_sum (map tsize l)) | _ => 1 end.
Fixpoint tsub (θ : subst) (t : pterm) : pterm :=
  match t with
  | PVar x | PBound x => default t (θ !! x)
  | PConst _ => t
  | PFun f l => PFun f (map (tsub θ) l)
  | PGroup l => PGroup (map (tsub θ) l)
  end.
(** Applying a substitution as the code does, with as many steps as needed. *)
Definition App (s : subst) (t u : pterm) : Prop := exists n, apply n s t = Some u.

Lemma map_opt_Some {A B} (f : A -> option B) l r : map_opt f l = Some r <-> Forall2 (fun a b => f a = Some b) l r.
Proof.
  revert r; induction l as [|a l IH]; intros r; cbn.
  - split; [intros [= <-]; constructor|]. intros H; inversion H; done.
  - split.
    + destruct (f a) eqn:E; [|done]. destruct (map_opt f l) eqn:E2; [|done]. intros [= <-].
      constructor; [done|]. by apply IH.
    + intros H; inversion H as [|? b ? r' H1 H2]; subst. rewrite H1. apply IH in H2. by rewrite H2.
Qed.
Lemma apply_mono n m s t u : apply n s t = Some u -> n <= m -> apply m s t = Some u.
Proof.
  revert m t u; induction n as [|n IH]; intros [|m] t u; cbn; try done; [lia|]. intros H Hl.
  assert (HL : forall l r, map_opt (apply n s) l = Some r -> map_opt (apply m s) l = Some r).
  { intros l r Hr. apply map_opt_Some in Hr. apply map_opt_Some. eapply Forall2_impl; [exact Hr|].
    intros a b Hab. apply (IH m a b Hab). lia. }
  destruct t as [c|x|f l|l|x]; try done.
  - destruct (s !! x); [apply (IH m _ u H); lia|done].
  - destruct (map_opt (apply n s) l) eqn:E; [|done]. by rewrite (HL _ _ E).
  - destruct (map_opt (apply n s) l) eqn:E; [|done]. by rewrite (HL _ _ E).
  - destruct (s !! x); [apply (IH m _ u H); lia|done].
Qed.
Lemma App_det s t u v : App s t u -> App s t v -> u = v.
Proof.
  intros [n Hn] [m Hm]. apply (apply_mono _ (max n m)) in Hn; [|lia]. apply (apply_mono _ (max n m)) in Hm; [|lia]. congruence.
Qed.
Lemma App_list s l r : Forall2 (App s) l r -> exists n, map_opt (apply n s) l = Some r.
Proof.
  induction 1 as [|a b l r [n Hn] _ [m Hm]]; [exists 0; done|].
  exists (max n m). apply map_opt_Some. constructor; [apply (apply_mono n); [done|lia]|].
  apply map_opt_Some in Hm. eapply Forall2_impl; [exact Hm|]. intros x y Hx. apply (apply_mono m); [done|lia].
Qed.
Lemma App_const s c u : App s (PConst c) u <-> u = PConst c.
Proof. split; [intros [[|n] H]; cbn in H; congruence|]. intros ->. by exists 1. Qed.
Lemma App_var s x u : App s (PVar x) u <-> match s !! x with Some r => App s r u | None => u = PVar x end.
Proof.
  split.
  - intros [[|n] H]; cbn in H; [done|]. destruct (s !! x); [by exists n|congruence].
  - destruct (s !! x) as [r|] eqn:E; [intros [n H]; exists (S n); cbn; by rewrite E|]. intros ->. exists 1. cbn. by rewrite E.
Qed.
Lemma App_bound s x u : App s (PBound x) u <-> match s !! x with Some r => App s r u | None => u = PBound x end.
Proof.
  split.
  - intros [[|n] H]; cbn in H; [done|]. destruct (s !! x); [by exists n|congruence].
  - destruct (s !! x) as [r|] eqn:E; [intros [n H]; exists (S n); cbn; by rewrite E|]. intros ->. exists 1. cbn. by rewrite E.
Qed.
Lemma App_fun s f l u : App s (PFun f l) u <-> exists r, u = PFun f r /\ Forall2 (App s) l r.
Proof.
  split.
  - intros [[|n] H]; cbn in H; [done|]. destruct (map_opt (apply n s) l) as [r|] eqn:E; [|done]. injection H as <-.
    exists r; split; [done|]. apply map_opt_Some in E. eapply Forall2_impl; [exact E|]. intros a b Hab. by exists n.
  - intros (r & -> & H). destruct (App_list _ _ _ H) as [n Hn]. exists (S n). cbn. by rewrite Hn.
Qed.
Lemma App_group s l u : App s (PGroup l) u <-> exists r, u = PGroup r /\ Forall2 (App s) l r.
Proof.
  split.
  - intros [[|n] H]; cbn in H; [done|]. destruct (map_opt (apply n s) l) as [r|] eqn:E; [|done]. injection H as <-.
    exists r; split; [done|]. apply map_opt_Some in E. eapply Forall2_impl; [exact E|]. intros a b Hab. by exists n.
  - intros (r & -> & H). destruct (App_list _ _ _ H) as [n Hn]. exists (S n). cbn. by rewrite Hn.
Qed.
(** Induction on the computation of [apply]. *)
Lemma App_ind (s : subst) (P : pterm -> pterm -> Prop) :
  (forall c, P (PConst c) (PConst c)) ->
  (forall x, s !! x = None -> P (PVar x) (PVar x)) ->
  (forall x, s !! x = None -> P (PBound x) (PBound x)) ->
  (forall x r u, s !! x = Some r -> App s r u -> P r u -> P (PVar x) u) ->
  (forall x r u, s !! x = Some r -> App s r u -> P r u -> P (PBound x) u) ->
  (forall f l r, Forall2 (App s) l r -> Forall2 P l r -> P (PFun f l) (PFun f r)) ->
  (forall l r, Forall2 (App s) l r -> Forall2 P l r -> P (PGroup l) (PGroup r)) ->
  forall t u, App s t u -> P t u.
Proof.
  intros Hc Hv Hb Hvs Hbs Hf Hg t u [n Hn]. revert t u Hn.
  induction n as [|n IH]; intros t u H; cbn in H; [done|].
  destruct t as [c|x|f l|l|x].
  - injection H as <-. apply Hc.
  - destruct (s !! x) as [r|] eqn:E; [|injection H as <-; by apply Hv]. apply (Hvs x r u E); [by exists n|by apply IH].
  - destruct (map_opt (apply n s) l) as [r|] eqn:E; [|done]. injection H as <-. apply map_opt_Some in E.
    apply Hf; (eapply Forall2_impl; [exact E|]); intros a b Hab; [by exists n|by apply IH].
  - destruct (map_opt (apply n s) l) as [r|] eqn:E; [|done]. injection H as <-. apply map_opt_Some in E.
    apply Hg; (eapply Forall2_impl; [exact E|]); intros a b Hab; [by exists n|by apply IH].
  - destruct (s !! x) as [r|] eqn:E; [|injection H as <-; by apply Hb]. apply (Hbs x r u E); [by exists n|by apply IH].
Qed.

(** No chain of bindings returns to its start. *)
Definition acyclic (s : subst) : Prop :=
  exists rank : string -> nat, forall x t, s !! x = Some t -> forall y, y ∈ names t -> rank y < rank x.
Lemma acyclic_empty : acyclic ∅.
Proof. exists (fun _ => 0). intros x t H. by rewrite lookup_empty in H. Qed.
Lemma in_names_list l y : y ∈ flat_map names l <-> exists a, a ∈ l /\ y ∈ names a.
Proof.
  rewrite elem_of_list_In, in_flat_map. split; intros (a & H1 & H2); exists a; split;
    try (by apply elem_of_list_In); by apply elem_of_list_In.
Qed.
Lemma App_total s t : acyclic s -> exists u, App s t u.
Proof.
  intros [rank Hr].
  assert (HL : forall l (Q : pterm -> Prop), (forall a, a ∈ l -> Q a -> exists u, App s a u) -> Forall Q l -> exists r, Forall2 (App s) l r).
  { intros l Q. induction l as [|a l IH]; intros H HF; [exists []; constructor|]. inversion HF; subst.
    destruct (H a) as [u Hu]; [left|done|]. destruct IH as [r Hr']; [intros b Hb; apply H; by right|done|].
    exists (u :: r). by constructor. }
  assert (H : forall k t, (forall y, y ∈ names t -> rank y < k) -> exists u, App s t u).
  { induction k as [k IHk] using lt_wf_ind. intros t'. induction t' as [c|x|x|f l IH|l IH] using pterm_ind'; intros Hn.
    - exists (PConst c). by apply App_const.
    - destruct (s !! x) as [r|] eqn:E.
      + destruct (IHk (rank x) (Hn x ltac:(left)) r) as [u Hu]; [intros y Hy; by apply (Hr x r E)|].
        exists u. apply App_var. by rewrite E.
      + exists (PVar x). apply App_var. by rewrite E.
    - destruct (s !! x) as [r|] eqn:E.
      + destruct (IHk (rank x) (Hn x ltac:(left)) r) as [u Hu]; [intros y Hy; by apply (Hr x r E)|].
        exists u. apply App_bound. by rewrite E.
      + exists (PBound x). apply App_bound. by rewrite E.
    - destruct (HL l (fun a => (forall y, y ∈ names a -> rank y < k) -> exists u, App s a u)
        (fun a Ha HQ => HQ (fun y Hy => Hn y (proj2 (in_names_list l y) (ex_intro _ a (conj Ha Hy))))) IH) as [r Hr'].
      exists (PFun f r). apply App_fun. eauto.
    - destruct (HL l (fun a => (forall y, y ∈ names a -> rank y < k) -> exists u, App s a u)
        (fun a Ha HQ => HQ (fun y Hy => Hn y (proj2 (in_names_list l y) (ex_intro _ a (conj Ha Hy))))) IH) as [r Hr'].
      exists (PGroup r). apply App_group. eauto. }
  destruct (H (S (max_list (map rank (names t)))) t) as [u Hu]; [|by exists u].
  intros y Hy. apply Nat.lt_succ_r. apply max_list_elem_of_le. apply elem_of_list_In, in_map, elem_of_list_In, Hy.
Qed.
Lemma App_names s t u y : App s t u -> y ∈ names u ->
  s !! y = None /\ (y ∈ names t \/ exists x v, s !! x = Some v /\ y ∈ names v).
Proof.
  intros H. revert t u H. apply (App_ind s (fun t u => y ∈ names u -> s !! y = None /\ (y ∈ names t \/ exists x v, s !! x = Some v /\ y ∈ names v))); cbn [names].
  - intros c H. by apply elem_of_nil in H.
  - intros x Hx H. apply elem_of_list_singleton in H as ->. split; [done|left; left].
  - intros x Hx H. apply elem_of_list_singleton in H as ->. split; [done|left; left].
  - intros x r u Hx _ IH H. destruct (IH H) as [H1 [H2|H2]]; split; try done; right; eauto.
  - intros x r u Hx _ IH H. destruct (IH H) as [H1 [H2|H2]]; split; try done; right; eauto.
  - intros f l r _ IH H. rewrite in_names_list in H |- *.
    destruct H as (b & Hb & Hy). apply elem_of_list_lookup in Hb as [i Hi].
    destruct (Forall2_lookup_r _ _ _ _ _ IH Hi) as (a & Ha & Hab). destruct (Hab Hy) as [H1 [H2|H2]]; split; try done; [left|by right].
    exists a. split; [|done]. by apply (elem_of_list_lookup_2 _ i).
  - intros l r _ IH H. rewrite in_names_list in H |- *.
    destruct H as (b & Hb & Hy). apply elem_of_list_lookup in Hb as [i Hi].
    destruct (Forall2_lookup_r _ _ _ _ _ IH Hi) as (a & Ha & Hab). destruct (Hab Hy) as [H1 [H2|H2]]; split; try done; [left|by right].
    exists a. split; [|done]. by apply (elem_of_list_lookup_2 _ i).
Qed.
Lemma Forall_Forall2_diag {A} (P : A -> A -> Prop) l : (forall a, a ∈ l -> P a a) -> Forall2 P l l.
Proof. induction l as [|a l IH]; intros H; constructor; [apply H; left|apply IH; intros b Hb; apply H; by right]. Qed.
Lemma App_id s t : (forall y, y ∈ names t -> s !! y = None) -> App s t t.
Proof.
  induction t as [c|x|x|f l IH|l IH] using pterm_ind'; intros H.
  - by apply App_const.
  - apply App_var. rewrite (H x) by left. done.
  - apply App_bound. rewrite (H x) by left. done.
  - apply App_fun. exists l; split; [done|]. apply Forall_Forall2_diag. intros a Ha. rewrite Forall_forall in IH.
    apply (IH a Ha). intros y Hy. apply H. apply in_names_list. eauto.
  - apply App_group. exists l; split; [done|]. apply Forall_Forall2_diag. intros a Ha. rewrite Forall_forall in IH.
    apply (IH a Ha). intros y Hy. apply H. apply in_names_list. eauto.
Qed.
(** Applying the larger of two substitutions is the same before and after applying the smaller. *)
Lemma App_sub s s' t u w : s ⊆ s' -> App s t u -> App s' u w -> App s' t w.
Proof.
  intros Hs H. revert t u H w. apply (App_ind s (fun t u => forall w, App s' u w -> App s' t w)); try done.
  - intros x r u E _ IH w Hw. apply App_var. rewrite (lookup_weaken _ _ _ _ E Hs). by apply IH.
  - intros x r u E _ IH w Hw. apply App_bound. rewrite (lookup_weaken _ _ _ _ E Hs). by apply IH.
  - intros f l r _ IH w Hw. apply App_fun in Hw as (q & -> & Hq). apply App_fun. exists q; split; [done|].
    revert q Hq. induction IH as [|a b l r Hab _ IHl]; intros q Hq; inversion Hq; subst; constructor; eauto.
  - intros l r _ IH w Hw. apply App_group in Hw as (q & -> & Hq). apply App_group. exists q; split; [done|].
    revert q Hq. induction IH as [|a b l r Hab _ IHl]; intros q Hq; inversion Hq; subst; constructor; eauto.
Qed.
Lemma App_sub_inv s s' t u w : s ⊆ s' -> acyclic s' -> App s t u -> App s' t w -> App s' u w.
Proof.
  intros Hs Ha Hu Hw. destruct (App_total s' u Ha) as [w' Hw']. pose proof (App_sub _ _ _ _ _ Hs Hu Hw') as H.
  by rewrite (App_det _ _ _ _ Hw H).
Qed.

Lemma occurs_names v t : occurs v t = true <-> v ∈ names t.
Proof.
  induction t as [c|x|x|f l IH|l IH] using pterm_ind'; cbn.
  - split; [done|]. intros H. by apply elem_of_nil in H.
  - rewrite String.eqb_eq, elem_of_list_singleton. naive_solver.
  - rewrite String.eqb_eq, elem_of_list_singleton. naive_solver.
  - rewrite in_names_list, existsb_exists. rewrite Forall_forall in IH.
    split; intros (a & H1 & H2); exists a; split; try (by apply elem_of_list_In); apply (IH a); try done; by apply elem_of_list_In.
  - rewrite in_names_list, existsb_exists. rewrite Forall_forall in IH.
    split; intros (a & H1 & H2); exists a; split; try (by apply elem_of_list_In); apply (IH a); try done; by apply elem_of_list_In.
Qed.

(** Adding a binding for a free variable to a term that is already fully substituted. *)
Lemma acyclic_insert s v t : acyclic s -> s !! v = None ->
  (forall y, y ∈ names t -> s !! y = None /\ y <> v) -> acyclic (<[v := t]> s).
Proof.
  intros [rank Hr] Hv Ht.
  exists (fun z => match s !! z with Some _ => rank z + 2 | None => if String.eqb z v then 1 else 0 end).
  intros x u Hx y Hy. destruct (decide (x = v)) as [-> | Hxv].
  - rewrite lookup_insert in Hx. injection Hx as <-. destruct (Ht y Hy) as [Hy1 Hy2]. rewrite Hy1, Hv, String.eqb_refl.
    destruct (String.eqb y v) eqn:E; [|lia]. by apply String.eqb_eq in E.
  - rewrite lookup_insert_ne in Hx by done. rewrite Hx. pose proof (Hr _ _ Hx y Hy).
    destruct (s !! y); [lia|]. destruct (String.eqb y v); lia.
Qed.
Lemma App_bind s v t : s !! v = None -> (forall y, y ∈ names t -> s !! y = None /\ y <> v) -> App (<[v := t]> s) t t.
Proof. intros Hv Ht. apply App_id. intros y Hy. destruct (Ht y Hy) as [H1 H2]. by rewrite lookup_insert_ne. Qed.

(** Two kinds of variables share one name space in the substitution; [K] says which kind each name
    is, in a problem where no name is of both. *)
Definition kvar (K : string -> bool) (x : string) : pterm := if K x then PVar x else PBound x.
Fixpoint kinds (K : string -> bool) (t : pterm) : Prop :=
  match t with
  | PVar x => K x = true
  | PBound x => K x = false
  | PConst _ => True
  | PFun _ l | PGroup l => foldr (fun a P => kinds K a /\ P) True l
  end.
Lemma kinds_list K l : foldr (fun a P => kinds K a /\ P) True l <-> Forall (kinds K) l.
Proof. induction l as [|a l IH]; cbn; [done|]. rewrite IH, Forall_cons. done. Qed.
Definition kindsS (K : string -> bool) (s : subst) : Prop := forall x t, s !! x = Some t -> kinds K t.
Definition respects (K : string -> bool) (θ s : subst) : Prop := forall x t, s !! x = Some t -> tsub θ (kvar K x) = tsub θ t.

Lemma App_kinds K s t u : kindsS K s -> App s t u -> kinds K t -> kinds K u.
Proof.
  intros Hs H. revert t u H. apply (App_ind s (fun t u => kinds K t -> kinds K u)); try done.
  - intros x r u E _ IH _. apply IH. by apply (Hs x).
  - intros x r u E _ IH _. apply IH. by apply (Hs x).
  - intros f l r _ IH H. cbn in *. rewrite kinds_list in *. induction IH; inversion H; subst; constructor; eauto.
  - intros l r _ IH H. cbn in *. rewrite kinds_list in *. induction IH; inversion H; subst; constructor; eauto.
Qed.
Lemma App_resp K θ s t u : kindsS K s -> respects K θ s -> App s t u -> kinds K t -> tsub θ u = tsub θ t.
Proof.
  intros Hs Hr H. revert t u H. apply (App_ind s (fun t u => kinds K t -> tsub θ u = tsub θ t)); try done.
  - intros x r u E _ IH Hk. rewrite IH by (by apply (Hs x)). rewrite <- (Hr x r E). unfold kvar. cbn in Hk. by rewrite Hk.
  - intros x r u E _ IH Hk. rewrite IH by (by apply (Hs x)). rewrite <- (Hr x r E). unfold kvar. cbn in Hk. by rewrite Hk.
  - intros f l r _ IH H. cbn in *. rewrite kinds_list in H. f_equal. induction IH; inversion H; subst; cbn; [done|]. f_equal; eauto.
  - intros l r _ IH H. cbn in *. rewrite kinds_list in H. f_equal. induction IH; inversion H; subst; cbn; [done|]. f_equal; eauto.
Qed.
Lemma tsize_pos t : 1 <= tsize t.
Proof. destruct t; cbn; lia. Qed.
Lemma tsub_size_le K θ v t : kinds K t -> v ∈ names t -> tsize (tsub θ (kvar K v)) <= tsize (tsub θ t).
Proof.
  induction t as [c|x|x|f l IH|l IH] using pterm_ind'; cbn [names kinds]; intros Hk Hv.
  - by apply elem_of_nil in Hv.
  - apply elem_of_list_singleton in Hv as ->. unfold kvar. by rewrite Hk.
  - apply elem_of_list_singleton in Hv as ->. unfold kvar. by rewrite Hk.
  - apply in_names_list in Hv as (a & Ha & Hv). rewrite kinds_list in Hk. rewrite Forall_forall in IH, Hk.
    specialize (IH a Ha (Hk a Ha) Hv). cbn [tsub tsize]. rewrite map_map. apply elem_of_list_split in Ha as (l1 & l2 & ->).
    rewrite map_app, list_sum_app. cbn. lia.
  - apply in_names_list in Hv as (a & Ha & Hv). rewrite kinds_list in Hk. rewrite Forall_forall in IH, Hk.
    specialize (IH a Ha (Hk a Ha) Hv). cbn [tsub tsize]. rewrite map_map. apply elem_of_list_split in Ha as (l1 & l2 & ->).
    rewrite map_app, list_sum_app. cbn. lia.
Qed.
(** A variable and a compound term containing it have no common instance. *)
Lemma occurs_no_unifier K θ v t : kinds K t -> v ∈ names t -> t <> kvar K v -> tsub θ (kvar K v) <> tsub θ t.
Proof.
  intros Hk Hv Hne He.
  assert (HL : forall l, v ∈ flat_map names l -> Forall (kinds K) l -> tsize (tsub θ (kvar K v)) <= list_sum (map tsize (map (tsub θ) l))).
  { intros l Hl Hkl. apply in_names_list in Hl as (a & Ha & Hva). rewrite Forall_forall in Hkl.
    pose proof (tsub_size_le K θ v a (Hkl a Ha) Hva). apply elem_of_list_split in Ha as (l1 & l2 & ->).
    rewrite !map_app, list_sum_app. cbn. lia. }
  destruct t as [c|x|f l|l|x]; cbn [names kinds] in *.
  - by apply elem_of_nil in Hv.
  - apply elem_of_list_singleton in Hv as ->. unfold kvar in Hne. by rewrite Hk in Hne.
  - rewrite kinds_list in Hk. pose proof (HL l Hv Hk). rewrite He in H. cbn [tsub tsize] in H. lia.
  - rewrite kinds_list in Hk. pose proof (HL l Hv Hk). rewrite He in H. cbn [tsub tsize] in H. lia.
  - apply elem_of_list_singleton in Hv as ->. unfold kvar in Hne. by rewrite Hk in Hne.
Qed.

(** * Termination and correctness of unification. *)
Lemma unify_args_mono (u u' : pterm -> pterm -> subst -> option (ures subst)) l m s r :
  (forall a b s r, u a b s = Some r -> u' a b s = Some r) -> unify_args u l m s = Some r -> unify_args u' l m s = Some r.
Proof.
  intros Hu. revert m s; induction l as [|a l IH]; intros [|b m] s; cbn; try done.
  destruct (u a b s) as [[s'|e]|] eqn:E; [| |done].
  - rewrite (Hu _ _ _ _ E). apply IH.
  - by rewrite (Hu _ _ _ _ E).
Qed.
Lemma unify_mono n m t1 t2 s r : unify n t1 t2 s = Some r -> n <= m -> unify m t1 t2 s = Some r.
Proof.
  revert m t1 t2 s r; induction n as [|n IH]; intros [|m] t1 t2 s r; cbn; try done; [lia|]. intros H Hl.
  destruct (apply n s t1) as [u1|] eqn:E1; [|done]. destruct (apply n s t2) as [u2|] eqn:E2; [|done].
  rewrite (apply_mono _ m _ _ _ E1), (apply_mono _ m _ _ _ E2) by lia.
  destruct u1, u2; try done.
  - destruct (negb (f =? f0)); [done|]. destruct (negb (Nat.eqb (length l) (length l0))); [done|].
    eapply unify_args_mono; [|exact H]. intros a b s' r' Hab. apply (IH m a b s' r' Hab). lia.
  - destruct (negb (Nat.eqb (length l) (length l0))); [done|].
    eapply unify_args_mono; [|exact H]. intros a b s' r' Hab. apply (IH m a b s' r' Hab). lia.
Qed.
Definition U (s : subst) (t1 t2 : pterm) (r : ures subst) : Prop := exists n, unify n t1 t2 s = Some r.
Definition UL (s : subst) (l m : list pterm) (r : ures subst) : Prop := exists n, unify_args (unify n) l m s = Some r.
Lemma U_det s t1 t2 r r' : U s t1 t2 r -> U s t1 t2 r' -> r = r'.
Proof. intros [n Hn] [m Hm]. apply (unify_mono _ (max n m)) in Hn; [|lia]. apply (unify_mono _ (max n m)) in Hm; [|lia]. congruence. Qed.
Lemma UL_cons s a b l m s1 r : U s a b (UOk s1) -> UL s1 l m r -> UL s (a :: l) (b :: m) r.
Proof.
  intros [n Hn] [k Hk]. exists (max n k). cbn. rewrite (unify_mono n _ _ _ _ _ Hn) by lia.
  eapply unify_args_mono; [|exact Hk]. intros x y s' r' H. apply (unify_mono k); [done|lia].
Qed.
Lemma UL_cons_err s a b l m e : U s a b (UErr e) -> UL s (a :: l) (b :: m) (UErr e).
Proof. intros [n Hn]. exists n. cbn. by rewrite Hn. Qed.
(** One step of [unify], once both terms are substituted. *)
Lemma U_step s t1 t2 u1 u2 r : App s t1 u1 -> App s t2 u2 -> (exists n,
  match u1, u2 with
  | PConst c, PConst d => Some (if String.eqb c d then UOk s else UErr SymbolMismatch)
  | PVar v, t => Some (match t with PVar w => if String.eqb v w then UOk s else bind v t s | _ => bind v t s end)
  | t, PVar v => Some (bind v t s)
  | PBound v, t => Some (match t with PBound w => if String.eqb v w then UOk s else bind v t s | _ => bind v t s end)
  | t, PBound v => Some (bind v t s)
  | PFun f l, PFun g m =>
      if negb (String.eqb f g) then Some (UErr SymbolMismatch)
      else if negb (Nat.eqb (length l) (length m)) then Some (UErr ArityMismatch)
      else unify_args (unify n) l m s
  | PGroup l, PGroup m =>
      if negb (Nat.eqb (length l) (length m)) then Some (UErr ArityMismatch)
      else unify_args (unify n) l m s
  | _, _ => Some (UErr UnificationFailed)
  end = Some r) -> U s t1 t2 r.
Proof.
  intros [n1 H1] [n2 H2] [n3 H3]. exists (S (max (max n1 n2) n3)). cbn [unify].
  rewrite (apply_mono n1 _ _ _ _ H1), (apply_mono n2 _ _ _ _ H2) by lia.
  destruct u1, u2; try exact H3.
  - destruct (negb (f =? f0)); [done|]. destruct (negb (Nat.eqb (length l) (length l0))); [done|].
    eapply unify_args_mono; [|exact H3]. intros a b s' r' Hab. apply (unify_mono n3); [done|lia].
  - destruct (negb (Nat.eqb (length l) (length l0))); [done|].
    eapply unify_args_mono; [|exact H3]. intros a b s' r' Hab. apply (unify_mono n3); [done|lia].
Qed.

Section Main.
  Context (N : gset string).
  Definition tin (t : pterm) : Prop := forall y, y ∈ names t -> y ∈ N.
  Definition sin (s : subst) : Prop := forall x t, s !! x = Some t -> x ∈ N /\ tin t.
  Definition inv (s : subst) : Prop := acyclic s /\ sin s.
  Definition free (s : subst) : nat := size (N ∖ dom s).
  (** What a call must deliver, for an equation between [t1] and [t2] started from [s]; [E θ] says
      that [θ] solves the equation. *)
  Definition good (s : subst) (kk : (string -> bool) -> Prop) (E : subst -> Prop) (same : subst -> Prop) (r : ures subst) : Prop :=
    match r with
    | UOk s' =>
        s ⊆ s' /\ inv s' /\ same s' /\
        (forall K, kk K -> kindsS K s -> kindsS K s' /\
           forall θ, respects K θ s -> E θ -> respects K θ s')
    | UErr _ => forall K θ, kk K -> kindsS K s -> respects K θ s -> ~ E θ
    end.
  Definition good1 s t1 t2 := good s (fun K => kinds K t1 /\ kinds K t2) (fun θ => tsub θ t1 = tsub θ t2)
    (fun s' => exists u, App s' t1 u /\ App s' t2 u).
  Definition goodL s l m := good s (fun K => Forall (kinds K) l /\ Forall (kinds K) m) (fun θ => map (tsub θ) l = map (tsub θ) m)
    (fun s' => exists u, Forall2 (App s') l u /\ Forall2 (App s') m u).

  Lemma free_le s s' : s ⊆ s' -> free s' <= free s.
  Proof. intros H. unfold free. apply subseteq_size. apply (subseteq_dom (D := gset string)) in H. set_solver. Qed.
  Lemma free_eq s s' y : s ⊆ s' -> free s <= free s' -> y ∈ N -> s !! y = None -> s' !! y = None.
  Proof.
    intros H Hf Hy Hn. destruct (s' !! y) as [t|] eqn:E; [|done]. exfalso.
    assert (Hd : N ∖ dom s' ⊂ N ∖ dom s).
    { split.
      - apply (subseteq_dom (D := gset string)) in H. set_solver.
      - intros Hc. assert (y ∈ N ∖ dom s) as Hy' by (apply elem_of_difference; split; [done|by apply not_elem_of_dom]).
        apply Hc in Hy'. apply elem_of_difference in Hy' as [_ Hy']. apply Hy'. apply elem_of_dom. eauto. }
    apply subset_size in Hd. unfold free in *. lia.
  Qed.
  Lemma App_in s t u : inv s -> tin t -> App s t u -> tin u.
  Proof.
    intros [_ Hs] Ht Hu y Hy. destruct (App_names _ _ _ _ Hu Hy) as [_ [H|(x & v & H1 & H2)]]; [by apply Ht|].
    destruct (Hs _ _ H1) as [_ H3]. by apply H3.
  Qed.

  (** Binding a free variable of the left or right term. *)
  Lemma good_bind s t1 t2 v w u : inv s -> tin t1 -> tin t2 -> App s t1 u -> App s t2 w ->
    (u = PVar v \/ u = PBound v) -> u <> w -> (forall x, w = PVar x \/ w = PBound x -> x <> v \/ u <> w) ->
    good1 s t1 t2 (bind v w s).
  Proof.
    intros [Ha Hs] H1 H2 Hu Hw Huv Hne _. unfold bind.
    assert (Hv : s !! v = None). { apply (App_names _ _ _ v Hu). destruct Huv as [-> | ->]; left. }
    assert (HvN : v ∈ N). { apply (App_in s t1 u (conj Ha Hs) H1 Hu). destruct Huv as [-> | ->]; left. }
    destruct (occurs v w) eqn:Eo.
    - apply occurs_names in Eo. intros K θ [Hk1 Hk2] HK Hr He.
      pose proof (App_resp K θ s _ _ HK Hr Hu Hk1) as E1. pose proof (App_resp K θ s _ _ HK Hr Hw Hk2) as E2.
      pose proof (App_kinds K s _ _ HK Hu Hk1) as K1. pose proof (App_kinds K s _ _ HK Hw Hk2) as K2.
      assert (Huk : u = kvar K v). { unfold kvar. destruct Huv as [-> | ->]; cbn in K1; by rewrite K1. }
      apply (occurs_no_unifier K θ v w K2 Eo); [congruence|]. rewrite <- Huk. congruence.
    - assert (Hnw : forall y, y ∈ names w -> s !! y = None /\ y <> v).
      { intros y Hy. split; [by apply (App_names _ _ _ y Hw)|]. intros ->. apply occurs_names in Hy. congruence. }
      assert (Hsub : s ⊆ <[v := w]> s) by (by apply insert_subseteq).
      split; [done|]. split; [split|split].
      + by apply acyclic_insert.
      + intros x t Hx. destruct (decide (x = v)) as [-> | Hxv].
        * rewrite lookup_insert in Hx. injection Hx as <-. split; [done|]. by apply (App_in s t2 w (conj Ha Hs)).
        * rewrite lookup_insert_ne in Hx by done. by apply Hs.
      + assert (Hw' : App (<[v := w]> s) w w) by (by apply App_bind). exists w. split.
        * apply (App_sub s _ _ _ _ Hsub Hu). destruct Huv as [-> | ->]; [apply App_var|apply App_bound]; by rewrite lookup_insert.
        * by apply (App_sub s _ _ _ _ Hsub Hw).
      + intros K [Hk1 Hk2] HK. pose proof (App_kinds K s _ _ HK Hw Hk2) as K2. split.
        * intros x t Hx. destruct (decide (x = v)) as [-> | Hxv]; [rewrite lookup_insert in Hx; by injection Hx as <-|].
          rewrite lookup_insert_ne in Hx by done. by apply (HK x).
        * intros θ Hr He x t Hx. destruct (decide (x = v)) as [-> | Hxv].
          -- rewrite lookup_insert in Hx. injection Hx as <-.
             pose proof (App_kinds K s _ _ HK Hu Hk1) as K1.
             assert (Huk : u = kvar K v). { unfold kvar. destruct Huv as [-> | ->]; cbn in K1; by rewrite K1. }
             rewrite <- Huk. rewrite (App_resp K θ s _ _ HK Hr Hu Hk1), (App_resp K θ s _ _ HK Hr Hw Hk2). done.
          -- rewrite lookup_insert_ne in Hx by done. by apply Hr.
  Qed.
  Lemma good1_sym s t1 t2 r : good1 s t1 t2 r -> good1 s t2 t1 r.
  Proof.
    destruct r as [s'|e]; unfold good1, good.
    - intros (H1 & H2 & (u & Hu1 & Hu2) & H4). split; [done|]. split; [done|]. split; [by exists u|].
      intros K [Hk1 Hk2] HK. destruct (H4 K (conj Hk2 Hk1) HK) as [H5 H6]. split; [done|]. intros θ Hr He. by apply H6.
    - intros H K θ [Hk1 Hk2] HK Hr He. by apply (H K θ).
  Qed.
  Lemma good_same s t1 t2 u : inv s -> App s t1 u -> App s t2 u -> good1 s t1 t2 (UOk s).
  Proof. intros Hi H1 H2. split; [done|]. split; [done|]. split; [eauto|]. intros K _ HK. split; [done|]. intros θ Hr _. done. Qed.
  (** Failure is justified when the substituted terms have no common instance. *)
  Lemma good_err s t1 t2 u1 u2 e : App s t1 u1 -> App s t2 u2 -> (forall θ, tsub θ u1 <> tsub θ u2) -> good1 s t1 t2 (UErr e).
  Proof.
    intros H1 H2 Hne K θ [Hk1 Hk2] HK Hr He. apply (Hne θ).
    rewrite (App_resp K θ s _ _ HK Hr H1 Hk1), (App_resp K θ s _ _ HK Hr H2 Hk2). done.
  Qed.
  Lemma tsub_list_length θ l m : map (tsub θ) l = map (tsub θ) m -> length l = length m.
  Proof. intros H. apply (f_equal length) in H. by rewrite !map_length in H. Qed.

  (** From the arguments to the terms. *)
  Lemma good_args s t1 t2 l m r (C : list pterm -> pterm) : inv s ->
    (forall s l r, Forall2 (App s) l r -> App s (C l) (C r)) ->
    (forall θ l, tsub θ (C l) = C (map (tsub θ) l)) -> (forall l l', C l = C l' -> l = l') ->
    (forall K l, kinds K (C l) -> Forall (kinds K) l) ->
    App s t1 (C l) -> App s t2 (C m) -> goodL s l m r -> good1 s t1 t2 r.
  Proof.
    intros Hi HA HS HI HK1 H1 H2 Hg. destruct r as [s'|e].
    - destruct Hg as (Hs & Hi' & (u & Hu1 & Hu2) & HK). split; [done|]. split; [done|]. split.
      + exists (C u). split; (eapply App_sub; [exact Hs|eassumption|]); by apply HA.
      + intros K [Hk1 Hk2] HKs.
        assert (Hl : Forall (kinds K) l) by (apply HK1, (App_kinds K s _ _ HKs H1 Hk1)).
        assert (Hm : Forall (kinds K) m) by (apply HK1, (App_kinds K s _ _ HKs H2 Hk2)).
        destruct (HK K (conj Hl Hm) HKs) as [HKs' Hr']. split; [done|]. intros θ Hr He. apply Hr'; [done|].
        apply HI. rewrite <- !HS. rewrite (App_resp K θ s _ _ HKs Hr H1 Hk1), (App_resp K θ s _ _ HKs Hr H2 Hk2). done.
    - intros K θ [Hk1 Hk2] HKs Hr He.
      assert (Hl : Forall (kinds K) l) by (apply HK1, (App_kinds K s _ _ HKs H1 Hk1)).
      assert (Hm : Forall (kinds K) m) by (apply HK1, (App_kinds K s _ _ HKs H2 Hk2)).
      apply (Hg K θ (conj Hl Hm) HKs Hr). apply HI. rewrite <- !HS.
      rewrite (App_resp K θ s _ _ HKs Hr H1 Hk1), (App_resp K θ s _ _ HKs Hr H2 Hk2). done.
  Qed.
  Lemma Forall2_App_sub s s' l u w : s ⊆ s' -> Forall2 (App s) l u -> Forall2 (App s') u w -> Forall2 (App s') l w.
  Proof.
    intros Hs H. revert w. induction H as [|a b l u Hab _ IH]; intros w Hw; inversion Hw; subst; constructor.
    - by apply (App_sub s s' _ b).
    - by apply IH.
  Qed.

  (** The loop over the arguments, given the calls it makes. *)
  Lemma args_ok k z s0 : (forall s t1 t2 u1, inv s -> tin t1 -> tin t2 -> App s t1 u1 ->
        free s < k \/ (free s <= k /\ tsize u1 < z) -> exists r, U s t1 t2 r /\ good1 s t1 t2 r) ->
    free s0 <= k ->
    forall l m s, s0 ⊆ s -> inv s -> length l = length m ->
    Forall (fun a => tin a /\ tsize a < z /\ forall y, y ∈ names a -> s0 !! y = None) l -> Forall tin m ->
    exists r, UL s l m r /\ goodL s l m r.
  Proof.
    intros IH Hk. induction l as [|a l IHl]; intros [|b m] s Hs Hi Hlen Hl Hm; try done.
    { exists (UOk s). split; [by exists 0|]. split; [done|]. split; [done|]. split; [exists []; split; constructor|].
      intros K _ HK. split; [done|]. intros θ Hr _. done. }
    inversion Hl as [|? ? (Ha1 & Ha2 & Ha3) Hl']; subst. inversion Hm as [|? ? Hb Hm']; subst.
    destruct (App_total s a (proj1 Hi)) as [ua Hua].
    assert (Hmeas : free s < k \/ (free s <= k /\ tsize ua < z)).
    { pose proof (free_le _ _ Hs). destruct (decide (free s < k)) as [?|Hn]; [by left|right]. split; [lia|].
      assert (Haa : App s a a). { apply App_id. intros y Hy. apply (free_eq s0 s); try done; [lia|by apply Ha1|by apply Ha3]. }
      by rewrite (App_det _ _ _ _ Hua Haa). }
    destruct (IH s a b ua Hi Ha1 Hb Hua Hmeas) as ([s1|e] & HU & HG).
    - destruct HG as (Hs1 & Hi1 & (u & Hu1 & Hu2) & HK1).
      destruct (IHl m s1) as (r & HUL & HGL); try done; [by etransitivity|by injection Hlen|].
      exists r. split; [by apply (UL_cons s a b l m s1)|]. destruct r as [s2|e].
      + destruct HGL as (Hs2 & Hi2 & (us & Hus1 & Hus2) & HK2). split; [by etransitivity|]. split; [done|]. split.
        * destruct (App_total s2 u (proj1 Hi2)) as [u' Hu']. exists (u' :: us).
          split; constructor; try done; by apply (App_sub s1 s2 _ u).
        * intros K [Hk1 Hk2] HKs. inversion Hk1; subst. inversion Hk2; subst.
          destruct (HK1 K) as [HKs1 Hr1]; [done|done|]. destruct (HK2 K) as [HKs2 Hr2]; [done|done|].
          split; [done|]. intros θ Hr He. cbn in He. injection He as He1 He2. apply Hr2; [|done]. by apply Hr1.
      + intros K θ [Hk1 Hk2] HKs Hr He. inversion Hk1; subst. inversion Hk2; subst. cbn in He. injection He as He1 He2.
        destruct (HK1 K) as [HKs1 Hr1]; [done|done|]. apply (HGL K θ); try done. by apply Hr1.
    - exists (UErr e). split; [by apply UL_cons_err|].
      intros K θ [Hk1 Hk2] HKs Hr He. inversion Hk1; subst. inversion Hk2; subst. cbn in He. injection He as He1 He2.
      by apply (HG K θ).
  Qed.
  Lemma sum_elem (l : list pterm) a : a ∈ l -> tsize a <= list_sum (map tsize l).
  Proof. intros Ha. apply elem_of_list_split in Ha as (l1 & l2 & ->). rewrite map_app, list_sum_app. cbn. lia. Qed.

  Lemma unify_ok k : forall z s t1 t2 u1, inv s -> tin t1 -> tin t2 -> App s t1 u1 -> free s <= k -> tsize u1 <= z ->
    exists r, U s t1 t2 r /\ good1 s t1 t2 r.
  Proof.
    induction k as [k IHk] using lt_wf_ind. induction z as [z IHz] using lt_wf_ind.
    intros s t1 t2 u1 Hi Ht1 Ht2 Hu1 Hk Hz. destruct (App_total s t2 (proj1 Hi)) as [u2 Hu2].
    assert (IH : forall s' t1' t2' u1', inv s' -> tin t1' -> tin t2' -> App s' t1' u1' ->
      free s' < k \/ (free s' <= k /\ tsize u1' < tsize u1) -> exists r, U s' t1' t2' r /\ good1 s' t1' t2' r).
    { intros s' t1' t2' u1' H1 H2 H3 H4 [H5|[H5 H6]].
      - apply (IHk (free s') H5 (tsize u1') s' t1' t2' u1'); done || lia.
      - apply (IHz (tsize u1') ltac:(lia) s' t1' t2' u1'); done || lia. }
    pose proof (U_step s t1 t2 u1 u2) as HU.
    pose proof (fun v (H : u1 = PVar v \/ u1 = PBound v) (Hne : u1 <> u2) => good_bind s t1 t2 v u2 u1 Hi Ht1 Ht2 Hu1 Hu2 H Hne (fun x _ => or_intror Hne)) as GL.
    pose proof (fun v (H : u2 = PVar v \/ u2 = PBound v) (Hne : u2 <> u1) => good1_sym _ _ _ _ (good_bind s t2 t1 v u1 u2 Hi Ht2 Ht1 Hu2 Hu1 H Hne (fun x _ => or_intror Hne))) as GR.
    pose proof (fun (H : u1 = u2) => good_same s t1 t2 u1 Hi Hu1 (eq_ind_r (App s t2) Hu2 H)) as GS.
    pose proof (fun e => good_err s t1 t2 u1 u2 e Hu1 Hu2) as GE.
    assert (Hin1 : tin u1) by (by apply (App_in s t1)). assert (Hin2 : tin u2) by (by apply (App_in s t2)).
    destruct u1 as [c|x|f l|l|x], u2 as [d|y|g m|m|y];
      try (eexists; split; [apply (HU _ Hu1 Hu2); exists 0; reflexivity|];
           first [ apply GL; [by auto|done] | apply GR; [by auto|done] | apply GE; intros θ; done ]).
    - (* const const *)
      eexists; split; [apply (HU _ Hu1 Hu2); exists 0; reflexivity|]. destruct (String.eqb c d) eqn:E.
      + apply String.eqb_eq in E as ->. by apply GS.
      + apply GE. intros θ [= ->]. by rewrite String.eqb_refl in E.
    - (* var var *)
      eexists; split; [apply (HU _ Hu1 Hu2); exists 0; reflexivity|]. cbn. destruct (String.eqb x y) eqn:E.
      + apply String.eqb_eq in E as ->. by apply GS.
      + apply GL; [by left|]. intros [= ->]. by rewrite String.eqb_refl in E.
    - (* fun fun *)
      destruct (String.eqb f g) eqn:Ef; [|eexists; split; [apply (HU _ Hu1 Hu2); exists 0; reflexivity|];
        apply GE; intros θ [= -> _]; by rewrite String.eqb_refl in Ef].
      destruct (Nat.eqb (length l) (length m)) eqn:El; [|eexists; split; [apply (HU _ Hu1 Hu2); exists 0; reflexivity|];
        apply GE; intros θ [= _ Hl]; apply tsub_list_length in Hl; by apply Nat.eqb_neq in El].
      apply String.eqb_eq in Ef as ->. apply Nat.eqb_eq in El.
      destruct (args_ok k (tsize (PFun g l)) s IH Hk l m s) as (r & [n Hn] & Hg); try done.
      { apply Forall_forall. intros a Ha. repeat split.
        - intros y Hy. apply Hin1. cbn. apply in_names_list. eauto.
        - cbn. pose proof (sum_elem l a Ha). lia.
        - intros y Hy. apply (App_names _ _ _ y Hu1). cbn. apply in_names_list. eauto. }
      { apply Forall_forall. intros a Ha y Hy. apply Hin2. cbn. apply in_names_list. eauto. }
      exists r. split.
      + apply (HU r Hu1 Hu2). exists n. exact Hn.
      + apply (good_args s t1 t2 l m r (PFun g)); try done.
        * intros s1 l1 r1 H. apply App_fun. eauto.
        * intros l' l'' [= ->]. done.
        * intros K l' H. by apply kinds_list.
    - (* group group *)
      destruct (Nat.eqb (length l) (length m)) eqn:El; [|eexists; split; [apply (HU _ Hu1 Hu2); exists 0; reflexivity|];
        apply GE; intros θ [= Hl]; apply tsub_list_length in Hl; by apply Nat.eqb_neq in El].
      apply Nat.eqb_eq in El.
      destruct (args_ok k (tsize (PGroup l)) s IH Hk l m s) as (r & [n Hn] & Hg); try done.
      { apply Forall_forall. intros a Ha. repeat split.
        - intros y Hy. apply Hin1. cbn. apply in_names_list. eauto.
        - cbn. pose proof (sum_elem l a Ha). lia.
        - intros y Hy. apply (App_names _ _ _ y Hu1). cbn. apply in_names_list. eauto. }
      { apply Forall_forall. intros a Ha y Hy. apply Hin2. cbn. apply in_names_list. eauto. }
      exists r. split.
      + apply (HU r Hu1 Hu2). exists n. exact Hn.
      + apply (good_args s t1 t2 l m r PGroup); try done.
        * intros s1 l1 r1 H. apply App_group. eauto.
        * intros l' l'' [= ->]. done.
        * intros K l' H. by apply kinds_list.
    - (* bound bound *)
      eexists; split; [apply (HU _ Hu1 Hu2); exists 0; reflexivity|]. cbn. destruct (String.eqb x y) eqn:E.
      + apply String.eqb_eq in E as ->. by apply GS.
      + apply GL; [by right|]. intros [= ->]. by rewrite String.eqb_refl in E.
  Qed.
End Main.
