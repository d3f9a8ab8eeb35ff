(** C43: congruence closure. *)
From Coq Require Import ZArith String List Arith Lia Relations.
From stdpp Require Import strings list.
From Verif Require Import UnionFindModel UnionFindProofs SynModel SynSem LiaProps CcModel CcProofs.
Local Open Scope nat_scope.
Local Open Scope string_scope.
Local Open Scope list_scope.

(** * Meaning of terms and goals *)
(** The value of a term in an interpretation of literals, variables, names and application;
    [None] for anything else. *)
Fixpoint denote {D} (M : interp D) (t : term) : option D :=
  match t with
  | TApp (TGlobal c) (TInt n) => if c =? "SLit" then Some (i_lit M n) else if c =? "SVar" then Some (i_var M n) else None
  | TApp (TGlobal c) (TText s) => if c =? "SName" then Some (i_name M s) else None
  | TApp (TApp (TGlobal c) f) a =>
      if c =? "SApp" then
        match denote M f, denote M a with
        | Some x, Some y => Some (i_app M x y)
        | _, _ => None
        end
      else None
  | _ => None
  end.
(** Truth of a goal; anything but implications and equalities has an arbitrary truth value. *)
Fixpoint goal_holds {D} (other : term -> Prop) (M : interp D) (t : term) : Prop :=
  match t with
  | TApp (TApp (TGlobal c) (TApp (TApp (TGlobal c2) (TApp (TGlobal c3) (TText op))) a)) b =>
      if (c =? "SApp") && (c2 =? "SApp") && (c3 =? "SName") then
        if op =? "implies" then goal_holds other M a -> goal_holds other M b
        else if (op =? "Eq") || (op =? "eq") then
          match denote M a, denote M b with
          | Some x, Some y => x = y
          | _, _ => other t
          end
        else other t
      else other t
  | _ => other t
  end.

(** * Adding nodes *)
Lemma push_use_ok us i u : i < length us -> exists us', push_use us i u = Some us' /\ length us' = length us /\
  (forall j l w, us !! j = Some l -> In w l -> exists l', us' !! j = Some l' /\ In w l') /\
  (exists l', us' !! i = Some l' /\ In u l') /\
  (forall j l w, us' !! j = Some l -> In w l -> w = u \/ exists l', us !! j = Some l' /\ In w l').
Proof.
  intros Hi. unfold push_use. destruct (lookup_lt_is_Some_2 us i Hi) as [l El]. rewrite El.
  exists (<[i := l ++ [u]]> us). split; [done|]. split; [apply insert_length|]. split; [|split].
  - intros j l' w Hj Hw. destruct (decide (j = i)) as [->|Hn].
    + rewrite El in Hj. injection Hj as <-. exists (l ++ [u]). split; [by apply list_lookup_insert|]. apply in_app_iff. by left.
    + exists l'. split; [by rewrite list_lookup_insert_ne by done|done].
  - exists (l ++ [u]). split; [by apply list_lookup_insert|]. apply in_app_iff. right. by left.
  - intros j l' w Hj Hw. destruct (decide (j = i)) as [->|Hn].
    + rewrite list_lookup_insert in Hj by done. injection Hj as <-. apply in_app_iff in Hw as [Hw|[<-|[]]]; [|by left]. right. by exists l.
    + rewrite list_lookup_insert_ne in Hj by done. right. by exists l'.
Qed.
Definition child_in (n : enode) (k : nat) : Prop := match n with NApp f a => f <= k /\ a <= k | _ => True end.
Lemma push_uses_ok us n : child_in n (length us) ->
  exists us', (match n with
               | NApp f a => match push_use (us ++ [[]]) f (length us) with Some us0 => push_use us0 a (length us) | None => None end
               | _ => Some (us ++ [[]])
               end) = Some us' /\ length us' = S (length us) /\
  (forall j l w, us !! j = Some l -> In w l -> exists l', us' !! j = Some l' /\ In w l') /\
  (forall f a, n = NApp f a -> forall c, c = f \/ c = a -> exists l', us' !! c = Some l' /\ In (length us) l') /\
  (forall j l w, us' !! j = Some l -> In w l -> w = length us \/ exists l', us !! j = Some l' /\ In w l').
Proof.
  intros Hc.
  assert (Hbase : (forall j l w, us !! j = Some l -> In w l -> exists l', (us ++ [[]]) !! j = Some l' /\ In w l') /\
    (forall j l w, (us ++ [[]]) !! j = Some l -> In w l -> exists l', us !! j = Some l' /\ In w l')).
  { split.
    - intros j l w Hj Hw. exists l. split; [by apply lookup_app_l_Some|done].
    - intros j l w Hj Hw. apply lookup_app_Some in Hj as [Hj|[_ Hj]]; [by exists l|].
      apply list_lookup_singleton_Some in Hj as [_ <-]. destruct Hw. }
  destruct Hbase as [B1 B2].
  destruct n as [z|i|s|f a].
  1-3: (exists (us ++ [[]]); split; [done|]; split; [rewrite app_length; cbn; lia|]; split; [done|]; split; [done|];
    intros j l w Hj Hw; right; by eapply B2).
  destruct Hc as [Hf Ha].
  destruct (push_use_ok (us ++ [[]]) f (length us)) as (us1 & -> & L1 & A1 & A2 & A3); [rewrite app_length; cbn; lia|].
  rewrite app_length in L1. cbn in L1.
  destruct (push_use_ok us1 a (length us)) as (us2 & E2 & L2 & C1 & C2 & C3); [lia|].
  exists us2. split; [exact E2|]. split; [lia|]. split; [|split].
  - intros j l w Hj Hw. destruct (B1 _ _ _ Hj Hw) as (l1 & E & Hl1). destruct (A1 _ _ _ E Hl1) as (l3 & E3 & Hl3). by eapply C1.
  - intros f' a' [= <- <-] c [-> | ->]; [|done]. destruct A2 as (l & E & Hl). by eapply C1.
  - intros j l w Hj Hw. destruct (C3 _ _ _ Hj Hw) as [->|(l1 & E & Hl1)]; [by left|].
    destruct (A3 _ _ _ E Hl1) as [->|(l3 & E3 & Hl3)]; [by left|]. right. by eapply B2.
Qed.
Lemma map_get_cons m n i k : map_get ((n, i) :: m) k = if bool_decide (n = k) then Some i else map_get m k.
Proof. done. Qed.
Definition discrete (g : egraph) : Prop := forall x r, root (par g) x r -> x = r.
Definition grows (g g' : egraph) : Prop :=
  (exists l, eg_nodes g' = eg_nodes g ++ l) /\
  (forall (D : Type) (M : interp D) v, models M v g -> exists v', models M v' g' /\ forall i, i < length (eg_nodes g) -> v' i = v i) /\
  (discrete g /\ uses_ok g -> discrete g' /\ uses_ok g').
Lemma grows_refl g : grows g g.
Proof. split; [exists []; by rewrite app_nil_r|]. split; [|done]. intros D M v H. by exists v. Qed.
Lemma grows_trans g1 g2 g3 : grows g1 g2 -> grows g2 g3 -> grows g1 g3.
Proof.
  intros ((l1 & E1) & M1 & U1) ((l2 & E2) & M2 & U2). split; [exists (l1 ++ l2); by rewrite E2, E1, app_assoc|]. split; [|tauto].
  intros D M v Hv. destruct (M1 D M v Hv) as (v1 & H1 & A1). destruct (M2 D M v1 H1) as (v2 & H2 & A2).
  exists v2. split; [done|]. intros i Hi. rewrite A2; [by apply A1|]. rewrite E1, app_length. lia.
Qed.
Lemma node_val_ext {D} (M : interp D) v v' n k : (forall i, i < k -> v' i = v i) -> match n with NApp f a => f < k /\ a < k | _ => True end ->
  node_val M v' n = node_val M v n.
Proof. intros H Hn. destruct n as [| | |f a]; try done. destruct Hn. cbn. by rewrite !H. Qed.
(** The effect of [add] on a graph that lacks the node. *)
Lemma eg_add_spec g n : eg_ok g -> child_in n (length (eg_nodes g)) -> map_get (eg_map g) n = None ->
  exists g', eg_add g n = Some (g', length (eg_nodes g)) /\ eg_ok g' /\ eg_nodes g' = eg_nodes g ++ [n] /\
    (forall z s, root (par g') z s <-> root (par g) z s \/ (z = length (eg_nodes g) /\ s = z)) /\
    (discrete g /\ uses_ok g -> discrete g' /\ uses_ok g').
Proof.
  intros [Huf Hpar Hul Hch Hmap Hus] Hc Hm. unfold eg_add. rewrite Hm. rewrite <- Hul in Hc.
  destruct (push_uses_ok (eg_uses g) n Hc) as (us' & E & L & P1 & P2 & P3). rewrite Hul in E. rewrite E.
  destruct (make_ok (eg_uf g) Huf) as [Okm Hroot].
  eexists. split; [done|].
  assert (Hpar' : length (uf_parent (uf_make_set (eg_uf g)).1) = S (length (eg_nodes g))) by (cbn; rewrite app_length; cbn; lia).
  assert (Hok : eg_ok (EG (eg_nodes g ++ [n]) (uf_make_set (eg_uf g)).1 ((n, length (eg_nodes g)) :: eg_map g) us')).
  { split; cbn [eg_nodes eg_uf eg_map eg_uses].
    - done.
    - rewrite Hpar', app_length. cbn. lia.
    - rewrite L, app_length. cbn. lia.
    - intros i f a Hi. apply lookup_app_Some in Hi as [Hi|[Hi Hn]]; [by apply Hch|].
      apply list_lookup_singleton_Some in Hn as [Hn ->]. cbn in Hc. lia.
    - intros k i. rewrite map_get_cons, lookup_app_Some. destruct (bool_decide_reflect (n = k)) as [->|Hn].
      + split.
        * intros [= <-]. right. split; [done|]. by rewrite Nat.sub_diag.
        * intros [Hi|[Hi Hs]]; [apply Hmap in Hi; congruence|]. apply list_lookup_singleton_Some in Hs as [Hs _]. f_equal. lia.
      + rewrite Hmap. split; [by left|]. intros [?|[_ Hs]]; [done|]. apply list_lookup_singleton_Some in Hs as [_ <-]. done.
    - intros i l u Hi Hu. rewrite app_length. cbn. destruct (P3 _ _ _ Hi Hu) as [->|(l' & El & Hl)]; [lia|]. pose proof (Hus _ _ _ El Hl). lia. }
  split; [done|]. split; [done|]. cbn [eg_nodes eg_uf eg_map eg_uses].
  split; [intros z s; rewrite Hroot, Hpar; done|]. intros [Hd Hu].
  assert (Hd' : forall x r, root (uf_parent (uf_make_set (eg_uf g)).1) x r -> x = r).
  { intros x r Hr. apply Hroot in Hr as [Hr|[-> ->]]; [by apply Hd|done]. }
  split; [exact Hd'|]. intros u f a c r Hn Hca Hr. cbn [eg_nodes eg_uf eg_map eg_uses] in *. apply Hd' in Hr as <-.
  apply lookup_app_Some in Hn as [Hn|[Hu' Hn]].
  - assert (Hlt : c < length (par g)).
    { rewrite Hpar. pose proof (Hch _ _ _ Hn). apply lookup_lt_Some in Hn. destruct Hca; subst; lia. }
    destruct (root_exists _ c Huf Hlt) as [r Hr]. pose proof (Hd _ _ Hr) as <-.
    destruct (Hu _ _ _ _ _ Hn Hca Hr) as (l & El & Hl). by eapply P1.
  - apply list_lookup_singleton_Some in Hn as [Hn ->]. assert (u = length (eg_uses g)) as -> by lia. by eapply P2.
Qed.
Lemma eg_add_ok g n : eg_ok g -> match n with NApp f a => f < length (eg_nodes g) /\ a < length (eg_nodes g) | _ => True end ->
  exists g' i, eg_add g n = Some (g', i) /\ eg_ok g' /\ eg_nodes g' !! i = Some n /\ grows g g'.
Proof.
  intros Ok Hc. destruct (map_get (eg_map g) n) as [i|] eqn:E.
  - exists g, i. unfold eg_add. rewrite E. split; [done|]. split; [done|]. split; [by apply (ok_map g Ok)|apply grows_refl].
  - destruct (eg_add_spec g n Ok) as (g' & Ea & Ok' & Nd & Hr & Hd); [destruct n; cbn in *; lia|done|].
    exists g', (length (eg_nodes g)). split; [done|]. split; [done|]. split; [rewrite Nd; by apply list_lookup_middle|].
    split; [by exists [n]|]. split; [|done]. intros D M v [Hv1 Hv2].
    set (v' := fun i => if Nat.eqb i (length (eg_nodes g)) then node_val M v n else v i).
    assert (Hag : forall i, i < length (eg_nodes g) -> v' i = v i).
    { intros i Hi. unfold v'. destruct (Nat.eqb_spec i (length (eg_nodes g))); [lia|done]. }
    exists v'. split; [|done]. split.
    + intros i m Hi. rewrite Nd in Hi. apply lookup_app_Some in Hi as [Hi|[Hi Hs]].
      * pose proof (lookup_lt_Some _ _ _ Hi). rewrite Hag by done. rewrite (Hv1 _ _ Hi).
        destruct m as [| | |f a]; try done. cbn. pose proof (ok_child g Ok _ _ _ Hi). rewrite !Hag by lia. done.
      * apply list_lookup_singleton_Some in Hs as [Hs <-]. assert (i = length (eg_nodes g)) as -> by lia.
        rewrite (node_val_ext M v v' n (length (eg_nodes g))); [|done|done]. unfold v'. by rewrite Nat.eqb_refl.
    + intros x r Hxr. apply Hr in Hxr as [Hxr|[-> ->]]; [|done]. pose proof (root_lt _ _ _ Hxr). rewrite (ok_par g Ok) in *.
      rewrite !Hag by lia. by apply Hv2.
Qed.

(** * Reification *)
Inductive rep (ns : list enode) : term -> nat -> Prop :=
  | rep_lit n i : ns !! i = Some (NLit n) -> rep ns (SLIT n) i
  | rep_var n i : ns !! i = Some (NVar n) -> rep ns (SVAR n) i
  | rep_name s i : ns !! i = Some (NName s) -> rep ns (SNAME s) i
  | rep_app f a fi ai i : rep ns f fi -> rep ns a ai -> ns !! i = Some (NApp fi ai) -> rep ns (SAPP f a) i.
Lemma rep_grow ns l t i : rep ns t i -> rep (ns ++ l) t i.
Proof. induction 1; [constructor|constructor|constructor|econstructor; [done|done|]]; by apply lookup_app_l_Some. Qed.
Lemma rep_lt ns t i : rep ns t i -> i < length ns.
Proof. destruct 1; by eapply lookup_lt_Some. Qed.
Lemma rep_denote {D} (M : interp D) v g t i : models M v g -> rep (eg_nodes g) t i -> denote M t = Some (v i).
Proof.
  intros [Hv _]. induction 1 as [n i Hi|n i Hi|s i Hi|f a fi ai i Hf IHf Ha IHa Hi].
  - cbn. by rewrite (Hv _ _ Hi).
  - cbn. by rewrite (Hv _ _ Hi).
  - cbn. by rewrite (Hv _ _ Hi).
  - rewrite (Hv _ _ Hi). cbn. destruct f as [f1 f2|s|z|s|k]; try (by inversion Hf).
    rewrite IHf, IHa. done.
Qed.
Lemma rep_reify g t i : eg_ok g -> rep (eg_nodes g) t i -> cc_reify g t = Some (g, Some i).
Proof.
  intros Ok. assert (Hadd : forall n i, eg_nodes g !! i = Some n -> eg_add g n = Some (g, i)).
  { intros n j Hj. unfold eg_add. by rewrite (proj2 (ok_map g Ok n j) Hj). }
  induction 1 as [n i Hi|n i Hi|s i Hi|f a fi ai i Hf IHf Ha IHa Hi]; cbn.
  - by rewrite (Hadd _ _ Hi).
  - by rewrite (Hadd _ _ Hi).
  - by rewrite (Hadd _ _ Hi).
  - rewrite IHf, IHa. by rewrite (Hadd _ _ Hi).
Qed.
Lemma reify_graph_ok t : forall g, eg_ok g -> exists g' r, cc_reify g t = Some (g', r) /\ eg_ok g' /\ grows g g' /\
  match r with Some i => rep (eg_nodes g') t i | None => forall (D : Type) (M : interp D), denote M t = None end.
Proof.
  remember (tsize t) as n eqn:En. assert (Hn : tsize t <= n) by lia. clear En. revert t Hn.
  induction n as [|n IH]; intros t Hn g Ok; [destruct t; cbn in Hn; lia|].
  assert (No : (forall (D : Type) (M : interp D), denote M t = None) -> cc_reify g t = Some (g, None) ->
    exists g' r, cc_reify g t = Some (g', r) /\ eg_ok g' /\ grows g g' /\
      match r with Some i => rep (eg_nodes g') t i | None => forall (D : Type) (M : interp D), denote M t = None end).
  { intros H1 H2. exists g, None. split; [done|]. split; [done|]. split; [apply grows_refl|done]. }
  destruct t as [f a|s|z|s|k]; try (apply No; done).
  destruct f as [f1 f2|c|z|s|k].
  - destruct f1 as [h1 h2|c|z|s|k]; try (apply No; [intros; by destruct a|by destruct a]).
    cbn in Hn. destruct (c =? "SApp") eqn:Ec.
    2: { apply No; intros; cbn [denote cc_reify extract_slit extract_svar extract_sname]; by rewrite Ec. }
    apply String.eqb_eq in Ec. subst c. cbn [cc_reify extract_slit extract_svar extract_sname String.eqb Ascii.eqb Bool.eqb].
    destruct (IH f2 ltac:(lia) g Ok) as (g1 & r1 & -> & Ok1 & G1 & R1).
    destruct r1 as [fi|].
    2: { exists g1, None. split; [done|]. split; [done|]. split; [done|]. intros D M. cbn. by rewrite R1. }
    destruct (IH a ltac:(lia) g1 Ok1) as (g2 & r2 & -> & Ok2 & G2 & R2).
    destruct r2 as [ai|].
    2: { exists g2, None. split; [done|]. split; [done|]. split; [by eapply grows_trans|]. intros D M. cbn. rewrite R2. by destruct (denote M f2). }
    assert (R1' : rep (eg_nodes g2) f2 fi) by (destruct G2 as [[l ->] _]; by apply rep_grow).
    destruct (eg_add_ok g2 (NApp fi ai) Ok2) as (g3 & i & -> & Ok3 & Hi & G3); [split; by eapply rep_lt|].
    exists g3, (Some i). split; [done|]. split; [done|]. split; [eapply grows_trans; [exact G1|]; by eapply grows_trans|].
    destruct G3 as [[l El] _]. apply (rep_app _ f2 a fi ai); [rewrite El; by apply rep_grow|rewrite El; by apply rep_grow|done].
  - destruct a as [a1 a2|s|z|s|k]; try (apply No; done).
    + destruct (c =? "SLit") eqn:E1; [|destruct (c =? "SVar") eqn:E2].
      * apply String.eqb_eq in E1. subst c. cbn. destruct (eg_add_ok g (NLit z) Ok I) as (g' & i & -> & Ok' & Hi & G).
        exists g', (Some i). split; [done|]. split; [done|]. split; [done|]. by constructor.
      * apply String.eqb_eq in E2. subst c. cbn. destruct (eg_add_ok g (NVar z) Ok I) as (g' & i & -> & Ok' & Hi & G).
        exists g', (Some i). split; [done|]. split; [done|]. split; [done|]. by constructor.
      * apply No; intros; cbn; by rewrite E1, E2.
    + destruct (c =? "SName") eqn:E1.
      * apply String.eqb_eq in E1. subst c. cbn. destruct (eg_add_ok g (NName s) Ok I) as (g' & i & -> & Ok' & Hi & G).
        exists g', (Some i). split; [done|]. split; [done|]. split; [done|]. by constructor.
      * apply No; intros; cbn; by rewrite E1.
  - apply No; [intros; by destruct a|by destruct a].
  - apply No; [intros; by destruct a|by destruct a].
  - apply No; [intros; by destruct a|by destruct a].
Qed.
Lemma eg_merge_ok g a b : eg_ok g -> a < length (eg_nodes g) -> b < length (eg_nodes g) ->
  exists g', eg_merge g a b = Some g' /\ eg_ok g' /\ eg_nodes g' = eg_nodes g /\
    eqv (par g') a b /\ (forall x y, eqv (par g) x y -> eqv (par g') x y) /\
    (forall (D : Type) (M : interp D) v, models M v g -> v a = v b -> models M v g') /\
    (uses_ok g -> closed g [] -> uses_ok g' /\ closed g' []).
Proof.
  intros Ok Ha Hb. destruct (propagate_ok (length (eg_nodes g)) g [(a, b)] Ok) as (g' & E & Ok' & Nd & _ & Hin & Hm & Hcl).
  { intros x y [[= <- <-]|[]]. done. }
  { rewrite <- (ok_par g Ok). apply nroots_le. }
  exists g'. split; [done|]. split; [done|]. split; [done|]. split; [apply Hin; right; by left|].
  split; [intros x y H; apply Hin; by left|]. split.
  - intros D M v Hv Hab. apply Hm; [done|]. intros x y [[= <- <-]|[]]. done.
  - intros Hu Hc. apply Hcl; [done|]. intros u1 u2 Hcg. apply Hc in Hcg. eapply rel_mono; [|exact Hcg].
    intros x y [H|[]]. apply rel_step. by left.
Qed.
Lemma discrete_closed g : eg_ok g -> discrete g -> closed g [].
Proof.
  intros Ok Hd u1 u2 (f1 & a1 & f2 & a2 & A & B & (r & F1 & F2) & (s & A1 & A2)).
  apply Hd in F1, F2, A1, A2. subst. apply (ok_map g Ok) in A, B. rewrite A in B. injection B as ->. apply rst_refl.
Qed.
Lemma equivalent_ok g a b : eg_ok g -> a < length (eg_nodes g) -> b < length (eg_nodes g) ->
  exists g' c, eg_equivalent g a b = Some (g', c) /\ (c = true <-> eqv (par g) a b).
Proof.
  intros Ok Ha Hb. unfold eg_equivalent.
  destruct (find_total (eg_uf g) a (ok_uf g Ok)) as (u1 & ra & -> & Ra & Ok1 & S1); [by rewrite (ok_par g Ok)|].
  destruct (find_total u1 b Ok1) as (u2 & rb & -> & Rb & Ok2 & S2); [destruct S1; rewrite (ok_par g Ok) in *; lia|].
  eexists _, _. split; [done|]. rewrite Nat.eqb_eq. symmetry. apply eqv_dec; [done|]. by apply (proj2 S1).
Qed.

(** * The canonical model of a closed graph *)
Definition rt (g : egraph) (i : nat) : option nat := match uf_find (eg_uf g) i with Some (_, r) => Some r | None => None end.
Lemma rt_root g i r : eg_ok g -> root (par g) i r -> rt g i = Some r.
Proof. intros Ok Hr. unfold rt. destruct (find_ok _ _ _ (ok_uf g Ok) Hr) as (u' & -> & _). done. Qed.
Definition leaf (g : egraph) (n : enode) : option nat := match map_get (eg_map g) n with Some i => rt g i | None => None end.
Definition app_node (g : egraph) (x y : option nat) (n : enode) : Prop :=
  match n with NApp f a => rt g f = x /\ rt g a = y | _ => False end.
Global Instance app_node_dec g x y n : Decision (app_node g x y n).
Proof. destruct n; cbn; apply _. Defined.
Definition canonical (g : egraph) : interp (option nat) :=
  Interp (fun z => leaf g (NLit z)) (fun z => leaf g (NVar z)) (fun s => leaf g (NName s))
    (fun x y => match list_find (app_node g x y) (eg_nodes g) with Some (i, _) => rt g i | None => None end).
Lemma canonical_models g : eg_ok g -> closed g [] -> models (canonical g) (rt g) g.
Proof.
  intros Ok Hc. split.
  - intros i n Hi. assert (Hl : leaf g n = rt g i) by (unfold leaf; by rewrite (proj2 (ok_map g Ok n i) Hi)).
    destruct n as [z|z|s|f a]; cbn; try done.
    destruct (list_find (app_node g (rt g f) (rt g a)) (eg_nodes g)) as [[j m]|] eqn:E.
    2: { rewrite list_find_None, Forall_forall in E. exfalso. apply (E (NApp f a)); [by eapply elem_of_list_lookup_2|done]. }
    apply list_find_Some in E as (Hj & Hm & _). destruct m as [| | |f' a']; try done. destruct Hm as [Hf Ha].
    assert (Hroot : forall c, c < length (eg_nodes g) -> exists r, root (par g) c r).
    { intros c Hc'. apply root_exists; [apply (ok_uf _ Ok)|]. by rewrite (ok_par _ Ok). }
    pose proof (ok_child _ Ok _ _ _ Hi). pose proof (ok_child _ Ok _ _ _ Hj).
    pose proof (lookup_lt_Some _ _ _ Hi). pose proof (lookup_lt_Some _ _ _ Hj).
    destruct (Hroot f) as [r1 R1]; [lia|]. destruct (Hroot f') as [r2 R2]; [lia|].
    destruct (Hroot a) as [s1 Q1]; [lia|]. destruct (Hroot a') as [s2 Q2]; [lia|].
    rewrite (rt_root g f r1), (rt_root g f' r2) in Hf by done. rewrite (rt_root g a s1), (rt_root g a' s2) in Ha by done.
    injection Hf as ->. injection Ha as ->.
    assert (Hcg : cong (eg_nodes g) (par g) i j).
    { exists f, a, f', a'. split; [done|]. split; [done|]. split; eexists; eauto. }
    apply Hc, rel_nil in Hcg as [->|(r & A & B)]; [done|]. by rewrite (rt_root g i r), (rt_root g j r).
  - intros x r Hr. rewrite (rt_root g x r), (rt_root g r r); [done|done|by eapply root_root|done|done].
Qed.
Lemma canonical_eqv g a b : eg_ok g -> a < length (eg_nodes g) -> b < length (eg_nodes g) -> rt g a = rt g b -> eqv (par g) a b.
Proof.
  intros Ok Ha Hb H. rewrite <- (ok_par g Ok) in Ha, Hb. destruct (root_exists _ a (ok_uf g Ok) Ha) as [ra Ra].
  destruct (root_exists _ b (ok_uf g Ok) Hb) as [rb Rb]. rewrite (rt_root g a ra), (rt_root g b rb) in H by done. injection H as ->. by exists rb.
Qed.

(** * Hypotheses *)
Lemma assume_ok hs : forall g, eg_ok g -> exists r, assume g hs = Some r /\
  match r with
  | None => True
  | Some g' => eg_ok g' /\ (exists l, eg_nodes g' = eg_nodes g ++ l) /\
      forall (D : Type) (M : interp D) v, models M v g ->
        (forall l r x y, In (l, r) hs -> denote M l = Some x -> denote M r = Some y -> x = y) ->
        exists v', models M v' g' /\ forall i, i < length (eg_nodes g) -> v' i = v i
  end.
Proof.
  induction hs as [|[l r] hs IH]; intros g Ok; cbn [assume].
  - exists (Some g). split; [done|]. split; [done|]. split; [exists []; by rewrite app_nil_r|]. intros D M v Hv _. by exists v.
  - destruct (reify_graph_ok l g Ok) as (g1 & r1 & -> & Ok1 & G1 & R1). destruct r1 as [li|]; [|by exists None].
    destruct (reify_graph_ok r g1 Ok1) as (g2 & r2 & -> & Ok2 & G2 & R2). destruct r2 as [ri|]; [|by exists None].
    assert (R1' : rep (eg_nodes g2) l li) by (destruct G2 as [[l' ->] _]; by apply rep_grow).
    destruct (eg_merge_ok g2 li ri Ok2) as (g3 & -> & Ok3 & Nd3 & _ & _ & Hm & _); [by eapply rep_lt|by eapply rep_lt|].
    destruct (IH g3 Ok3) as (res & -> & Hres). exists res. split; [done|]. destruct res as [g'|]; [|done].
    destruct Hres as (Ok' & (l' & El') & HM). split; [done|].
    pose proof (grows_trans _ _ _ G1 G2) as ((l2 & E2) & GM & _).
    split; [exists (l2 ++ l'); by rewrite El', Nd3, E2, app_assoc|].
    intros D M v Hv Hh. destruct (GM D M v Hv) as (v2 & Hv2 & A2).
    assert (Hv3 : models M v2 g3).
    { apply Hm; [done|]. eapply (Hh l r); [by left| |]; by eapply rep_denote. }
    destruct (HM D M v2 Hv3) as (v3 & H3 & A3); [intros; eapply (Hh l0 r0); try done; by right|].
    exists v3. split; [done|]. intros i Hi. rewrite A3, A2; [done|done|]. rewrite Nd3, E2, app_length. lia.
Qed.

Lemma eg_new_models {D} (M : interp D) d : models M (fun _ => d) eg_new.
Proof. split; cbn; [done|]. intros x r _. done. Qed.
Lemma goal_eq {D} (other : term -> Prop) (M : interp D) t l r x y : cc_equality t = Some (l, r) -> denote M l = Some x -> denote M r = Some y ->
  (goal_holds other M t <-> x = y).
Proof.
  intros H Hl Hr. unfold cc_equality in H. destruct (extract_binary_app t) as [[[op a] b]|] eqn:E; [|done].
  destruct ((op =? "Eq") || (op =? "eq")) eqn:Eo; [|done]. injection H as -> ->. apply binary_app_inv in E. subst t.
  unfold SBIN, SAPP, SNAME. cbn -[denote]. rewrite Eo, Hl, Hr.
  assert (Hi : (op =? "implies") = false).
  { apply orb_true_iff in Eo as [Eo|Eo]; apply String.eqb_eq in Eo; by subst. }
  by rewrite Hi.
Qed.
Lemma decompose_ok {D} (other : term -> Prop) (M : interp D) t : forall hs concl, decompose_goal t = (hs, concl) ->
  ((forall l r x y, In (l, r) hs -> denote M l = Some x -> denote M r = Some y -> x = y) -> goal_holds other M concl) ->
  goal_holds other M t.
Proof.
  remember (tsize t) as n eqn:En. assert (Hn : tsize t <= n) by lia. clear En. revert t Hn.
  induction n as [|n IH]; intros t Hn hs concl; [destruct t; cbn in Hn; lia|].
  assert (Base : decompose_goal t = ([], t) -> decompose_goal t = (hs, concl) ->
    ((forall l r x y, In (l, r) hs -> denote M l = Some x -> denote M r = Some y -> x = y) -> goal_holds other M concl) -> goal_holds other M t).
  { intros -> [= <- <-] H. apply H. intros ? ? ? ? []. }
  destruct t as [f b|s|z|s|k]; try (by apply Base). destruct f as [f1 f2|c|z|s|k]; try (by apply Base).
  destruct f1 as [?|c|z|s|k]; try (by apply Base). destruct f2 as [g1 a|c2|z|s|k]; try (by apply Base).
  destruct g1 as [h1 o|c2|z|s|k]; try (by apply Base). destruct h1 as [?|c2|z|s|k]; try (by apply Base).
  destruct (cc_implication (TApp (TApp (TGlobal c) (TApp (TApp (TGlobal c2) o) a)) b)) as [[a' b']|] eqn:E.
  2: { apply Base. cbn -[cc_implication]. by rewrite E. }
  cbn [decompose_goal]. rewrite E. destruct (decompose_goal b) as [hs' concl'] eqn:Eb. intros [= <- <-] H.
  unfold cc_implication in E. destruct (extract_binary_app _) as [[[op x1] x2]|] eqn:E2; [|done].
  destruct (op =? "implies") eqn:Eo; [|done]. injection E as -> ->. apply binary_app_inv in E2. unfold SBIN, SAPP, SNAME in E2.
  injection E2 as -> -> -> <- <-. apply String.eqb_eq in Eo. subst op. cbn in Hn.
  cbn -[denote]. intros Ha. eapply (IH b); [lia|exact Eb|]. intros Hh. apply H.
  destruct (cc_equality a) as [[l r]|] eqn:Ea; [|exact Hh]. intros l' r' x y [[= <- <-]|Hin] Hx Hy; [|by eapply Hh].
  by apply (proj1 (goal_eq other M a l r x y Ea Hx Hy)).
Qed.

(** ** C43 *)
(** The check always returns: no index is out of range and the propagation loop ends within as
    many merges as there are nodes. *)
Lemma check_goal_ok goal hs concl : decompose_goal goal = (hs, concl) -> exists b, check_goal goal = Some b /\
  (b = true -> exists l r, cc_equality concl = Some (l, r) /\ forall (D : Type) (M : interp D),
     (forall l r x y, In (l, r) hs -> denote M l = Some x -> denote M r = Some y -> x = y) ->
     exists x, denote M l = Some x /\ denote M r = Some x).
Proof.
  intros E. unfold check_goal. rewrite E. destruct (cc_equality concl) as [[l r]|] eqn:Ec; [|by exists false].
  destruct (reify_graph_ok l eg_new eg_new_ok) as (g1 & r1 & -> & Ok1 & G1 & R1). destruct r1 as [li|]; [|by exists false].
  destruct (reify_graph_ok r g1 Ok1) as (g2 & r2 & -> & Ok2 & G2 & R2). destruct r2 as [ri|]; [|by exists false].
  assert (R1' : rep (eg_nodes g2) l li) by (destruct G2 as [[l' ->] _]; by apply rep_grow).
  destruct (assume_ok hs g2 Ok2) as (res & -> & Hres). destruct res as [g3|]; [|by exists false].
  destruct Hres as (Ok3 & (l3 & E3) & H3).
  assert (Q1 : rep (eg_nodes g3) l li) by (rewrite E3; by apply rep_grow). assert (Q2 : rep (eg_nodes g3) r ri) by (rewrite E3; by apply rep_grow).
  destruct (equivalent_ok g3 li ri Ok3) as (g4 & c & -> & Hc); [by eapply rep_lt|by eapply rep_lt|].
  exists c. split; [done|]. intros ->. exists l, r. split; [done|]. intros D M Hh.
  destruct (proj1 (proj2 (grows_trans _ _ _ G1 G2)) D M _ (eg_new_models M (i_lit M 0%Z))) as (v2 & Hv2 & _).
  destruct (H3 D M v2 Hv2 Hh) as (v3 & Hv3 & _). exists (v3 li). split; [by eapply rep_denote|].
  rewrite (models_eqv M v3 g3 li ri Hv3); [by eapply rep_denote|]. by apply Hc.
Qed.
Theorem C43_total goal : exists b, check_goal goal = Some b.
Proof. destruct (decompose_goal goal) as [hs concl] eqn:E. destruct (check_goal_ok _ _ _ E) as (b & H & _). by exists b. Qed.
(** An accepted goal holds in every interpretation of its symbols. *)
Theorem C43_sound goal : check_goal goal = Some true -> forall (D : Type) (M : interp D) other, goal_holds other M goal.
Proof.
  intros H D M other. destruct (decompose_goal goal) as [hs concl] eqn:E. destruct (check_goal_ok _ _ _ E) as (b & Hb & HT).
  rewrite H in Hb. injection Hb as <-. destruct (HT eq_refl) as (l & r & Ec & HM). eapply decompose_ok; [exact E|].
  intros Hh. destruct (HM D M Hh) as (x & Hl & Hr). by apply (goal_eq other M concl l r x x Ec Hl Hr).
Qed.

(** *** The structure itself *)
Lemma merge_in_range g a b g' : eg_ok g -> eg_merge g a b = Some g' -> a < length (eg_nodes g) /\ b < length (eg_nodes g).
Proof.
  intros Ok H. unfold eg_merge in H.
  assert (Hf : forall u x u' r, uf_find u x = Some (u', r) -> x < length (uf_parent u)).
  { intros u x u' r Hx. unfold uf_find in Hx. destruct (length (uf_parent u)) as [|k] eqn:El; [done|]. cbn in Hx.
    destruct (uf_parent u !! x) eqn:Ex; [|done]. rewrite <- El. by eapply lookup_lt_Some. }
  assert (Hn : exists res, next_pair (eg_uf g) [(a, b)] = Some res).
  { destruct (length (eg_nodes g)); unfold propagate in H; fold propagate in H; destruct (next_pair (eg_uf g) [(a, b)]) as [res|]; try done; by exists res. }
  destruct Hn as [res Hn]. cbn [next_pair] in Hn. destruct (uf_find (eg_uf g) a) as [[u1 ra]|] eqn:E1; [|done].
  destruct (uf_find u1 b) as [[u2 rb]|] eqn:E2; [|done]. pose proof (Hf _ _ _ _ E1) as Ha. pose proof (Hf _ _ _ _ E2) as Hb.
  destruct (find_total _ a (ok_uf g Ok) Ha) as (u1' & ra' & E1' & _ & _ & [L _]). rewrite E1 in E1'. injection E1' as <- <-.
  rewrite L in Hb. by rewrite (ok_par g Ok) in Ha, Hb.
Qed.
Lemma add_in_range g n g' i : eg_ok g -> eg_add g n = Some (g', i) -> map_get (eg_map g) n = None -> child_in n (length (eg_nodes g)).
Proof.
  intros Ok H Hm. destruct n as [| | |f a]; cbn; try done. unfold eg_add in H. rewrite Hm in H.
  assert (Hp : forall us j u us', push_use us j u = Some us' -> j < length us /\ length us' = length us).
  { intros us j u us' Hp. unfold push_use in Hp. destruct (us !! j) eqn:Ej; [|done]. injection Hp as <-. split; [by eapply lookup_lt_Some|apply insert_length]. }
  destruct (push_use (eg_uses g ++ [[]]) f (length (eg_nodes g))) as [us1|] eqn:E1; [|done].
  destruct (push_use us1 a (length (eg_nodes g))) as [us2|] eqn:E2; [|done].
  apply Hp in E1 as [F L1]. apply Hp in E2 as [A _]. rewrite L1, app_length, (ok_uses_len g Ok) in A. rewrite app_length, (ok_uses_len g Ok) in F. cbn in F, A. lia.
Qed.
Lemma step_ok g o g' : eg_ok g -> eg_step g o = Some g' -> eg_ok g' /\ (exists l, eg_nodes g' = eg_nodes g ++ l) /\
  (forall (D : Type) (M : interp D) v, models M v g -> (forall i n, eg_nodes g' !! i = Some n -> v i = node_val M v n) ->
     (forall a b, o = GMerge a b -> v a = v b) -> models M v g') /\
  (forall n, o = GAdd n -> discrete g /\ uses_ok g -> discrete g' /\ uses_ok g').
Proof.
  intros Ok H. destruct o as [n|a b]; cbn in H.
  - destruct (eg_add g n) as [[g1 i]|] eqn:E; [|done]. injection H as ->. destruct (map_get (eg_map g) n) as [j|] eqn:Em.
    + unfold eg_add in E. rewrite Em in E. injection E as <- <-. split; [done|]. split; [exists []; by rewrite app_nil_r|]. split; [done|]. done.
    + destruct (eg_add_spec g n Ok) as (g1 & E1 & Ok1 & Nd1 & Hr & Hd); [by eapply add_in_range|done|]. rewrite E in E1. injection E1 as -> ->.
      split; [done|]. split; [by exists [n]|]. split; [|intros ? _; exact Hd]. intros D M v [_ Hv2] Hn _. split; [done|].
      intros x r Hx. apply Hr in Hx as [Hx|[-> ->]]; [by apply Hv2|done].
  - destruct (merge_in_range _ _ _ _ Ok H) as [Ha Hb]. destruct (eg_merge_ok g a b Ok Ha Hb) as (g1 & E1 & Ok1 & Nd1 & _ & _ & Hm & _).
    rewrite H in E1. injection E1 as <-. split; [done|]. split; [exists []; by rewrite Nd1, app_nil_r|]. split; [|done].
    intros D M v Hv _ Hab. apply Hm; [done|]. by apply Hab.
Qed.
Lemma run_ok os : forall g g', eg_ok g -> eg_run g os = Some g' -> eg_ok g' /\ (exists l, eg_nodes g' = eg_nodes g ++ l) /\
  forall (D : Type) (M : interp D) v, models M v g -> (forall i n, eg_nodes g' !! i = Some n -> v i = node_val M v n) ->
     (forall a b, In (GMerge a b) os -> v a = v b) -> models M v g'.
Proof.
  induction os as [|o os IH]; intros g g' Ok H; cbn in H.
  - injection H as <-. split; [done|]. split; [exists []; by rewrite app_nil_r|]. done.
  - destruct (eg_step g o) as [g1|] eqn:E; [|done]. destruct (step_ok _ _ _ Ok E) as (Ok1 & (l1 & E1) & M1 & _).
    destruct (IH _ _ Ok1 H) as (Ok' & (l2 & E2) & M2). split; [done|]. split; [exists (l1 ++ l2); by rewrite E2, E1, app_assoc|].
    intros D M v Hv Hn Hm. apply M2; [|done|intros; apply Hm; by right]. apply M1; [done| |intros; apply Hm; by left].
    intros i n Hi. apply Hn. rewrite E2. by apply lookup_app_l_Some.
Qed.
(** Whatever the order of insertions and merges, nodes in the same class have the same value in
    every interpretation that satisfies the merges. *)
Theorem C43_egraph_sound os g a b g' : eg_run eg_new os = Some g -> eg_equivalent g a b = Some (g', true) ->
  forall (D : Type) (M : interp D) v, (forall i n, eg_nodes g !! i = Some n -> v i = node_val M v n) ->
    (forall x y, In (GMerge x y) os -> v x = v y) -> v a = v b.
Proof.
  intros H He D M v Hn Hm. destruct (run_ok _ _ _ eg_new_ok H) as (Ok & _ & HM).
  assert (Hv : models M v g).
  { apply HM; [|done|done]. split; [done|]. intros x r Hx. apply root_lt in Hx. cbn in Hx. lia. }
  unfold eg_equivalent in He. destruct (uf_find (eg_uf g) a) as [[u1 ra]|] eqn:E1; [|done].
  destruct (uf_find u1 b) as [[u2 rb]|] eqn:E2; [|done]. injection He as <- Eq. apply Nat.eqb_eq in Eq. subst rb.
  assert (Hf : forall u x u' r, uf_ok u -> uf_find u x = Some (u', r) -> root (uf_parent u) x r /\ uf_ok u' /\ same_roots (uf_parent u) (uf_parent u')).
  { intros u x u' r Oku Hx. assert (Hl : x < length (uf_parent u)).
    { unfold uf_find in Hx. destruct (length (uf_parent u)) as [|k] eqn:El; [done|]. cbn in Hx.
      destruct (uf_parent u !! x) eqn:Ex; [|done]. rewrite <- El. by eapply lookup_lt_Some. }
    destruct (find_total u x Oku Hl) as (u0 & r0 & E0 & R0 & O0 & S0). rewrite Hx in E0. by injection E0 as <- <-. }
  destruct (Hf _ _ _ _ (ok_uf g Ok) E1) as (R1 & O1 & S1). destruct (Hf _ _ _ _ O1 E2) as (R2 & _ & _).
  apply (models_eqv M v g a b Hv). exists ra. split; [done|]. by apply (proj2 S1).
Qed.
(** When every node is inserted before the first merge, two nodes are in the same class exactly
    when they have the same value in every interpretation satisfying the merges. *)
Theorem C43_egraph_decides ns ps g a b :
  eg_run eg_new (map GAdd ns ++ map (fun p => GMerge (fst p) (snd p)) ps) = Some g -> a < length (eg_nodes g) -> b < length (eg_nodes g) ->
  exists g' c, eg_equivalent g a b = Some (g', c) /\
    (c = true <-> forall (D : Type) (M : interp D) v, (forall i n, eg_nodes g !! i = Some n -> v i = node_val M v n) ->
       (forall x y, In (x, y) ps -> v x = v y) -> v a = v b).
Proof.
  intros H Ha Hb. destruct (run_ok _ _ _ eg_new_ok H) as (Ok & _ & _).
  destruct (equivalent_ok g a b Ok Ha Hb) as (g' & c & E & Hc). exists g', c. split; [done|]. split.
  - intros -> D M v Hn Hm. eapply C43_egraph_sound; try done. intros x y Hin. apply Hm.
    apply in_app_iff in Hin as [Hin|Hin]; apply in_map_iff in Hin as (z & Hz & Hin); [done|]. destruct z. by injection Hz as -> ->.
  - intros HH. apply Hc. apply canonical_eqv; [done|done|done|].
    assert (Hadds : forall ns g0 g1, eg_ok g0 -> discrete g0 /\ uses_ok g0 -> eg_run g0 (map GAdd ns) = Some g1 -> eg_ok g1 /\ discrete g1 /\ uses_ok g1).
    { clear. induction ns as [|n ns IH]; intros g0 g1 Ok0 Hd H; [by injection H as <-|]. cbn [map eg_run] in H.
      destruct (eg_step g0 (GAdd n)) as [g2|] eqn:E; [|done]. destruct (step_ok _ _ _ Ok0 E) as (Ok2 & _ & _ & Hd2). eapply IH; [done| |exact H]. by eapply Hd2. }
    assert (Hmerges : forall ps g0 g1, eg_ok g0 -> uses_ok g0 -> closed g0 [] -> eg_run g0 (map (fun p => GMerge (fst p) (snd p)) ps) = Some g1 ->
      closed g1 [] /\ (forall x y, eqv (par g0) x y -> eqv (par g1) x y) /\ forall x y, In (x, y) ps -> eqv (par g1) x y).
    { clear. induction ps as [|[x y] ps IH]; intros g0 g1 Ok0 Hu Hcl H; [injection H as <-; split; [done|]; split; [done|]; intros ? ? []|].
      cbn [map eg_run eg_step fst snd] in H. destruct (eg_merge g0 x y) as [g2|] eqn:E; [|done].
      destruct (merge_in_range _ _ _ _ Ok0 E) as [Hx Hy]. destruct (eg_merge_ok g0 x y Ok0 Hx Hy) as (g3 & E3 & Ok3 & _ & Hxy & Hmono & _ & Hc3).
      rewrite E in E3. injection E3 as <-. destruct (Hc3 Hu Hcl) as [Hu3 Hcl3]. destruct (IH _ _ Ok3 Hu3 Hcl3 H) as (A & B & C).
      split; [done|]. split; [intros; by apply B, Hmono|]. intros c d [[= <- <-]|Hin]; [by apply B|by apply C]. }
    assert (Happ : forall os1 os2 g0 g1, eg_run g0 (os1 ++ os2) = Some g1 -> exists g2, eg_run g0 os1 = Some g2 /\ eg_run g2 os2 = Some g1).
    { clear. induction os1 as [|o os1 IH]; intros os2 g0 g1 H; [by exists g0|]. cbn in *. destruct (eg_step g0 o); [|done]. by apply IH. }
    apply Happ in H as (g2 & H1 & H2).
    assert (H0 : discrete eg_new /\ uses_ok eg_new).
    { split; [intros x r Hx; apply root_lt in Hx; cbn in Hx; lia|]. intros u f x c' r Hu. cbn in Hu. done. }
    destruct (Hadds _ _ _ eg_new_ok H0 H1) as (Ok2 & Hd2 & Hu2).
    destruct (Hmerges _ _ _ Ok2 Hu2 (discrete_closed _ Ok2 Hd2) H2) as (Hcl & _ & Hps).
    pose proof (canonical_models g Ok Hcl) as [Hm1 Hm2]. apply (HH _ (canonical g) (rt g)); [exact Hm1|].
    intros x y Hxy. apply Hps in Hxy. by apply (models_eqv (canonical g) (rt g) g).
Qed.

(** *** Goals *)
(** [l1 = r1 -> … -> ln = rn -> l = r]. *)
Fixpoint goal_of (hs : list (term * term)) (l r : term) : term :=
  match hs with
  | [] => SBIN "Eq" l r
  | (a, b) :: hs => SBIN "implies" (SBIN "Eq" a b) (goal_of hs l r)
  end.
(** Terms of the embedded syntax, and their subterms. *)
Inductive syn : term -> Prop :=
  | syn_lit n : syn (SLIT n) | syn_var n : syn (SVAR n) | syn_name s : syn (SNAME s)
  | syn_app f a : syn f -> syn a -> syn (SAPP f a).
Inductive sub (t : term) : term -> Prop :=
  | sub_refl : sub t t
  | sub_fun f a : sub t f -> sub t (SAPP f a)
  | sub_arg f a : sub t a -> sub t (SAPP f a).

Lemma syn_denote t : syn t -> forall (D : Type) (M : interp D), denote M t <> None.
Proof.
  induction 1 as [n|n|s|f a Hf IHf Ha IHa]; intros D M; try done.
  cbn. destruct f as [f1 f2|s|z|s|k]; try (by inversion Hf). specialize (IHf D M). specialize (IHa D M).
  destruct (denote M (TApp f1 f2)); [|done]. by destruct (denote M a).
Qed.
Lemma rep_sub ns t i : rep ns t i -> forall t', sub t' t -> exists j, rep ns t' j.
Proof.
  induction 1 as [n i Hi|n i Hi|s i Hi|f a fi ai i Hf IHf Ha IHa Hi]; intros t' Hs.
  - inversion Hs; subst. exists i. by constructor.
  - inversion Hs; subst. exists i. by constructor.
  - inversion Hs; subst. exists i. by constructor.
  - inversion Hs; subst; [exists i; by econstructor|by apply IHf|by apply IHa].
Qed.
Lemma reify_syn t g : syn t -> eg_ok g -> exists g' i, cc_reify g t = Some (g', Some i) /\ eg_ok g' /\ grows g g' /\ rep (eg_nodes g') t i.
Proof.
  intros Hs Ok. destruct (reify_graph_ok t g Ok) as (g' & r & E & Ok' & G & R). destruct r as [i|]; [by exists g', i|].
  exfalso. apply (syn_denote t Hs unit (Interp (fun _ => tt) (fun _ => tt) (fun _ => tt) (fun _ _ => tt))). apply R.
Qed.
Lemma decompose_goal_of hs l r : decompose_goal (goal_of hs l r) = (hs, SBIN "Eq" l r).
Proof. induction hs as [|[a b] hs IH]; [done|]. cbn [goal_of].
  change (decompose_goal (SBIN "implies" (SBIN "Eq" a b) (goal_of hs l r))) with
    (let '(hs', r') := decompose_goal (goal_of hs l r) in ((a, b) :: hs', r')).
  by rewrite IH.
Qed.
Lemma assume_present hs : forall g, eg_ok g -> uses_ok g -> closed g [] ->
  (forall a b, In (a, b) hs -> exists i j, rep (eg_nodes g) a i /\ rep (eg_nodes g) b j) ->
  exists g', assume g hs = Some (Some g') /\ eg_ok g' /\ eg_nodes g' = eg_nodes g /\ closed g' [] /\
    (forall x y, eqv (par g) x y -> eqv (par g') x y) /\
    forall a b, In (a, b) hs -> exists i j, rep (eg_nodes g) a i /\ rep (eg_nodes g) b j /\ eqv (par g') i j.
Proof.
  induction hs as [|[a b] hs IH]; intros g Ok Hu Hc Hp; cbn [assume].
  - exists g. split; [done|]. split; [done|]. split; [done|]. split; [done|]. split; [done|]. intros ? ? [].
  - destruct (Hp a b) as (i & j & Ri & Rj); [by left|]. rewrite (rep_reify g a i Ok Ri), (rep_reify g b j Ok Rj).
    destruct (eg_merge_ok g i j Ok) as (g1 & -> & Ok1 & Nd1 & Hij & Hmono & _ & Hcl); [by eapply rep_lt|by eapply rep_lt|].
    destruct (Hcl Hu Hc) as [Hu1 Hc1]. destruct (IH g1 Ok1 Hu1 Hc1) as (g' & E & Ok' & Nd' & Hc' & Hm' & Hh').
    { rewrite Nd1. intros; apply Hp; by right. }
    exists g'. split; [done|]. split; [done|]. split; [by rewrite Nd'|]. split; [done|]. split; [intros; by apply Hm', Hmono|].
    intros c d [[= <- <-]|Hin]; [exists i, j; split; [done|]; split; [done|]; by apply Hm'|]. rewrite Nd1 in Hh'. by apply Hh'.
Qed.
Definition entails (hs : list (term * term)) (l r : term) : Prop :=
  forall (D : Type) (M : interp D), (forall a b, In (a, b) hs -> denote M a = denote M b) -> denote M l = denote M r.
(** The verdict is exactly entailment if the terms of the second and later hypotheses occur in the
    conclusion or in the first hypothesis; in particular for goals with at most one hypothesis. *)
Theorem C43_decides hs l r : syn l -> syn r -> (forall a b, In (a, b) hs -> syn a /\ syn b) ->
  (forall h0 hs' a b t, hs = h0 :: hs' -> In (a, b) hs' -> t = a \/ t = b -> sub t l \/ sub t r \/ sub t (fst h0) \/ sub t (snd h0)) ->
  (check_goal (goal_of hs l r) = Some true <-> entails hs l r).
Proof.
  intros Sl Sr Sh Hsub. split.
  - intros H D M Hh. destruct (check_goal_ok _ _ _ (decompose_goal_of hs l r)) as (b & Hb & HT). rewrite H in Hb. injection Hb as <-.
    destruct (HT eq_refl) as (l' & r' & E & HM). injection E as <- <-. destruct (HM D M) as (x & -> & ->); [|done].
    intros a b x y Hin Hx Hy. specialize (Hh a b Hin). rewrite Hx, Hy in Hh. by injection Hh.
  - intros He. unfold check_goal. rewrite decompose_goal_of. change (cc_equality (SBIN "Eq" l r)) with (Some (l, r)).
    destruct (reify_syn l eg_new Sl eg_new_ok) as (g1 & li & -> & Ok1 & G1 & R1).
    destruct (reify_syn r g1 Sr Ok1) as (g2 & ri & -> & Ok2 & G2 & R2).
    assert (R1' : rep (eg_nodes g2) l li) by (destruct G2 as [[k ->] _]; by apply rep_grow).
    pose proof (grows_trans _ _ _ G1 G2) as (_ & _ & Hd).
    assert (H0 : discrete eg_new /\ uses_ok eg_new).
    { split; [intros x s Hx; apply root_lt in Hx; cbn in Hx; lia|]. intros u f x c' s Hu. cbn in Hu. done. }
    apply Hd in H0 as [Hd2 Hu2].
    assert (Hass : exists g3, assume g2 hs = Some (Some g3) /\ eg_ok g3 /\ closed g3 [] /\ (exists k, eg_nodes g3 = eg_nodes g2 ++ k) /\
      forall a b, In (a, b) hs -> exists i j, rep (eg_nodes g3) a i /\ rep (eg_nodes g3) b j /\ eqv (par g3) i j).
    { destruct hs as [|[a0 b0] hs'].
      - exists g2. split; [done|]. split; [done|]. split; [by apply discrete_closed|]. split; [exists []; by rewrite app_nil_r|]. intros ? ? [].
      - cbn [assume]. destruct (Sh a0 b0) as [Sa Sb]; [by left|].
        destruct (reify_syn a0 g2 Sa Ok2) as (g3 & ai & -> & Ok3 & G3 & R3). destruct (reify_syn b0 g3 Sb Ok3) as (g4 & bi & -> & Ok4 & G4 & R4).
        assert (R3' : rep (eg_nodes g4) a0 ai) by (destruct G4 as [[k ->] _]; by apply rep_grow).
        pose proof (grows_trans _ _ _ G3 G4) as ((k4 & E4) & _ & Hd4). destruct (Hd4 (conj Hd2 Hu2)) as [Dd4 Uu4].
        destruct (eg_merge_ok g4 ai bi Ok4) as (g5 & -> & Ok5 & Nd5 & Hab & _ & _ & Hcl); [by eapply rep_lt|by eapply rep_lt|].
        destruct (Hcl Uu4 (discrete_closed _ Ok4 Dd4)) as [Hu5 Hc5].
        assert (Q1 : rep (eg_nodes g5) l li) by (rewrite Nd5, E4; by apply rep_grow). assert (Q2 : rep (eg_nodes g5) r ri) by (rewrite Nd5, E4; by apply rep_grow).
        rewrite <- Nd5 in R3', R4.
        assert (Hpres : forall a b t, In (a, b) hs' -> t = a \/ t = b -> exists i, rep (eg_nodes g5) t i).
        { intros a b t Hin Ht. destruct (Hsub _ _ a b t eq_refl Hin Ht) as [H|[H|[H|H]]]; cbn in H.
          - exact (rep_sub _ _ _ Q1 _ H).
          - exact (rep_sub _ _ _ Q2 _ H).
          - exact (rep_sub _ _ _ R3' _ H).
          - exact (rep_sub _ _ _ R4 _ H). }
        destruct (assume_present hs' g5 Ok5 Hu5 Hc5) as (g6 & -> & Ok6 & Nd6 & Hc6 & Hm6 & Hh6).
        { intros a b Hin. destruct (Hpres a b a Hin) as [i Hi]; [by left|]. destruct (Hpres a b b Hin) as [j Hj]; [by right|]. by exists i, j. }
        exists g6. split; [done|]. split; [done|]. split; [done|]. split; [exists k4; by rewrite Nd6, Nd5|]. rewrite Nd6.
        intros a b [[= <- <-]|Hin]; [exists ai, bi; split; [done|]; split; [done|]; by apply Hm6|by apply Hh6]. }
    destruct Hass as (g3 & -> & Ok3 & Hc3 & (k & E3) & Hh3).
    assert (Q1 : rep (eg_nodes g3) l li) by (rewrite E3; by apply rep_grow). assert (Q2 : rep (eg_nodes g3) r ri) by (rewrite E3; by apply rep_grow).
    destruct (equivalent_ok g3 li ri Ok3) as (g4 & c & -> & Hc); [by eapply rep_lt|by eapply rep_lt|].
    f_equal. apply Hc. pose proof (canonical_models g3 Ok3 Hc3) as Hm.
    apply canonical_eqv; [done|by eapply rep_lt|by eapply rep_lt|].
    assert (Hd' : denote (canonical g3) l = denote (canonical g3) r).
    { apply He. intros a b Hin. destruct (Hh3 a b Hin) as (i & j & Ri & Rj & Hij).
      rewrite (rep_denote _ _ _ _ _ Hm Ri), (rep_denote _ _ _ _ _ Hm Rj). f_equal. by eapply models_eqv. }
    rewrite (rep_denote _ _ _ _ _ Hm Q1), (rep_denote _ _ _ _ _ Hm Q2) in Hd'. by apply (inj Some) in Hd'.
Qed.

(** ** Examples *)
Definition ca := SNAME "a". Definition cb := SNAME "b". Definition c_c := SNAME "c".
Definition cf (t : term) := SAPP (SNAME "f") t.
(** [a = b -> b = c -> f (f a) = f (f c)]; and with [b = c] only, not. *)
Example C43_decides_ex : check_goal (goal_of [(ca, cb); (cb, c_c)] (cf (cf ca)) (cf (cf c_c))) = Some true /\
  check_goal (goal_of [(cb, c_c)] (cf (cf ca)) (cf (cf c_c))) = Some false.
Proof. split; by vm_compute. Qed.
Example C43_decides_hyps_ex : syn (cf (cf ca)) /\
  (forall h0 hs' a b t, [(ca, cb); (cb, c_c)] = h0 :: hs' -> In (a, b) hs' -> t = a \/ t = b ->
     sub t (cf (cf ca)) \/ sub t (cf (cf c_c)) \/ sub t (fst h0) \/ sub t (snd h0)).
Proof.
  split; [repeat constructor|]. intros h0 hs' a b t [= <- <-] [[= <- <-]|[]] [-> | ->].
  - right. right. right. apply sub_refl.
  - right. left. apply sub_arg, sub_arg, sub_refl.
Qed.
(** [f (f (f a)) = a -> f (f (f (f (f a)))) = a -> f a = a]. *)
Fixpoint cfn (n : nat) := match n with O => ca | S n => cf (cfn n) end.
Example C43_sound_ex : check_goal (goal_of [(cfn 5, ca); (cfn 3, ca)] (cf ca) ca) = Some true.
Proof. by vm_compute. Qed.
Definition cc_nodes := [NName "f"; NVar 0; NVar 1; NApp 0 1; NApp 0 2; NApp 0 3; NApp 0 4].
Example C43_egraph_ex : exists g, eg_run eg_new (map GAdd cc_nodes ++ map (fun p => GMerge (fst p) (snd p)) [(1, 2)]) = Some g /\
  option_map snd (eg_equivalent g 5 6) = Some true /\ option_map snd (eg_equivalent g 5 3) = Some false.
Proof. eexists. split; [vm_compute; reflexivity|]. split; by vm_compute. Qed.

(** Without the side condition the procedure is not complete, contrary to the module's "holds iff":
    in [a = b -> f a = c -> f b = c] the node [f a] is inserted after [a] and [b] were merged, and
    is never compared with [f b]. With the hypotheses swapped the goal is accepted. *)
Theorem C43_complete_refuted : exists hs l r, syn l /\ syn r /\ (forall a b, In (a, b) hs -> syn a /\ syn b) /\
  entails hs l r /\ check_goal (goal_of hs l r) = Some false /\ check_goal (goal_of (rev hs) l r) = Some true.
Proof.
  exists [(ca, cb); (cf ca, c_c)], (cf cb), c_c. split; [repeat constructor|]. split; [repeat constructor|]. split.
  { intros a b [[= <- <-]|[[= <- <-]|[]]]; repeat constructor. }
  split; [|split; by vm_compute].
  intros D M H. pose proof (H _ _ (or_introl eq_refl)) as H1. pose proof (H _ _ (or_intror (or_introl eq_refl))) as H2.
  cbn in *. injection H1 as H1. by rewrite <- H1.
Qed.
