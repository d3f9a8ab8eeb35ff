(** Kosaraju's two passes compute the strongly connected components in topological order. *)
From Coq Require Import List Arith Bool Lia Relations.
From stdpp Require Import list.
From Verif Require Import TwoSatModel.

(** ** Adjacency lists *)
Lemma push_length adj e : length (push_edge adj e) = length adj.
Proof. apply alter_length. Qed.
Lemma build_from_length es : forall adj, length (fold_left push_edge es adj) = length adj.
Proof. induction es as [|e es IH]; intros adj; cbn; [done|]. rewrite IH. apply push_length. Qed.
Lemma build_length nn es : length (build_adj nn es) = nn.
Proof. unfold build_adj. rewrite build_from_length. apply replicate_length. Qed.

Lemma build_from_elem es : forall adj u us w, fold_left push_edge es adj !! u = Some us ->
  w ∈ us <-> (exists us0, adj !! u = Some us0 /\ w ∈ us0) \/ (u, w) ∈ es.
Proof.
  induction es as [|[a b] es IH]; intros adj u us w H; cbn [fold_left] in H.
  - rewrite elem_of_nil. split; [eauto|]. intros [(us0 & H0 & Hw)|[]]. congruence.
  - rewrite (IH _ u us w H), elem_of_cons. unfold push_edge. cbn [fst snd].
    assert (Iu : is_Some (adj !! u)).
    { apply lookup_lt_is_Some. apply lookup_lt_Some in H. rewrite build_from_length, push_length in H. done. }
    destruct Iu as [us0 H0]. destruct (decide (a = u)) as [->|N].
    + rewrite list_lookup_alter, H0. cbn. split.
      * intros [(us1 & [= <-] & Hw)|?]; [|auto]. apply elem_of_app in Hw as [?|Hw]; [eauto|]. apply elem_of_list_singleton in Hw as ->. auto.
      * intros [(us1 & [= <-] & Hw)|[[= ->]|?]]; [left|left|auto]; eexists; (split; [done|]); apply elem_of_app; [auto|]. right. left.
    + rewrite list_lookup_alter_ne by done. split; [tauto|]. intros [?|[[= -> ->]|?]]; [auto|done|auto].
Qed.
Lemma build_elem nn es u us w : build_adj nn es !! u = Some us -> w ∈ us <-> (u, w) ∈ es.
Proof.
  intros H. rewrite (build_from_elem es _ u us w H). split; [|auto]. intros [(us0 & H0 & Hw)|?]; [|done].
  apply lookup_replicate in H0 as [-> _]. now apply elem_of_nil in Hw.
Qed.

Section graph.
Variable nn : nat.
Variable es : list (nat * nat).
Hypothesis es_in : forall u w, (u, w) ∈ es -> (u < nn /\ w < nn)%nat.

Definition E (u w : nat) : Prop := (u, w) ∈ es.
Definition R : nat -> nat -> Prop := clos_refl_trans nat E.
Definition scc (u w : nat) : Prop := R u w /\ R w u.

Lemma scc_refl u : scc u u. Proof. split; apply rt_refl. Qed.
Lemma scc_sym u w : scc u w -> scc w u. Proof. unfold scc. tauto. Qed.
Lemma scc_trans u w z : scc u w -> scc w z -> scc u z.
Proof. intros [A B] [C D]. split; eapply rt_trans; eassumption. Qed.

Let adj := build_adj nn es.
Let radj := build_adj nn (map swap_edge es).

Lemma adj_some u : (u < nn)%nat -> exists us, adj !! u = Some us /\ forall w, w ∈ us <-> E u w.
Proof.
  intros L. destruct (lookup_lt_is_Some_2 adj u) as [us H]; [unfold adj; now rewrite build_length|]. exists us. split; [done|].
  intros w. exact (build_elem nn es u us w H).
Qed.
Lemma radj_some u : (u < nn)%nat -> exists us, radj !! u = Some us /\ forall w, w ∈ us <-> E w u.
Proof.
  intros L. destruct (lookup_lt_is_Some_2 radj u) as [us H]; [unfold radj; now rewrite build_length|]. exists us. split; [done|].
  intros w. rewrite (build_elem nn _ u us w H). unfold E. change (map swap_edge es) with (swap_edge <$> es). rewrite elem_of_list_fmap. split.
  - intros ([a b] & [= -> ->] & ?). done.
  - intros H1. exists (w, u). done.
Qed.

(** A node outside a set reachable from inside it: the first node outside, and its predecessor. *)
Lemma leave (P : nat -> Prop) (Pd : forall x, P x \/ ~ P x) u v : R u v -> P u -> ~ P v -> exists a b, R u a /\ P a /\ E a b /\ ~ P b /\ R b v.
Proof.
  intros H. apply clos_rt_rt1n in H. induction H as [x|x y z Hxy Hyz IH]; intros Pu Nv; [done|].
  destruct (Pd y) as [Py|Ny].
  - destruct (IH Py Nv) as (a & b & H1 & H2 & H3 & H4 & H5). exists a, b. split; [|done]. eapply rt_trans; [apply rt_step, Hxy|done].
  - exists x, y. split; [apply rt_refl|]. split; [done|]. split; [done|]. split; [done|]. now apply clos_rt1n_rt.
Qed.

(** ** First pass *)
Definition vis (visited : list bool) (x : nat) : Prop := visited !! x = Some true.
Lemma vis_dec visited x : vis visited x \/ ~ vis visited x.
Proof. unfold vis. destruct (visited !! x) as [[]|]; [left|right|right]; done || discriminate. Qed.
Lemma in_dec_nat (l : list nat) x : x ∈ l \/ x ∉ l.
Proof. destruct (decide (x ∈ l)); auto. Qed.

Record good1 (visited : list bool) (order : list nat) : Prop := {
  g_len : length visited = nn;
  g_sub : forall x, x ∈ order -> vis visited x;
  g_nodup : NoDup order;
  g_closed : forall x y, x ∈ order -> E x y -> vis visited y;
  (* a finished node that reaches an unfinished one is equivalent to a started, unfinished one *)
  g_out : forall u v, u ∈ order -> v ∉ order -> R u v -> exists g, vis visited g /\ g ∉ order /\ scc g u;
  (* the same held when each node was finished *)
  g_pre : forall l1 v l2 u, order = l1 ++ v :: l2 -> u ∈ l1 -> R u v -> exists g, vis visited g /\ g ∉ l1 /\ scc g u
}.

Definition unvisited (visited : list bool) : nat := length (List.filter negb visited).
Lemma unvisited_insert visited v : visited !! v = Some false -> (S (unvisited (<[v := true]> visited)) = unvisited visited)%nat.
Proof.
  unfold unvisited. revert v. induction visited as [|b visited IH]; intros [|h] H; cbn in H; try discriminate.
  - injection H as ->. done.
  - change (<[S h := true]> (b :: visited)) with (b :: <[h := true]> visited). cbn [List.filter]. specialize (IH h H). destruct (negb b); cbn [length]; lia.
Qed.
Lemma vis_insert visited v x : (v < length visited)%nat -> vis (<[v := true]> visited) x <-> x = v \/ vis visited x.
Proof.
  intros L. unfold vis. destruct (decide (v = x)) as [->|N].
  - rewrite list_lookup_insert by done. tauto.
  - rewrite list_lookup_insert_ne by done. intuition congruence.
Qed.

Definition post1 (visited visited' : list bool) (order order' : list nat) : Prop :=
  good1 visited' order' /\ (exists new, order' = order ++ new /\ (forall x, vis visited' x <-> vis visited x \/ x ∈ new) /\ forall x, x ∈ new -> ~ vis visited x) /\
  (unvisited visited' <= unvisited visited)%nat.

(** Started and unfinished nodes are the same before and after. *)
Lemma post1_gray visited visited' order order' g : post1 visited visited' order order' -> vis visited' g -> g ∉ order' -> vis visited g /\ g ∉ order.
Proof.
  intros (_ & (new & -> & Hn & Hq) & _) Hg Ho. rewrite elem_of_app in Ho. apply Hn in Hg. tauto.
Qed.

Lemma post1_trans v1 v2 v3 o1 o2 o3 : post1 v1 v2 o1 o2 -> post1 v2 v3 o2 o3 -> post1 v1 v3 o1 o3.
Proof.
  intros (G1 & (n1 & -> & H1 & Q1) & L1) (G2 & (n2 & -> & H2 & Q2) & L2). split; [done|]. split; [|lia].
  exists (n1 ++ n2). split; [now rewrite app_assoc|]. split.
  - intros x. rewrite H2, H1, elem_of_app. tauto.
  - intros x. rewrite elem_of_app. intros [Hx|Hx]; [auto|]. apply Q2 in Hx. rewrite H1 in Hx. tauto.
Qed.

Lemma good1_start visited order v : good1 visited order -> visited !! v = Some false -> good1 (<[v := true]> visited) order.
Proof.
  intros [L Sb Nd Cl Ou Pr] Hv. assert (Lv : (v < length visited)%nat) by now apply lookup_lt_Some in Hv.
  constructor; auto.
  - now rewrite insert_length.
  - intros x Hx. apply vis_insert; auto.
  - intros x y Hx Hy. apply vis_insert; [done|]. right. eauto.
  - intros u w Hu Hw HR. destruct (Ou u w Hu Hw HR) as (g & ? & ? & ?). exists g. split; [apply vis_insert; auto|done].
  - intros l1 x l2 u Ho Hu HR. destruct (Pr l1 x l2 u Ho Hu HR) as (g & ? & ? & ?). exists g. split; [apply vis_insert; auto|done].
Qed.

Lemma good1_finish visited order v : good1 visited order -> vis visited v -> v ∉ order -> (forall y, E v y -> vis visited y) ->
  (forall g, vis visited g -> g ∉ order -> R g v) -> good1 visited (order ++ [v]).
Proof.
  intros [L Sb Nd Cl Ou Pr] Hv No Sv Gr.
  assert (Cl' : forall x y, x ∈ order ++ [v] -> E x y -> vis visited y).
  { intros x y. rewrite elem_of_app, elem_of_list_singleton. intros [Hx| ->]; eauto. }
  assert (Ov : forall w, w ∉ order ++ [v] -> R v w -> exists g, vis visited g /\ g ∉ order ++ [v] /\ scc g v).
  { intros w Hw HR. destruct (leave (fun x => x ∈ order ++ [v]) (in_dec_nat _) v w HR) as (a & b & Ha & Hao & Hab & Hbo & Hbw).
    - apply elem_of_app. right. left.
    - done.
    - exists b. assert (Hb : vis visited b) by eauto. split; [done|]. split; [done|]. split.
      + apply Gr; [done|]. intros H. apply Hbo, elem_of_app. auto.
      + eapply rt_trans; [exact Ha|now apply rt_step]. }
  constructor; auto.
  - intros x. rewrite elem_of_app, elem_of_list_singleton. intros [Hx| ->]; auto.
  - apply NoDup_app. split; [done|]. split; [|apply NoDup_singleton]. intros x Hx Hxv%elem_of_list_singleton. congruence.
  - intros u w. rewrite elem_of_app, elem_of_list_singleton. intros [Hu| ->] Hw HR; [|eauto].
    destruct (Ou u w Hu) as (g & Hg & Hgo & Hs); [intros H; apply Hw, elem_of_app; auto|done|].
    destruct (decide (g = v)) as [->|Ng].
    + destruct (Ov w Hw) as (g' & ? & ? & ?); [eapply rt_trans; [apply Hs|done]|]. exists g'. split; [done|]. split; [done|]. exact (scc_trans _ _ _ H1 Hs).
    + exists g. split; [done|]. split; [|done]. rewrite elem_of_app, elem_of_list_singleton. tauto.
  - intros l1 x l2 u Ho Hu HR. destruct l2 as [|y l2 _] using rev_ind.
    + apply app_inj_tail in Ho as [<- <-]. exact (Ou u v Hu No HR).
    + rewrite app_comm_cons, app_assoc in Ho. apply app_inj_tail in Ho as [-> <-]. exact (Pr l1 x l2 u eq_refl Hu HR).
Qed.

Lemma dfs1_ok : forall depth v visited order, good1 visited order -> visited !! v = Some false -> (unvisited visited < depth)%nat ->
  (forall g, vis visited g -> g ∉ order -> R g v) ->
  exists visited' order', dfs1 depth adj v visited order = Some (visited', order') /\ post1 visited visited' order order' /\ v ∈ order'.
Proof.
  induction depth as [|depth IH]; intros v visited order G Hv Dp Gr; [lia|].
  assert (Lv : (v < nn)%nat) by (rewrite <- (g_len _ _ G); now apply lookup_lt_Some in Hv).
  destruct (adj_some v Lv) as (us & Hus & Eus). cbn [dfs1]. rewrite Hus.
  pose proof (unvisited_insert visited v Hv) as Un.
  assert (Nv : v ∉ order) by (intros H; apply (g_sub _ _ G) in H; unfold vis in H; congruence).
  assert (Go : forall us0 vis0 ord0, (forall u, u ∈ us0 -> E v u) -> post1 (<[v := true]> visited) vis0 order ord0 -> v ∉ ord0 ->
     (forall y, E v y -> vis vis0 y \/ y ∈ us0) ->
     exists visited' order',
       (fix go (us : list nat) (visited : list bool) (order : list nat) :=
             match us with
             | [] => Some (visited, order ++ [v])
             | u :: us =>
                 match visited !! u with
                 | None => None
                 | Some true => go us visited order
                 | Some false =>
                     match dfs1 depth adj u visited order with
                     | None => None
                     | Some (visited, order) => go us visited order
                     end
                 end
             end) us0 vis0 ord0 = Some (visited', order' ++ [v]) /\
       post1 (<[v := true]> visited) visited' order order' /\ v ∉ order' /\ forall y, E v y -> vis visited' y).
  { induction us0 as [|u us0 IHu]; intros vis0 ord0 Hin P0 Nv0 Hall.
    - exists vis0, ord0. split; [done|]. split; [done|]. split; [done|]. intros y Hy. destruct (Hall y Hy) as [?|H]; [done|now apply elem_of_nil in H].
    - assert (Hin' : forall x, x ∈ us0 -> E v x) by (intros x Hx; apply Hin; now right).
      assert (Evu : E v u) by (apply Hin; left). pose proof (es_in _ _ Evu) as [_ Lu].
      pose proof P0 as (G0 & (n0 & -> & Hn0 & Hq0) & L0). pose proof (g_len _ _ G0) as Ln0.
      destruct (lookup_lt_is_Some_2 vis0 u) as [b Hb]; [lia|]. rewrite Hb. destruct b.
      + apply IHu; auto.
        intros y Hy. destruct (Hall y Hy) as [?|[->|?]%elem_of_cons]; auto.
      + destruct (IH u vis0 (order ++ n0) G0 Hb ltac:(lia)) as (vis1 & ord1 & E1 & P1 & U1).
        { intros g Hg Hgo. destruct (post1_gray _ _ _ _ g P0 Hg Hgo) as [Hg1 Hg2]. apply vis_insert in Hg1; [|rewrite (g_len _ _ G); done].
          apply rt_trans with v; [|now apply rt_step]. destruct Hg1 as [->|Hg1]; [apply rt_refl|exact (Gr g Hg1 Hg2)]. }
        rewrite E1. pose proof P1 as (G1 & (n1 & -> & Hn1 & Hq1) & L1). apply IHu; auto.
        * exact (post1_trans _ _ _ _ _ _ P0 P1).
        * intros H. apply elem_of_app in H as [?|H]; [done|]. apply (Hq1 _ H). apply Hn0. left. apply vis_insert; [rewrite (g_len _ _ G); done|auto].
        * intros y Hy. destruct (Hall y Hy) as [?|[->|?]%elem_of_cons]; auto.
          -- left. apply Hn1. auto.
          -- left. now apply (g_sub _ _ G1). }
  destruct (Go us (<[v := true]> visited) order) as (vis1 & ord1 & E1 & P1 & N1 & S1).
  - intros u Hu. now apply Eus.
  - split; [now apply good1_start|]. split; [|done]. exists []. rewrite app_nil_r. split; [done|]. split.
    + intros x. rewrite elem_of_nil. tauto.
    + intros x H. now apply elem_of_nil in H.
  - done.
  - intros y Hy. right. now apply Eus.
  - exists vis1, (ord1 ++ [v]). split; [exact E1|]. pose proof P1 as (G1 & (n1 & -> & Hn1 & Hq1) & L1).
    assert (V1 : vis vis1 v) by (apply Hn1; left; apply vis_insert; [rewrite (g_len _ _ G); done|auto]).
    split; [|apply elem_of_app; right; left]. split; [|split; [|lia]].
    + apply good1_finish; auto. intros g Hg Hgo. destruct (post1_gray _ _ _ _ g P1 Hg Hgo) as [Hg1 Hg2].
      apply vis_insert in Hg1; [|rewrite (g_len _ _ G); done]. destruct Hg1 as [->|Hg1]; [apply rt_refl|exact (Gr g Hg1 Hg2)].
    + exists (n1 ++ [v]). split; [now rewrite app_assoc|]. split.
      * intros x. rewrite Hn1, elem_of_app, elem_of_list_singleton, vis_insert by (rewrite (g_len _ _ G); done). tauto.
      * intros x. rewrite elem_of_app, elem_of_list_singleton. intros [Hx| ->].
        -- specialize (Hq1 x Hx). rewrite vis_insert in Hq1 by (rewrite (g_len _ _ G); done). tauto.
        -- unfold vis. congruence.
Qed.

Lemma unvisited_le visited : (unvisited visited <= length visited)%nat.
Proof. unfold unvisited. induction visited as [|b visited IH]; cbn; [done|]. destruct (negb b); cbn; lia. Qed.

(** Between two searches every started node is finished. *)
Lemma pass1_ok vs : forall visited order, good1 visited order -> (forall x, vis visited x -> x ∈ order) -> (forall x, x ∈ vs -> (x < nn)%nat) ->
  exists visited' order', pass1 nn adj vs visited order = Some (visited', order') /\ good1 visited' order' /\
    (forall x, vis visited' x -> x ∈ order') /\ (forall x, vis visited x \/ x ∈ vs -> vis visited' x).
Proof.
  induction vs as [|v vs IH]; intros visited order G Fin In; cbn [pass1].
  - exists visited, order. split; [done|]. split; [done|]. split; [done|]. intros x [?|H]; [done|now apply elem_of_nil in H].
  - assert (In' : forall x, x ∈ vs -> (x < nn)%nat) by (intros x Hx; apply In; now right).
    assert (Lv : (v < nn)%nat) by (apply In; left).
    destruct (lookup_lt_is_Some_2 visited v) as [b Hb]; [rewrite (g_len _ _ G); done|]. rewrite Hb. destruct b.
    + destruct (IH visited order G Fin In') as (v' & o' & E' & G' & F' & H'). exists v', o'. split; [done|]. split; [done|]. split; [done|].
      intros x [?|[->|?]%elem_of_cons]; auto.
    + destruct (dfs1_ok (S nn) v visited order G Hb) as (v1 & o1 & E1 & P1 & V1).
      { pose proof (unvisited_le visited). rewrite (g_len _ _ G) in *. lia. }
      { intros g Hg Hgo. apply Fin in Hg. done. }
      rewrite E1. pose proof P1 as (G1 & (n1 & -> & Hn1 & _) & _).
      destruct (IH v1 (order ++ n1) G1) as (v' & o' & E' & G' & F' & H').
      { intros x Hx. apply Hn1 in Hx. apply elem_of_app. destruct Hx; auto. }
      { done. }
      exists v', o'. split; [done|]. split; [done|]. split; [done|].
      intros x [Hx|[->|?]%elem_of_cons]; apply H'; auto; left; [apply Hn1; auto|]. now apply (g_sub _ _ G1).
Qed.

(** The finish order of the whole graph. *)
Definition finish_order (order : list nat) : Prop :=
  NoDup order /\ (forall x, x ∈ order <-> (x < nn)%nat) /\
  forall l1 v l2 u, order = l1 ++ v :: l2 -> u ∈ l1 -> R u v -> exists g, g ∈ v :: l2 /\ scc g u.

Lemma pass1_order : exists visited order, pass1 nn adj (seq 0 nn) (replicate nn false) [] = Some (visited, order) /\ finish_order order.
Proof.
  destruct (pass1_ok (seq 0 nn) (replicate nn false) []) as (v & o & E1 & G & F & H).
  - constructor.
    + apply replicate_length.
    + intros x Hx. now apply elem_of_nil in Hx.
    + constructor.
    + intros x y Hx. now apply elem_of_nil in Hx.
    + intros u w Hx. now apply elem_of_nil in Hx.
    + intros [|] ? ? ? Ho; discriminate Ho.
  - intros x Hx. apply lookup_replicate in Hx as [Hx _]. discriminate Hx.
  - intros x Hx. apply elem_of_list_In, in_seq in Hx. lia.
  - exists v, o. split; [done|]. split; [apply G|]. split.
    + intros x. split.
      * intros Hx. apply (g_sub _ _ G) in Hx. rewrite <- (g_len _ _ G). now apply lookup_lt_Some in Hx.
      * intros Hx. apply F, H. right. apply elem_of_list_In, in_seq. lia.
    + intros l1 x l2 u Ho Hu HR. destruct (g_pre _ _ G l1 x l2 u Ho Hu HR) as (g & Hg & Hn & Hs). exists g. split; [|done].
      apply F in Hg. rewrite Ho in Hg. apply elem_of_app in Hg as [?|?]; done.
Qed.

(** ** Second pass *)
Definition asg (comp : list (option nat)) (x : nat) : Prop := exists c, comp !! x = Some (Some c).
Definition unasg (comp : list (option nat)) : nat := length (List.filter (fun o => match o with None => true | Some _ => false end) comp).
Lemma unasg_insert comp v c : comp !! v = Some None -> (S (unasg (<[v := Some c]> comp)) = unasg comp)%nat.
Proof.
  unfold unasg. revert v. induction comp as [|b comp IH]; intros [|h] H; cbn in H; try discriminate.
  - injection H as ->. done.
  - change (<[S h := Some c]> (b :: comp)) with (b :: <[h := Some c]> comp). cbn [List.filter]. specialize (IH h H). destruct b; cbn [length]; lia.
Qed.
Lemma unasg_le comp : (unasg comp <= length comp)%nat.
Proof. unfold unasg. induction comp as [|[] comp IH]; cbn; lia. Qed.

(** [post2 comp comp' c S]: exactly the nodes of [S] were newly given component [c]. *)
Definition post2 (comp comp' : list (option nat)) (c : nat) (S : list nat) : Prop :=
  length comp' = length comp /\ (unasg comp' <= unasg comp)%nat /\ (forall x, x ∈ S -> comp !! x = Some None /\ comp' !! x = Some (Some c)) /\
  (forall x, x ∉ S -> comp' !! x = comp !! x).

Lemma post2_trans c1 c2 c3 c S1 S2 : post2 c1 c2 c S1 -> post2 c2 c3 c S2 -> post2 c1 c3 c (S1 ++ S2).
Proof.
  intros (L1 & U1 & A1 & B1) (L2 & U2 & A2 & B2). split; [lia|]. split; [lia|]. split.
  - intros x. rewrite elem_of_app. intros Hx. destruct (in_dec_nat S2 x) as [H2|H2].
    + destruct (A2 x H2) as [Ha Hb]. split; [|done]. destruct (in_dec_nat S1 x) as [H1|H1].
      * destruct (A1 x H1). congruence.
      * now rewrite <- B1.
    + destruct Hx as [H1|?]; [|done]. destruct (A1 x H1). rewrite B2 by done. done.
  - intros x. rewrite elem_of_app. intros Hx. rewrite B2, B1 by tauto. done.
Qed.
Lemma post2_asg comp comp' c S x : post2 comp comp' c S -> asg comp' x <-> asg comp x \/ x ∈ S.
Proof.
  intros (L & U & A & B). unfold asg. destruct (in_dec_nat S x) as [H|H].
  - destruct (A x H) as [_ ->]. split; [auto|]. intros _. eauto.
  - rewrite B by done. tauto.
Qed.

Lemma dfs2_ok : forall depth v comp c, length comp = nn -> comp !! v = Some None -> (unasg comp < depth)%nat ->
  exists comp' S, dfs2 depth radj v comp c = Some comp' /\ post2 comp comp' c S /\ v ∈ S /\
    (forall x, x ∈ S -> R x v) /\ (forall x y, x ∈ S -> E y x -> asg comp' y).
Proof.
  induction depth as [|depth IH]; intros v comp c L Hv Dp; [lia|].
  assert (Lv : (v < nn)%nat) by (rewrite <- L; now apply lookup_lt_Some in Hv).
  destruct (radj_some v Lv) as (us & Hus & Eus). cbn [dfs2]. rewrite Hus. pose proof (unasg_insert comp v c Hv) as Un.
  assert (Go : forall us0 comp0 S0, (forall u, u ∈ us0 -> E u v) -> post2 comp comp0 c S0 -> v ∈ S0 -> (unasg comp0 < depth)%nat ->
     (forall x, x ∈ S0 -> R x v) -> (forall x y, x ∈ S0 -> x <> v -> E y x -> asg comp0 y) -> (forall y, E y v -> asg comp0 y \/ y ∈ us0) ->
     exists comp' S,
       (fix go (us : list nat) (comp : list (option nat)) :=
             match us with
             | [] => Some comp
             | u :: us =>
                 match comp !! u with
                 | None => None
                 | Some (Some _) => go us comp
                 | Some None =>
                     match dfs2 depth radj u comp c with
                     | None => None
                     | Some comp => go us comp
                     end
                 end
             end) us0 comp0 = Some comp' /\ post2 comp comp' c S /\ v ∈ S /\
       (forall x, x ∈ S -> R x v) /\ (forall x y, x ∈ S -> E y x -> asg comp' y)).
  { induction us0 as [|u us0 IHu]; intros comp0 S0 Hin P0 V0 D0 R0 C0 Hall.
    - exists comp0, S0. split; [done|]. split; [done|]. split; [done|]. split; [done|]. intros x y Hx Hy.
      destruct (decide (x = v)) as [->|N]; [|eauto]. destruct (Hall y Hy) as [?|H]; [done|now apply elem_of_nil in H].
    - assert (Hin' : forall x, x ∈ us0 -> E x v) by (intros x Hx; apply Hin; now right).
      assert (Euv : E u v) by (apply Hin; left). pose proof (es_in _ _ Euv) as [Lu _]. pose proof P0 as (L0 & U0 & A0 & B0).
      destruct (lookup_lt_is_Some_2 comp0 u) as [b Hb]; [lia|]. rewrite Hb. destruct b as [cu|].
      + apply (IHu comp0 S0); auto. intros y Hy. destruct (Hall y Hy) as [?|[->|?]%elem_of_cons]; auto. left. exists cu. done.
      + destruct (IH u comp0 c ltac:(lia) Hb D0) as (comp1 & S1 & E1 & P1 & V1 & R1 & C1). rewrite E1.
        pose proof P1 as (L1 & U1 & A1 & B1).
        apply (IHu comp1 (S0 ++ S1)); auto.
        * exact (post2_trans _ _ _ _ _ _ P0 P1).
        * apply elem_of_app. auto.
        * lia.
        * intros x. rewrite elem_of_app. intros [?|Hx]; [auto|]. apply rt_trans with u; [exact (R1 x Hx)|now apply rt_step].
        * intros x y. rewrite elem_of_app. intros [Hx|Hx] Nx Hy; [|eauto]. apply (post2_asg _ _ _ _ y P1). left. eauto.
        * intros y Hy. destruct (Hall y Hy) as [?|[->|?]%elem_of_cons]; auto.
          -- left. apply (post2_asg _ _ _ _ y P1). auto.
          -- left. apply (post2_asg _ _ _ _ u P1). auto. }
  apply (Go us (<[v := Some c]> comp) [v]).
  - intros u Hu. now apply Eus.
  - split; [apply insert_length|]. split; [lia|]. split.
    + intros x ->%elem_of_list_singleton. split; [done|]. apply list_lookup_insert. lia.
    + intros x. rewrite elem_of_list_singleton. intros N. rewrite list_lookup_insert_ne by congruence; done.
  - left.
  - lia.
  - intros x ->%elem_of_list_singleton. apply rt_refl.
  - intros x y ->%elem_of_list_singleton N. done.
  - intros y Hy. right. now apply Eus.
Qed.

Definition pred_closed (comp : list (option nat)) : Prop := forall x y, asg comp x -> E y x -> asg comp y.
Lemma pred_closed_R comp x y : pred_closed comp -> R y x -> asg comp x -> asg comp y.
Proof. intros P H. apply clos_rt_rt1n in H. induction H as [z|a b z Hab Hbz IH]; [done|]. intros Hz. exact (P b a (IH Hz) Hab). Qed.
(** Edges never lead to a smaller component number. *)
Definition comp_mono (comp : list (option nat)) : Prop := forall x y cx cy, E x y -> comp !! x = Some (Some cx) -> comp !! y = Some (Some cy) -> (cx <= cy)%nat.
Definition comp_scc (comp : list (option nat)) : Prop := forall x y c, comp !! x = Some (Some c) -> comp !! y = Some (Some c) -> scc x y.

(** [rest] are the nodes still to process (latest finished first); the nodes already processed
    are [done], in finish order after them. *)
Lemma pass2_ok order : finish_order order -> forall rest done_ comp c, order = rev rest ++ done_ -> length comp = nn ->
  (forall x, x ∈ done_ -> asg comp x) -> (forall x, asg comp x -> exists w, w ∈ done_ /\ scc w x) ->
  pred_closed comp -> comp_mono comp -> comp_scc comp -> (forall x k, comp !! x = Some (Some k) -> (k < c)%nat) ->
  exists comp', pass2 nn radj rest comp c = Some comp' /\ length comp' = nn /\ (forall x, (x < nn)%nat -> asg comp' x) /\ comp_mono comp' /\ comp_scc comp'.
Proof.
  intros (Nd & Dom & Fin). induction rest as [|v rest IH]; intros dn comp c Ho L Ad Ac Pc Mo Sc Bc; cbn [pass2].
  - cbn in Ho. subst dn. exists comp. split; [done|]. split; [done|]. split; [|done]. intros x Hx. apply Ad. now apply Dom.
  - cbn [rev] in Ho. rewrite <- app_assoc in Ho. cbn in Ho.
    assert (Lv : (v < nn)%nat) by (apply Dom; rewrite Ho; apply elem_of_app; right; left).
    destruct (lookup_lt_is_Some_2 comp v) as [b Hb]; [lia|]. rewrite Hb. destruct b as [cv|].
    + apply (IH (v :: dn)); auto.
      * intros x [->|?]%elem_of_cons; [now exists cv|auto].
      * intros x Hx. destruct (Ac x Hx) as (w & ? & ?). exists w. split; [now right|done].
    + destruct (dfs2_ok (S nn) v comp c L Hb) as (comp1 & S & E1 & P1 & V1 & R1 & C1).
      { pose proof (unasg_le comp). lia. }
      rewrite E1. pose proof P1 as (L1 & U1 & A1 & B1). pose proof (fun x => post2_asg _ _ _ _ x P1) as As.
      assert (Nv : ~ asg comp v) by (intros [? ?]; congruence).
      assert (Pc1 : pred_closed comp1).
      { intros x y Hx Hy. apply As in Hx as [Hx|Hx]; [|eauto]. apply As. left. exact (Pc x y Hx Hy). }
      (* the new component is the class of v *)
      assert (Sv : forall x, x ∈ S -> scc x v).
      { intros x Hx. specialize (R1 x Hx) as Rx. destruct (A1 x Hx) as [Hxn Hx1].
        assert (Lx : (x < nn)%nat) by (rewrite <- L; now apply lookup_lt_Some in Hxn).
        apply Dom in Lx. rewrite Ho in Lx. apply elem_of_app in Lx as [Lx|Lx].
        - destruct (Fin (rev rest) v dn x Ho Lx Rx) as (g & Hg & Hs). apply elem_of_cons in Hg as [->|Hg]; [now apply scc_sym|].
          exfalso. assert (Ax : asg comp x) by (apply (pred_closed_R comp g x Pc); [apply Hs|auto]). destruct Ax as [? ?]. congruence.
        - apply elem_of_cons in Lx as [->|Lx]; [apply scc_refl|]. exfalso. destruct (Ad x Lx) as [? ?]. congruence. }
      apply (IH (v :: dn)); auto.
      * lia.
      * intros x [->|Hx]%elem_of_cons; apply As; auto.
      * intros x Hx. apply As in Hx as [Hx|Hx].
        -- destruct (Ac x Hx) as (w & ? & ?). exists w. split; [now right|done].
        -- exists v. split; [left|]. apply scc_sym. auto.
      * intros x y cx cy Hxy Hx Hy. destruct (in_dec_nat S x) as [Sx|Sx], (in_dec_nat S y) as [Sy|Sy].
        -- destruct (A1 x Sx), (A1 y Sy). assert (cx = c) by congruence. assert (cy = c) by congruence. lia.
        -- exfalso. rewrite B1 in Hy by done. assert (asg comp x) as [? Hc] by (apply (Pc y); [exists cy; done|done]). destruct (A1 x Sx). congruence.
        -- destruct (A1 y Sy). rewrite B1 in Hx by done. apply Bc in Hx. assert (cy = c) by congruence. lia.
        -- rewrite B1 in Hx, Hy by done. exact (Mo x y cx cy Hxy Hx Hy).
      * intros x y k Hx Hy. destruct (in_dec_nat S x) as [Sx|Sx], (in_dec_nat S y) as [Sy|Sy].
        -- exact (scc_trans _ _ _ (Sv x Sx) (scc_sym _ _ (Sv y Sy))).
        -- rewrite B1 in Hy by done. apply Bc in Hy. destruct (A1 x Sx). assert (k = c) by congruence. lia.
        -- rewrite B1 in Hx by done. apply Bc in Hx. destruct (A1 y Sy). assert (k = c) by congruence. lia.
        -- rewrite B1 in Hx, Hy by done. exact (Sc x y k Hx Hy).
      * intros x k Hx. destruct (in_dec_nat S x) as [Sx|Sx].
        -- destruct (A1 x Sx). assert (k = c) by congruence. lia.
        -- rewrite B1 in Hx by done. apply Bc in Hx. lia.
Qed.

Lemma components_ok : exists comp, components nn es = Some comp /\ length comp = nn /\ (forall x, (x < nn)%nat -> asg comp x) /\ comp_mono comp /\ comp_scc comp.
Proof.
  unfold components. destruct pass1_order as (v & o & E1 & F). fold adj. rewrite E1. fold radj.
  assert (Z : forall x k, replicate nn (@None nat) !! x = Some (Some k) -> False).
  { intros x k H. apply lookup_replicate in H as [H _]. discriminate H. }
  apply (pass2_ok o F (rev o) []).
  - rewrite rev_involutive. now rewrite app_nil_r.
  - apply replicate_length.
  - intros x H. now apply elem_of_nil in H.
  - intros x [k H]. now apply Z in H.
  - intros x y [k H]. now apply Z in H.
  - intros x y cx cy _ H. now apply Z in H.
  - intros x y k H. now apply Z in H.
  - intros x k H. now apply Z in H.
Qed.

(** ** Reachability search *)
Lemma push_new_ok ws : forall seen stack, length seen = nn -> (forall w, w ∈ ws -> (w < nn)%nat) ->
  exists seen' new, push_new ws seen stack = Some (seen', new ++ stack) /\ length seen' = nn /\
    (forall x, vis seen' x <-> vis seen x \/ x ∈ new) /\ (forall x, x ∈ new -> x ∈ ws) /\ (forall w, w ∈ ws -> vis seen' w) /\
    (unvisited seen' + length new = unvisited seen)%nat.
Proof.
  induction ws as [|w ws IH]; intros seen stack L In; cbn [push_new].
  - exists seen, []. split; [done|]. split; [done|]. split; [intros x; rewrite elem_of_nil; tauto|]. split; [done|]. split; [|cbn; lia]. intros w H. now apply elem_of_nil in H.
  - assert (In' : forall x, x ∈ ws -> (x < nn)%nat) by (intros x Hx; apply In; now right).
    assert (Lw : (w < nn)%nat) by (apply In; left). destruct (lookup_lt_is_Some_2 seen w) as [b Hb]; [lia|]. rewrite Hb. destruct b.
    + destruct (IH seen stack L In') as (s' & new & E1 & L1 & H1 & H2 & H3 & H4). exists s', new. split; [done|]. split; [done|]. split; [done|]. split.
      * intros x Hx. right. auto.
      * split; [|done]. intros x [->|?]%elem_of_cons; [|auto]. apply H1. now left.
    + destruct (IH (<[w := true]> seen) (w :: stack)) as (s' & new & E1 & L1 & H1 & H2 & H3 & H4); [now rewrite insert_length|done|].
      pose proof (unvisited_insert seen w Hb) as Un.
      exists s', (new ++ [w]). rewrite E1. split; [now rewrite <- app_assoc|]. split; [done|].
      split; [|split; [|split]].
      * intros x. rewrite H1, vis_insert, elem_of_app, elem_of_list_singleton by lia. tauto.
      * intros x. rewrite elem_of_app, elem_of_list_singleton. intros [?| ->]; [right; auto|left].
      * intros x [->|?]%elem_of_cons; [|auto]. apply H1. left. apply vis_insert; [lia|auto].
      * rewrite app_length. cbn. lia.
Qed.

Lemma reach_loop_ok from to : forall steps seen stack, length seen = nn -> (unvisited seen + length stack < steps)%nat ->
  (forall x, vis seen x -> R from x) -> (forall x, x ∈ stack -> vis seen x) -> vis seen from ->
  (forall x, vis seen x -> x ∈ stack \/ (x <> to /\ forall y, E x y -> vis seen y)) ->
  exists b, reach_loop steps adj to seen stack = Some b /\ (b = true <-> R from to).
Proof.
  induction steps as [|steps IH]; intros seen stack L D Rs Ss Sf Cl; [lia|]. cbn [reach_loop]. destruct stack as [|u stack].
  - exists false. split; [done|]. split; [discriminate|]. intros HR. exfalso.
    assert (V : vis seen to).
    { assert (Cl' : forall x y, vis seen x -> E x y -> vis seen y) by (intros x y Hx Hy; destruct (Cl x Hx) as [H|[_ H]]; [now apply elem_of_nil in H|auto]).
      clear -HR Sf Cl'. apply clos_rt_rtn1 in HR. induction HR as [|y z Hyz Hy IHy]; [done|]. exact (Cl' y z IHy Hyz). }
    destruct (Cl to V) as [H|[H _]]; [now apply elem_of_nil in H|done].
  - assert (Vu : vis seen u) by (apply Ss; left). destruct (Nat.eqb_spec u to) as [->|N].
    + exists true. split; [done|]. split; [|done]. intros _. auto.
    + assert (Lu : (u < nn)%nat) by (rewrite <- L; now apply lookup_lt_Some in Vu).
      destruct (adj_some u Lu) as (ws & Hws & Ews). rewrite Hws.
      destruct (push_new_ok ws seen stack L) as (s' & new & E1 & L1 & H1 & H2 & H3 & H4).
      { intros w Hw. apply Ews in Hw. now apply es_in in Hw. }
      rewrite E1. cbn [length] in D. apply IH; auto.
      * rewrite app_length. lia.
      * intros x Hx. apply H1 in Hx as [Hx|Hx]; [auto|]. apply rt_trans with u; [exact (Rs u Vu)|]. apply rt_step, Ews. auto.
      * intros x Hx. apply H1. apply elem_of_app in Hx as [?|?]; [auto|]. left. apply Ss. now right.
      * apply H1. auto.
      * intros x Hx. apply H1 in Hx as [Hx|Hx].
        -- destruct (Cl x Hx) as [[->|Hst]%elem_of_cons|[Nx Hs]].
           ++ right. split; [done|]. intros y Hy. apply H3, Ews, Hy.
           ++ left. apply elem_of_app. auto.
           ++ right. split; [done|]. intros y Hy. apply H1. auto.
        -- left. apply elem_of_app. auto.
Qed.

Lemma unvisited_replicate n : unvisited (replicate n false) = n.
Proof. unfold unvisited. clear. induction n as [|n IH]; cbn; [done|]. now rewrite IH. Qed.

Lemma reaches_ok from to : (from < nn)%nat -> exists b, reaches nn adj from to = Some b /\ (b = true <-> R from to).
Proof.
  intros L. unfold reaches.
  assert (F : replicate nn false !! from = Some false) by (apply lookup_replicate; done).
  pose proof (unvisited_insert _ _ F) as Un. rewrite unvisited_replicate in Un.
  assert (Vi : forall x, vis (<[from := true]> (replicate nn false)) x <-> x = from).
  { intros x. rewrite vis_insert by (rewrite replicate_length; done). split; [|auto]. intros [?|H]; [done|]. apply lookup_replicate in H as [H _]. discriminate H. }
  destruct (reach_loop_ok from to (S nn) (<[from := true]> (replicate nn false)) [from]) as (b & E1 & Hb).
  - now rewrite insert_length, replicate_length.
  - cbn [length]. lia.
  - intros x ->%Vi. apply rt_refl.
  - intros x ->%elem_of_list_singleton. now apply Vi.
  - now apply Vi.
  - intros x ->%Vi. left. left.
  - rewrite E1. destruct b; [exists true; done|]. exists (Nat.eqb from to). split; [done|]. rewrite Nat.eqb_eq. split.
    + intros ->. apply rt_refl.
    + intros H. apply Hb in H. discriminate H.
Qed.
End graph.
