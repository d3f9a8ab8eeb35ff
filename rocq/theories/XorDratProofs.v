(** Proofs about the elimination of XorDratModel. *)
From Coq Require Import List Bool Arith Lia Sorting.Sorted Sorting.Permutation.
From stdpp Require Import base sets list numbers.
From Verif Require Import RupModel RupProofs IvModel IvProofs XorDratModel.
Open Scope nat_scope.

Definition same (c d : clause) : Prop := forall l, l ∈ c <-> l ∈ d.
(** No literal together with its negation. *)
Definition clear (c : clause) : Prop := forall l, l ∈ c -> negated l ∈ c -> False.
Lemma neg_neg l : negated (negated l) = l.
Proof. destruct l as [v p]. unfold negated. cbn. by rewrite negb_involutive. Qed.

Lemma dedup_elem {A} `{EqDecision A} (l : list A) x : x ∈ dedup l <-> x ∈ l.
Proof.
  induction l as [|y [|z l] IH]; [done..|]. cbn [dedup]. cbn [dedup] in IH. destruct (decide (y = z)) as [->|N].
  - rewrite IH. set_solver.
  - rewrite !elem_of_cons, IH, !elem_of_cons. done.
Qed.
Lemma sort_elem {A} (le : A -> A -> bool) l x : x ∈ sort_by le l <-> x ∈ l.
Proof. by rewrite (sort_perm le l). Qed.
Lemma code_inj l k : code l = code k -> l = k.
Proof. destruct l as [v p], k as [w q]. unfold code. cbn. destruct p, q; intros H; f_equal; lia. Qed.
Lemma key_elem c l : code l ∈ key c <-> l ∈ c.
Proof.
  unfold key. rewrite dedup_elem, sort_elem, elem_of_list_In, List.in_map_iff. split.
  - intros (k & E & I). apply code_inj in E as ->. by apply elem_of_list_In.
  - intros I. exists l. by rewrite <- elem_of_list_In.
Qed.
Lemma key_same c d : key c = key d -> same c d.
Proof. intros E l. by rewrite <- !key_elem, E. Qed.
Lemma tidy_same c : same (tidy c) c.
Proof. intros l. unfold tidy. by rewrite dedup_elem, sort_elem. Qed.

Lemma find_var {v c} : match List.find (fun l => lvar l =? v) c with Some l => l ∈ c /\ lvar l = v | None => forall l, l ∈ c -> lvar l <> v end.
Proof.
  induction c as [|k c IH]; cbn; [intros l H; by apply elem_of_nil in H|]. destruct (Nat.eqb_spec (lvar k) v) as [E|N]; [split; [left|done]|].
  destruct (List.find _ c) as [l|]; [destruct IH; split; [by right|done]|]. intros l [->|H]%elem_of_cons; auto.
Qed.
Lemma two_lits l k : lvar l = lvar k -> k = l \/ k = negated l.
Proof. destruct l as [v p], k as [w q]. cbn. intros ->. unfold negated. cbn. destruct p, q; auto. Qed.
Definition once (seen : list lit) : Prop := forall l k, l ∈ seen -> k ∈ seen -> lvar l = lvar k -> l = k.
Lemma merge_spec v ls : forall seen, once seen -> (forall l, l ∈ seen -> lvar l <> v) ->
  match merge v seen ls with
  | Some out => once out /\ forall l, l ∈ out <-> l ∈ seen \/ (l ∈ ls /\ lvar l <> v)
  | None => exists l, (l ∈ seen \/ l ∈ ls) /\ negated l ∈ ls /\ lvar l <> v
  end.
Proof.
  induction ls as [|l ls IH]; intros seen O V; cbn [merge].
  { split; [done|]. intros l. rewrite elem_of_nil. tauto. }
  destruct (Nat.eqb_spec (lvar l) v) as [E|N].
  - specialize (IH seen O V). destruct (merge v seen ls) as [out|].
    + destruct IH as [I1 I2]. split; [done|]. intros k. rewrite I2, elem_of_cons. split; [tauto|]. intros [?|[[->|?] ?]]; [tauto|done|tauto].
    + destruct IH as (k & A & B & C). exists k. rewrite !elem_of_cons. tauto.
  - pose proof (@find_var (lvar l) seen) as F. destruct (List.find _ seen) as [k|].
    + destruct F as [F1 F2]. destruct (Bool.eqb (lpos k) (lpos l)) eqn:P.
      * apply eqb_prop in P. assert (k = l) as -> by (destruct k, l; cbn in *; congruence).
        specialize (IH seen O V). destruct (merge v seen ls) as [out|].
        -- destruct IH as [I1 I2]. split; [done|]. intros k. rewrite I2, elem_of_cons. split; [tauto|]. intros [?|[[->|?] ?]]; tauto.
        -- destruct IH as (k & A & B & C). exists k. rewrite !elem_of_cons. tauto.
      * apply eqb_false_iff in P. destruct (two_lits k l F2) as [->| ->]; [done|]. exists k. split; [by left|]. split; [left|auto].
    + specialize (IH (seen ++ [l])). destruct (merge v (seen ++ [l]) ls) as [out|].
      * destruct IH as [I1 I2].
        -- intros a b A B E. apply elem_of_app in A, B. rewrite elem_of_list_singleton in A, B. destruct A as [A| ->], B as [B| ->]; auto; exfalso; [apply (F a A); done|apply (F b B); done].
        -- intros k K. apply elem_of_app in K as [K|K%elem_of_list_singleton]; [auto|by subst].
        -- split; [done|]. intros k. rewrite I2, elem_of_app, elem_of_list_singleton, elem_of_cons. split; [|tauto]. intros [[?| ->]|[? ?]]; tauto.
      * destruct IH as (k & A & B & C).
        -- intros a b A B E. apply elem_of_app in A, B. rewrite elem_of_list_singleton in A, B. destruct A as [A| ->], B as [B| ->]; auto; exfalso; [apply (F a A); done|apply (F b B); done].
        -- intros k K. apply elem_of_app in K as [K|K%elem_of_list_singleton]; [auto|by subst].
        -- exists k. rewrite elem_of_app, elem_of_list_singleton in A. rewrite !elem_of_cons. tauto.
Qed.
Lemma resolve_spec a b v : match resolve a b v with
  | Some r => clear r /\ forall l, l ∈ r <-> (l ∈ a \/ l ∈ b) /\ lvar l <> v
  | None => exists l, l ∈ a ++ b /\ negated l ∈ a ++ b /\ lvar l <> v
  end.
Proof.
  unfold resolve. pose proof (merge_spec v (a ++ b) []) as H. destruct (merge v [] (a ++ b)) as [out|]; cbn.
  - destruct H as [O H]; [intros l k I; by apply elem_of_nil in I|intros l I; by apply elem_of_nil in I|]. split.
    + intros l I J. apply sort_elem in I, J. specialize (O _ _ I J eq_refl). destruct l as [w p]. unfold negated in O. cbn in O. injection O. destruct p; done.
    + intros l. rewrite sort_elem, H, elem_of_nil, elem_of_app. tauto.
  - destruct H as (l & A & B & C); [intros l k I; by apply elem_of_nil in I|intros l I; by apply elem_of_nil in I|].
    exists l. rewrite elem_of_nil in A. tauto.
Qed.

Lemma derived_mono db db' start l : (forall c, c ∈ db -> c ∈ db') -> derived db start l -> derived db' start l.
Proof. intros S H. induction H as [l Hl|c l Hc Hl Hk IH]; [by apply d_start|]. eapply d_unit; eauto. Qed.
Lemma contradiction_mono db db' start : (forall c, c ∈ db -> c ∈ db') -> contradiction db start -> contradiction db' start.
Proof.
  intros S [(c & Hc & H)|(l & H1 & H2)].
  - left. exists c. split; [auto|]. intros l I. eapply derived_mono; eauto.
  - right. exists l. split; eapply derived_mono; eauto.
Qed.
Lemma resolvent_rup db cp cn v r d d' : clear cp -> clear cn -> Lit v true ∈ cp -> Lit v false ∈ cn -> d ∈ db -> same d cp -> d' ∈ db -> same d' cn ->
  (forall l, (l ∈ cp \/ l ∈ cn) -> lvar l <> v -> l ∈ r) -> contradiction db (neg_of r).
Proof.
  intros Cp Cn P N D1 S1 D2 S2 R. left. exists d'. split; [done|]. intros l I. apply S2 in I.
  destruct (decide (lvar l = v)) as [E|Ne].
  - destruct (two_lits (Lit v false) l) as [->| ->]; [done| |exfalso; by apply (Cn (Lit v false))].
    eapply (d_unit _ _ d); [done|by apply S1|]. intros k K Nk. apply S1 in K. apply d_start. unfold neg_of. rewrite neg_neg. apply R; [by left|].
    intros E'. destruct (two_lits (Lit v true) k) as [->| ->]; [done|done|]. by apply (Cp (Lit v true)).
  - apply d_start. unfold neg_of. rewrite neg_neg. apply R; [by right|done].
Qed.

Lemma in_pos_spec v c : clear c -> in_pos v c = true -> Lit v true ∈ c.
Proof. intros C. unfold in_pos, mention. pose proof (@find_var v c) as F. destruct (List.find _ c) as [[w p]|]; [|done]. destruct F as [F <-]. cbn. by intros ->. Qed.
Lemma in_neg_spec v c : clear c -> in_neg v c = true -> Lit v false ∈ c.
Proof. intros C. unfold in_neg, mention. pose proof (@find_var v c) as F. destruct (List.find _ c) as [[w p]|]; [|done]. destruct F as [F <-]. cbn. intros ->%negb_true_iff. done. Qed.
Lemma in_none_spec v c : in_none v c = true <-> forall l, l ∈ c -> lvar l <> v.
Proof.
  unfold in_none, mention. pose proof (@find_var v c) as F. destruct (List.find _ c) as [l|]; [|done]. destruct F as [F1 F2].
  split; [done|]. intros H. by apply H in F1.
Qed.
Lemma trichotomy v c : in_pos v c = true \/ in_neg v c = true \/ in_none v c = true.
Proof. unfold in_pos, in_neg, in_none. destruct (mention v c) as [l|]; [destruct (lpos l)|]; auto. Qed.

(** Variables left. *)
Lemma dedup_nodup l : StronglySorted (fun a b => (a <=? b) = true) l -> List.NoDup (dedup l).
Proof.
  induction l as [|x [|y l] IH]; cbn [dedup]; intros S; [apply List.NoDup_nil|apply List.NoDup_cons; [easy|apply List.NoDup_nil]|].
  apply StronglySorted_inv in S as [S F]. specialize (IH S). cbn [dedup] in IH. destruct (decide (x = y)) as [->|N]; [done|].
  constructor; [|done]. intros I. apply elem_of_list_In in I. change (x ∈ dedup (y :: l)) in I. rewrite dedup_elem in I. apply List.Forall_cons_iff in F as [F1 F2]. apply Nat.leb_le in F1.
  apply elem_of_cons in I as [->|I]; [done|]. apply StronglySorted_inv in S as [_ F3]. apply List.Forall_forall with (x := x) in F3; [|by apply elem_of_list_In]. apply Nat.leb_le in F3. lia.
Qed.
Lemma vars_nodup cs : List.NoDup (vars_of cs).
Proof. apply dedup_nodup, sort_sorted; intros *; rewrite ?Nat.leb_le, ?Nat.leb_gt; lia. Qed.
Lemma vars_elem cs v : v ∈ vars_of cs <-> exists c l, c ∈ cs /\ l ∈ c /\ lvar l = v.
Proof.
  unfold vars_of. rewrite dedup_elem, sort_elem, elem_of_list_In, List.in_map_iff. split.
  - intros (l & E & I). apply List.in_concat in I as (c & A & B). exists c, l. rewrite !elem_of_list_In. done.
  - intros (c & l & A & B & E). exists l. split; [done|]. apply List.in_concat. exists c. rewrite <- !elem_of_list_In. done.
Qed.
Lemma min_by_elem f vs : forall b, min_by f b vs ∈ b :: vs.
Proof.
  induction vs as [|v vs IH]; intros b; cbn [min_by]; [left|]. specialize (IH (if f v <? f b then v else b)).
  apply elem_of_cons in IH as [->|I]; [|right; by right]. destruct (f v <? f b); [right; left|left].
Qed.

Section Refute.
Variable support : list clause.
Definition known_var (v : nat) : Prop := exists d k, d ∈ support /\ k ∈ d /\ lvar k = v.
Definition rup_list (em : list clause) : Prop := forall l1 c l2, em = l1 ++ c :: l2 -> contradiction (support ++ l1) (neg_of c).
Lemma rup_snoc em c : rup_list em -> contradiction (support ++ em) (neg_of c) -> rup_list (em ++ [c]).
Proof.
  intros R C l1 d l2 E. destruct l2 as [|x l2 _] using rev_ind.
  - apply app_inj_tail in E as [<- <-]. done.
  - rewrite app_comm_cons, app_assoc in E. apply app_inj_tail in E as [E _]. eapply R. exact E.
Qed.
(** The clauses [cs] in use, the variables [gone] being eliminated. *)
Record good (gone : list nat) (present : list (list nat)) (cs em : list clause) : Prop := {
  g_clear : forall c, c ∈ cs -> clear c;
  g_nonempty : forall c, c ∈ cs -> c <> [];
  g_gone : forall c l, c ∈ cs -> l ∈ c -> lvar l ∉ gone;
  g_from : forall c, c ∈ cs -> exists d, d ∈ support ++ em /\ same d c;
  g_present : forall r, key r ∈ present -> (forall l, l ∈ r -> lvar l ∉ gone) -> exists c, c ∈ cs /\ same c r;
  g_rup : rup_list em;
  g_vars : forall c l, c ∈ support ++ em -> l ∈ c -> known_var (lvar l) }.
Definition pair_ok (v : nat) (em : list clause) (gone : list nat) (pr : clause * clause) : Prop :=
  clear pr.1 /\ clear pr.2 /\ in_pos v pr.1 = true /\ in_neg v pr.2 = true /\
  (exists d, d ∈ support ++ em /\ same d pr.1) /\ (exists d, d ∈ support ++ em /\ same d pr.2) /\ (forall l, l ∈ pr.1 \/ l ∈ pr.2 -> lvar l ∉ gone).
Lemma pair_ok_mono v em r gone pr : pair_ok v em gone pr -> pair_ok v (em ++ [r]) gone pr.
Proof.
  intros (A & B & C & D & (d & E1 & E2) & (d' & F1 & F2) & G). unfold pair_ok. split_and!; auto; [exists d|exists d']; (split; [|done]); rewrite app_assoc; set_solver.
Qed.
Lemma pair_rup v em gone cp cn r : pair_ok v em gone (cp, cn) -> resolve cp cn v = Some r -> contradiction (support ++ em) (neg_of r).
Proof.
  intros (A & B & C & D & (d & E1 & E2) & (d' & F1 & F2) & G) R. cbn in *. pose proof (resolve_spec cp cn v) as S. rewrite R in S. destruct S as [_ S].
  eapply (resolvent_rup _ cp cn v r d d'); eauto using in_pos_spec, in_neg_spec. intros l I N. by apply S.
Qed.
(** What a round yields. *)
Definition round_ok (gone : list nat) (v : nat) (pairs : list (clause * clause)) (next : list clause) (res : round) : Prop :=
  match res with
  | Found em => rup_list em /\ (exists em0, em = em0 ++ [[]]) /\ (forall c l, c ∈ em -> l ∈ c -> known_var (lvar l))
  | Blown => True
  | Round present em next' _ => good (v :: gone) present next' em /\ (forall c, c ∈ next -> c ∈ next') /\
      (forall cp cn, (cp, cn) ∈ pairs -> match resolve cp cn v with None => True | Some r => exists c, c ∈ next' /\ same c r end) /\
      (forall c, c ∈ next' -> c ∈ next \/ exists cp cn, (cp, cn) ∈ pairs /\ forall l, l ∈ c -> l ∈ cp \/ l ∈ cn)
  end.
Lemma resolve_all_ok budget max_work v gone pairs : forall present em next work,
  good (v :: gone) present next em -> (forall pr, pr ∈ pairs -> pair_ok v em gone pr) ->
  round_ok gone v pairs next (resolve_all budget max_work v pairs present em next work).
Proof.
  induction pairs as [|[cp cn] pairs IH]; intros present em next work G P; cbn [resolve_all].
  { cbn. split_and!; auto. intros cp cn I. by apply elem_of_nil in I. }
  destruct (max_work <? S work); [done|].
  pose proof (P (cp, cn) ltac:(left)) as P0.
  assert (forall pr, pr ∈ pairs -> pair_ok v em gone pr) as P1 by (intros pr I; apply P; by right).
  pose proof (resolve_spec cp cn v) as S. destruct (resolve cp cn v) as [r|] eqn:R.
  2: { specialize (IH present em next (Datatypes.S work) G P1). destruct (resolve_all _ _ _ _ _ _ _ _) as [em'| |present' em' next' work']; cbn in *; auto.
       destruct IH as (A & B & C & D). split_and!; auto.
       - intros a b [[= -> ->]|I]%elem_of_cons; [by rewrite R|exact (C _ _ I)].
       - intros c I. destruct (D c I) as [?|(a & b & J & K)]; [auto|]. right. exists a, b. split; [by right|done]. }
  pose proof (pair_rup _ _ _ _ _ _ P0 R) as Rup.
  assert (forall l, l ∈ r -> lvar l ∉ v :: gone) as Rg.
  { intros l I. apply S in I as [I N]. destruct P0 as (_ & _ & _ & _ & _ & _ & K). apply not_elem_of_cons. split; [done|]. by apply K. }
  assert (forall l, l ∈ r -> known_var (lvar l)) as Rk.
  { intros l I. apply S in I as [I N]. destruct P0 as (_ & _ & _ & _ & (d & D1 & D2) & (d' & D3 & D4) & _). cbn in *.
    destruct I as [I|I]; [apply D2 in I; eapply (g_vars _ _ _ _ G d)|apply D4 in I; eapply (g_vars _ _ _ _ G d')]; eauto. }
  assert (r = [] \/ r <> []) as [->|Nr] by (destruct r; auto).
  { cbn. split_and!; [apply rup_snoc; [apply (g_rup _ _ _ _ G)|done]|eauto|]. intros c l I J. apply elem_of_app in I as [I|I%elem_of_list_singleton].
    - eapply (g_vars _ _ _ _ G c); [apply elem_of_app; by right|done].
    - subst. by apply elem_of_nil in J. }
  destruct r as [|r0 rs]; [done|]. set (r := r0 :: rs) in *.
  destruct (decide (key r ∈ present)) as [K|K].
  - specialize (IH present em next (Datatypes.S work) G P1).
    destruct (g_present _ _ _ _ G r K Rg) as (c0 & C1 & C2).
    destruct (resolve_all _ _ _ _ _ _ _ _) as [em'| |present' em' next' work']; cbn in *; auto.
    destruct IH as (A & B & C & D). split_and!; auto.
    + intros a b [[= -> ->]|I]%elem_of_cons; [rewrite R; exists c0; auto|exact (C _ _ I)].
    + intros c I. destruct (D c I) as [?|(a & b & J & L)]; [auto|]. right. exists a, b. split; [by right|done].
  - destruct (budget <? length (em ++ [r])); [done|].
    assert (good (v :: gone) (key r :: present) (next ++ [r]) (em ++ [r])) as G'.
    { destruct G as [G1 G2 G3 G4 G5 G6 G7]. split.
      - intros c [I|I%elem_of_list_singleton]%elem_of_app; [auto|subst; apply S].
      - intros c [I|I%elem_of_list_singleton]%elem_of_app; [auto|by subst].
      - intros c l [I|I%elem_of_list_singleton]%elem_of_app J; [eauto|subst; auto].
      - intros c [I|I%elem_of_list_singleton]%elem_of_app.
        + destruct (G4 c I) as (d & D1 & D2). exists d. split; [|done]. rewrite app_assoc. apply elem_of_app. by left.
        + subst. exists r. split; [|done]. rewrite app_assoc. apply elem_of_app. right. left.
      - intros c [E|I]%elem_of_cons L.
        + exists r. split; [apply elem_of_app; right; left|]. apply key_same. done.
        + destruct (G5 c I L) as (d & D1 & D2). exists d. split; [|done]. apply elem_of_app. by left.
      - by apply rup_snoc.
      - intros c l I J. rewrite app_assoc in I. apply elem_of_app in I as [I|I%elem_of_list_singleton]; [eauto|subst; auto]. }
    specialize (IH _ _ _ (Datatypes.S work) G' (fun pr I => pair_ok_mono _ _ _ _ _ (P1 pr I))).
    destruct (resolve_all _ _ _ _ _ _ _ _) as [em'| |present' em' next' work']; cbn in *; auto.
    destruct IH as (A & B & C & D). split_and!; auto.
    + intros c I. apply B, elem_of_app. by left.
    + intros a b [[= -> ->]|I]%elem_of_cons; [|exact (C _ _ I)]. rewrite R. exists r. split; [apply B, elem_of_app; right; left|done].
    + intros c I. destruct (D c I) as [J|(a & b & J & L)]; [|right; exists a, b; split; [by right|done]].
      apply elem_of_app in J as [J|J%elem_of_list_singleton]; [auto|]. right. exists cp, cn. split; [left|]. subst c. intros l J. by apply S in J as [? _].
Qed.
(** With enough budget a round ends. *)
Lemma resolve_all_ends v pairs : forall present em next work, exists b w res, res <> Blown /\ forall budget max_work, b <= budget -> w <= max_work -> resolve_all budget max_work v pairs present em next work = res.
Proof.
  induction pairs as [|[cp cn] pairs IH]; intros present em next work; cbn [resolve_all].
  { by exists 0, 0, (Round present em next work). }
  destruct (resolve cp cn v) as [[|r0 rs]|].
  - exists 0, (S work), (Found (em ++ [[]])). split; [done|]. intros budget max_work _ L. destruct (Nat.ltb_spec max_work (S work)); [lia|done].
  - destruct (decide (key (r0 :: rs) ∈ present)) as [K|K].
    + destruct (IH present em next (S work)) as (b & w & res & N & H). exists b, (Nat.max w (S work)), res. split; [done|].
      intros budget max_work L1 L2. destruct (Nat.ltb_spec max_work (S work)); [lia|]. apply H; lia.
    + destruct (IH (key (r0 :: rs) :: present) (em ++ [r0 :: rs]) (next ++ [r0 :: rs]) (S work)) as (b & w & res & N & H).
      exists (Nat.max b (length (em ++ [r0 :: rs]))), (Nat.max w (S work)), res. split; [done|].
      intros budget max_work L1 L2. destruct (Nat.ltb_spec max_work (S work)); [lia|]. destruct (Nat.ltb_spec budget (length (em ++ [r0 :: rs]))); [lia|]. apply H; lia.
  - destruct (IH present em next (S work)) as (b & w & res & N & H). exists b, (Nat.max w (S work)), res. split; [done|].
    intros budget max_work L1 L2. destruct (Nat.ltb_spec max_work (S work)); [lia|]. apply H; lia.
Qed.

(** A model of the clauses without [v] and of all resolvents gives a model of all. *)
Definition update (f : nat -> bool) (v : nat) (b : bool) : nat -> bool := fun w => if w =? v then b else f w.
Lemma update_other f v b l : lvar l <> v -> lit_true f l -> lit_true (update f v b) l.
Proof. unfold lit_true, update. intros N. destruct (Nat.eqb_spec (lvar l) v); done. Qed.
Lemma lit_true_dec' f l : {lit_true f l} + {~ lit_true f l}.
Proof. unfold lit_true. apply bool_dec. Qed.
Lemma davis_putnam active next v f : (forall c, c ∈ active -> clear c) -> satisfies f next ->
  (forall c, c ∈ active -> in_none v c = true -> c ∈ next) ->
  (forall cp cn, cp ∈ active -> in_pos v cp = true -> cn ∈ active -> in_neg v cn = true -> match resolve cp cn v with None => True | Some r => exists c, c ∈ next /\ same c r end) ->
  exists g, satisfies g active.
Proof.
  intros C Sat R0 R1.
  set (free := fun c : clause => List.Exists (fun l => lvar l <> v /\ lit_true f l) c).
  assert (forall c, {free c} + {~ free c}) as Dec.
  { intros c. apply List.Exists_dec. intros l. destruct (Nat.eq_dec (lvar l) v); [right; tauto|]. destruct (lit_true_dec' f l); [left|right]; tauto. }
  assert (forall c b, free c -> clause_true (update f v b) c) as Fr.
  { intros c b F. apply List.Exists_exists in F as (l & I & N & T). exists l. split; [by apply elem_of_list_In|]. by apply update_other. }
  assert (forall c b, c ∈ active -> in_none v c = true -> clause_true (update f v b) c) as No.
  { intros c b I N. destruct (Sat c (R0 c I N)) as (l & L & T). exists l. split; [done|]. apply update_other; [|done]. by apply (proj1 (in_none_spec v c) N). }
  destruct (List.Exists_dec (fun c => in_pos v c = true /\ ~ free c) active) as [E|E].
  { intros c. destruct (in_pos v c); [|right; intros [? _]; done]. destruct (Dec c); [right; tauto|left; tauto]. }
  - apply List.Exists_exists in E as (cp & Ip & Pp & Np). apply elem_of_list_In in Ip. exists (update f v true). intros c I.
    destruct (trichotomy v c) as [P|[P|P]]; [| |by apply No].
    + exists (Lit v true). split; [by apply in_pos_spec; [apply C|]|]. unfold lit_true, update. cbn. by rewrite Nat.eqb_refl.
    + apply Fr. specialize (R1 cp c Ip Pp I P). pose proof (resolve_spec cp c v) as S.
      assert (forall l, l ∈ cp -> lvar l <> v -> ~ lit_true f l) as Fp.
      { intros l L N T. apply Np. apply List.Exists_exists. exists l. split; [by apply elem_of_list_In|done]. }
      destruct (resolve cp c v) as [r|].
      * destruct R1 as (d & D1 & D2). destruct (Sat d D1) as (l & L & T). apply D2, S in L as [[L|L] N]; [by apply Fp in T|].
        apply List.Exists_exists. exists l. split; [by apply elem_of_list_In|done].
      * destruct S as (l & A & B & N). apply elem_of_app in A, B. apply List.Exists_exists.
        destruct A as [A|A], B as [B|B].
        -- exfalso. by apply (C cp Ip l).
        -- exists (negated l). split; [by apply elem_of_list_In|]. split; [by destruct l|]. apply lit_true_neg. by apply Fp.
        -- exists l. split; [by apply elem_of_list_In|]. split; [done|]. specialize (Fp _ B). destruct (lit_true_dec' f l) as [?|H]; [done|]. exfalso. apply Fp; [by destruct l|]. by apply lit_true_neg.
        -- exfalso. by apply (C c I l).
  - exists (update f v false). intros c I. destruct (trichotomy v c) as [P|[P|P]]; [| |by apply No].
    + apply Fr. destruct (Dec c) as [?|N]; [done|]. exfalso. apply E. apply List.Exists_exists. exists c. split; [by apply elem_of_list_In|done].
    + exists (Lit v false). split; [by apply in_neg_spec; [apply C|]|]. unfold lit_true, update. cbn. by rewrite Nat.eqb_refl.
Qed.

(** One round from the state of the loop. *)
Lemma filter_elem (p : clause -> bool) cs c : c ∈ List.filter p cs <-> c ∈ cs /\ p c = true.
Proof. rewrite !elem_of_list_In. apply List.filter_In. Qed.
Lemma prod_elem (a b : list clause) x y : (x, y) ∈ list_prod a b <-> x ∈ a /\ y ∈ b.
Proof. rewrite !elem_of_list_In. apply List.in_prod_iff. Qed.
Lemma round_start gone present active em v : good gone present active em -> good (v :: gone) present (List.filter (in_none v) active) em.
Proof.
  intros [G1 G2 G3 G4 G5 G6 G7]. split; [..|done|done].
  - intros c [I _]%filter_elem. auto.
  - intros c [I _]%filter_elem. auto.
  - intros c l [I N]%filter_elem L. apply not_elem_of_cons. split; [by apply (proj1 (in_none_spec v c) N)|eauto].
  - intros c [I _]%filter_elem. auto.
  - intros r K L. destruct (G5 r K) as (c & C1 & C2); [intros l I; specialize (L l I); by apply not_elem_of_cons in L as [_ ?]|].
    exists c. split; [|done]. apply filter_elem. split; [done|]. apply in_none_spec. intros l I. apply C2 in I. specialize (L l I). by apply not_elem_of_cons in L as [? _].
Qed.
Lemma round_pairs gone present active em v : good gone present active em ->
  forall pr, pr ∈ list_prod (List.filter (in_pos v) active) (List.filter (in_neg v) active) -> pair_ok v em gone pr.
Proof.
  intros [G1 G2 G3 G4 G5 G6 G7] [cp cn] [[A1 A2]%filter_elem [B1 B2]%filter_elem]%prod_elem. unfold pair_ok. cbn. split_and!; auto. intros l [I|I]; eauto.
Qed.
Lemma eliminate_sound n budget max_work : forall gone present active em work p, good gone present active em ->
  eliminate_all n budget max_work present active em work = Some (Some p) ->
  rup_list p /\ (exists p0, p = p0 ++ [[]]) /\ (forall c l, c ∈ p -> l ∈ c -> known_var (lvar l)).
Proof.
  induction n as [|n IH]; intros gone present active em work p G; cbn [eliminate_all]; [done|].
  destruct (vars_of active) as [|v0 vs]; [done|]. set (v := min_by _ _ _).
  pose proof (resolve_all_ok budget max_work v gone _ present em _ work (round_start _ _ _ _ v G) (round_pairs _ _ _ _ v G)) as R.
  destruct (resolve_all _ _ _ _ _ _ _ _) as [em'| |present' em' next' work']; [|done|].
  - intros [= <-]. exact R.
  - intros H. eapply IH; [|exact H]. apply R.
Qed.
Lemma eliminate_complete n : forall gone present active em work, good gone present active em -> length (vars_of active) < n -> (~ exists f, satisfies f active) ->
  exists b w p, forall budget max_work, b <= budget -> w <= max_work -> eliminate_all n budget max_work present active em work = Some (Some p).
Proof.
  induction n as [|n IH]; intros gone present active em work G L U; [lia|]. cbn [eliminate_all].
  pose proof (vars_elem active) as Ve. pose proof (vars_nodup active) as Vn.
  destruct (vars_of active) as [|v0 vs] eqn:V.
  - exfalso. apply U. exists (fun _ => false). intros c I. destruct c as [|l c]; [by apply (g_nonempty _ _ _ _ G) in I|].
    assert (lvar l ∈ []) as K by (apply Ve; exists (l :: c), l; split_and!; [done|left|done]). by apply elem_of_nil in K.
  - set (v := min_by _ _ _).
    assert (v ∈ v0 :: vs) as Iv by apply min_by_elem.
    set (pairs := list_prod (List.filter (in_pos v) active) (List.filter (in_neg v) active)).
    destruct (resolve_all_ends v pairs present em (List.filter (in_none v) active) work) as (b & w & res & Nb & H).
    pose proof (resolve_all_ok b w v gone pairs present em _ work (round_start _ _ _ _ v G) (round_pairs _ _ _ _ v G)) as R.
    rewrite (H b w) in R by lia. destruct res as [em'| |present' em' next' work']; [|done|].
    + exists b, w, em'. intros budget max_work L1 L2. rewrite (H _ _ L1 L2). done.
    + destruct R as (G' & N1 & N2 & N3).
      destruct (IH (v :: gone) present' next' em' work' G') as (b' & w' & p & H').
      * assert (length (vars_of next') < length (v0 :: vs)); [|cbn in *; lia].
        assert (length (v :: vars_of next') <= length (v0 :: vs)) as Q; [|cbn in *; lia].
        apply NoDup_incl_length.
        -- constructor; [|apply vars_nodup]. intros I. apply elem_of_list_In, vars_elem in I as (c & l & C1 & C2 & E). apply (g_gone _ _ _ _ G' c l C1 C2). rewrite E. left.
        -- intros u [<-|I]; [by apply elem_of_list_In|]. apply elem_of_list_In, vars_elem in I as (c & l & C1 & C2 & E). apply elem_of_list_In, Ve.
           destruct (N3 c C1) as [[J _]%filter_elem|(cp & cn & J & K)]; [eauto|]. apply prod_elem in J as [[J1 _]%filter_elem [J2 _]%filter_elem]. destruct (K l C2); eauto.
      * intros [f Sf]. apply U. eapply (davis_putnam active next' v f); [apply (g_clear _ _ _ _ G)|done| |].
        -- intros c I N. apply N1, filter_elem. done.
        -- intros cp cn A B C D. apply N2. apply prod_elem. rewrite !filter_elem. done.
      * exists (Nat.max b b'), (Nat.max w w'), p. intros budget max_work L1 L2. rewrite (H budget max_work) by lia. apply H'; lia.
Qed.

(** The first clauses. *)
Lemma intake_ok : (forall c, c ∈ support -> clear c) -> forall cs present active, (forall c, c ∈ cs -> c ∈ support) ->
  (forall c, c ∈ active -> exists d, d ∈ support /\ same d c) -> (forall r, key r ∈ present -> exists c, c ∈ active /\ same c r) ->
  let '(present', active') := intake present active cs in
  (forall c, c ∈ active' -> exists d, d ∈ support /\ same d c) /\ (forall r, key r ∈ present' -> exists c, c ∈ active' /\ same c r) /\
  (forall c, c ∈ active -> c ∈ active') /\ (forall d, d ∈ cs -> exists c, c ∈ active' /\ same c d).
Proof.
  intros C. induction cs as [|d cs IH]; intros present active S A P; cbn [intake].
  { split_and!; auto. intros d I. by apply elem_of_nil in I. }
  destruct (decide (key d ∈ present)) as [K|K].
  - specialize (IH present active ltac:(intros c I; apply S; by right) A P). destruct (intake _ _ _) as [present' active']. destruct IH as (I1 & I2 & I3 & I4).
    split_and!; auto. intros c [->|I]%elem_of_cons; auto. destruct (P d K) as (c & C1 & C2). eauto.
  - specialize (IH (key d :: present) (active ++ [tidy d])). destruct (intake _ _ _) as [present' active'].
    destruct IH as (I1 & I2 & I3 & I4).
    + intros c I. apply S. by right.
    + intros c [I|I%elem_of_list_singleton]%elem_of_app; [auto|]. subst. exists d. split; [apply S; left|]. intros l. symmetry. apply tidy_same.
    + intros r [E|I]%elem_of_cons.
      * exists (tidy d). split; [apply elem_of_app; right; left|]. intros l. rewrite (tidy_same d l). symmetry. by apply key_same.
      * destruct (P r I) as (c & C1 & C2). exists c. split; [apply elem_of_app; by left|done].
    + split_and!; auto.
      * intros c I. apply I3, elem_of_app. by left.
      * intros c [->|I]%elem_of_cons; [|auto]. exists (tidy d). split; [apply I3, elem_of_app; right; left|apply tidy_same].
Qed.
Lemma same_true f c d : same c d -> clause_true f c <-> clause_true f d.
Proof. intros S. split; intros (l & I & T); exists l; (split; [by apply S|done]). Qed.
Lemma refute_sound budget max_work p : (forall c, c ∈ support -> clear c) -> resolution_refutation_with budget max_work support = Some p ->
  rup_list p /\ (exists p0, p = p0 ++ [[]]) /\ (forall c l, c ∈ p -> l ∈ c -> known_var (lvar l)).
Proof.
  intros C. unfold resolution_refutation_with. pose proof (intake_ok C support [] []) as I. destruct (intake [] [] support) as [present active].
  destruct I as (I1 & I2 & I3 & I4); [done|intros c I; by apply elem_of_nil in I|intros r I; by apply elem_of_nil in I|].
  destruct (existsb _ active) eqn:X.
  - intros [= <-]. apply existsb_exists in X as (c & J & X). destruct c; [|done]. apply elem_of_list_In in J. destruct (I1 _ J) as (d & D1 & D2).
    split_and!.
    + intros l1 c l2 E. destruct l1 as [|x l1]; [|by destruct l1]. injection E as <- <-. left. exists d. split; [rewrite app_nil_r; done|]. intros l L. apply D2 in L. by apply elem_of_nil in L.
    + by exists [].
    + intros c l K L. apply elem_of_list_singleton in K. subst. by apply elem_of_nil in L.
  - destruct (eliminate_all _ _ _ _ _ _ _) as [r|] eqn:E; [|done]. intros ->. eapply (eliminate_sound _ _ _ []); [|exact E]. split.
    + intros c J. destruct (I1 c J) as (d & D1 & D2). intros l A B. apply D2 in A, B. by apply (C d D1 l).
    + intros c J ->. rewrite <- not_true_iff_false in X. apply X, existsb_exists. exists []. split; [by apply elem_of_list_In|done].
    + intros c l _ _ K. by apply elem_of_nil in K.
    + intros c J. rewrite app_nil_r. auto.
    + auto.
    + intros l1 c l2 Q. by destruct l1.
    + intros c l J K. rewrite app_nil_r in J. by exists c, l.
Qed.
Lemma refute_complete : (forall c, c ∈ support -> clear c) -> (~ exists f, satisfies f support) ->
  exists b w p, forall budget max_work, b <= budget -> w <= max_work -> resolution_refutation_with budget max_work support = Some p.
Proof.
  intros C U. unfold resolution_refutation_with. pose proof (intake_ok C support [] []) as I. destruct (intake [] [] support) as [present active].
  destruct I as (I1 & I2 & I3 & I4); [done|intros c I; by apply elem_of_nil in I|intros r I; by apply elem_of_nil in I|].
  destruct (existsb _ active) eqn:X; [by exists 0, 0, [[]]|].
  destruct (eliminate_complete (S (length (vars_of active))) [] present active [] 0) as (b & w & p & H).
  - split.
    + intros c J. destruct (I1 c J) as (d & D1 & D2). intros l A B. apply D2 in A, B. by apply (C d D1 l).
    + intros c J ->. rewrite <- not_true_iff_false in X. apply X, existsb_exists. exists []. split; [by apply elem_of_list_In|done].
    + intros c l _ _ K. by apply elem_of_nil in K.
    + intros c J. rewrite app_nil_r. auto.
    + auto.
    + intros l1 c l2 Q. by destruct l1.
    + intros c l J K. rewrite app_nil_r in J. by exists c, l.
  - lia.
  - intros [f Sf]. apply U. exists f. intros d D. destruct (I4 d D) as (c & C1 & C2). apply (same_true f _ _ C2). auto.
  - exists b, w, p. intros budget max_work L1 L2. by rewrite H.
Qed.
End Refute.
