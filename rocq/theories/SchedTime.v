(** Virtual time in the task scheduler. *)
From Coq Require Import NArith List Lia.
From stdpp Require Import list gmap.
From Verif Require Import SchedModel SchedInv SchedOps SchedStep SchedGrow SchedProps.
Open Scope nat_scope.

Section Time.
Context {B : Type}.
Implicit Types (s : core B) (es : list (event B)).
(** Nothing happens to the clock, and no timer is added. *)
Definition still s s' : Prop := clock s' = clock s /\ forall tm, tm ∈ timers s' -> tm ∈ timers s.
Lemma still_refl s : still s s. Proof. done. Qed.
Lemma still_trans a b c : still a b -> still b c -> still a c.
Proof. intros [H1 H2] [H3 H4]. split; [congruence|auto]. Qed.
Lemma still_plain s s' : clock s' = clock s -> timers s' = timers s -> still s s'.
Proof. intros E1 E2. split; [done|]. now rewrite E2. Qed.
Lemma still_cancel s t x : still s (cancel_select s t x).
Proof. split; [done|]. intros tm. cbn. rewrite !elem_of_list_In, filter_In. tauto. Qed.
Lemma still_fold {X} (f : core B -> X -> core B) l : (forall s x, still s (f s x)) -> forall s, still s (fold_left f l s).
Proof. intros H. induction l as [|a l IH]; intros s; [done|]. cbn. eapply still_trans; [apply H|apply IH]. Qed.
Lemma still_refill s ch : still s (refill s ch).
Proof. unfold refill. destruct (chans s !! ch) as [c|]; [|done]. destruct (has_room c); [|done]. destruct (senders c) as [|[sid v] r]; [done|]. now apply still_plain. Qed.
Lemma still_deliver s t ch v s' : deliver s t ch v = Some s' -> still s s'.
Proof.
  unfold deliver. destruct (tasks s !! t) as [sl|]; [|done]. destruct (sel_arms sl) as [arms|]; [|intros [= <-]; now apply still_plain]. destruct (arm_position arms ch); [|done]. intros [= <-]. apply (still_trans _ (complete_select s t v n)); [now apply still_plain|apply still_cancel].
Qed.
Lemma still_send s t ch v s' : do_send s t ch v = Some s' -> still s s'.
Proof.
  unfold do_send. destruct (chans s !! ch) as [c|]; [|done]. destruct (receivers c) as [|rid r].
  - destruct (has_room c); intros [= <-]; now apply still_plain.
  - destruct (deliver _ rid ch v) as [s1|] eqn:D; [|done]. intros [= <-]. apply still_deliver in D. exact D.
Qed.
Lemma still_try_send s t ch v s' : do_try_send s t ch v = Some s' -> still s s'.
Proof.
  unfold do_try_send. destruct (chans s !! ch) as [c|]; [|done]. destruct (receivers c) as [|rid r].
  - destruct (has_room c); intros [= <-]; now apply still_plain.
  - destruct (deliver _ rid ch v) as [s1|] eqn:D; [|done]. intros [= <-]. apply still_deliver in D. exact D.
Qed.
Lemma still_recv s t ch s' : do_recv s t ch = Some s' -> still s s'.
Proof.
  unfold do_recv. destruct (chans s !! ch) as [c|]; [|done]. destruct (queue c) as [|v q]; [destruct (senders c) as [|[sid sv] r]; [destruct (closed c)|]|]; intros [= <-]; try (now apply still_plain). eapply still_trans; [|apply still_refill]. now apply still_plain.
Qed.
Lemma still_try_recv s t ch s' : do_try_recv s t ch = Some s' -> still s s'.
Proof.
  unfold do_try_recv. destruct (chans s !! ch) as [c|]; [|done]. destruct (queue c) as [|v q]; [destruct (senders c) as [|[sid sv] r]|]; intros [= <-]; try (now apply still_plain). eapply still_trans; [|apply still_refill]. now apply still_plain.
Qed.
Lemma still_take s ch : still s (fst (take_one s ch)).
Proof.
  unfold take_one. destruct (chans s !! ch) as [c|]; [|done]. destruct (queue c) as [|v q]; [destruct (senders c) as [|[sid sv] r]|]; cbn; try done. eapply still_trans; [|apply still_refill]. now apply still_plain.
Qed.
Lemma still_complete s t r : still s (complete_task s t r).
Proof. unfold complete_task. eapply still_trans; [|apply still_fold]; [now apply still_plain|]. intros s1 w. now apply still_plain. Qed.
Lemma still_abort s x : still s (do_abort s x).
Proof.
  unfold do_abort. destruct (results s !! x); [done|]. destruct (tasks s !! x) as [sl|]; [|done]. destruct (tst sl); try done; cbv zeta; (eapply still_trans; [|apply still_complete]; split; [done|]; intros tm; cbn; rewrite !elem_of_list_In, filter_In; tauto).
Qed.
Lemma still_close s ch s' : do_close s ch = Some s' -> still s s'.
Proof.
  unfold do_close. destruct (chans s !! ch) as [c|]; [|done]. intros [= <-]. eapply still_trans; [|apply still_fold]; [now apply still_plain|]. intros s1 x. unfold wake_closed. destruct (tasks s1 !! x) as [sl|]; [|done]. destruct (sel_arms sl) as [arms|]; [|now apply still_plain]. eapply (still_trans _ (complete_select s1 x Nothing _)); [|apply still_cancel]. now apply still_plain.
Qed.
(** The delays a step asks for. *)
Definition delays (st : step B) : list N := match st with Sleep d => [d] | Select arms => flat_map (fun a => match a with ATimeout d => [d] | ARecv _ => [] end) arms | _ => [] end.
Lemma timeouts_delays b arms i a j : (a, j) ∈ timeouts b arms i -> exists d, d ∈ delays (Select arms) /\ a = add64 b d.
Proof.
  intros H. apply timeouts_spec in H as (k & d & _ & E & ->). exists d. split; [|done]. cbn. rewrite elem_of_list_In, in_flat_map. exists (ATimeout d). split; [rewrite <- elem_of_list_In; now apply elem_of_list_lookup_2 in E|now left].
Qed.
(** A poll leaves the clock alone and adds timers for the delays asked for only. *)
Lemma process_time p cfg s c t st s' c' : process_step p cfg s c t st = Some (s', c') -> clock s' = clock s /\ forall tm, tm ∈ timers s' -> tm ∈ timers s \/ exists d, d ∈ delays st /\ fire_at tm = add64 (clock s) d.
Proof.
  assert (St : still s s' -> clock s' = clock s /\ forall tm, tm ∈ timers s' -> tm ∈ timers s \/ exists d, d ∈ delays st /\ fire_at tm = add64 (clock s) d) by (intros [H1 H2]; split; [done|]; intros tm H; left; auto).
  intros H. destruct st; cbn [process_step] in H; try done.
  - injection H as <- _. now apply St.
  - destruct (do_recv s t ch) as [s1|] eqn:E; [|done]. injection H as <- _. apply St. now apply still_recv in E.
  - destruct (do_send s t ch v) as [s1|] eqn:E; [|done]. injection H as <- _. apply St. now apply still_send in E.
  - destruct (do_try_send s t ch v) as [s1|] eqn:E; [|done]. injection H as <- _. apply St. now apply still_try_send in E.
  - destruct (do_try_recv s t ch) as [s1|] eqn:E; [|done]. injection H as <- _. apply St. now apply still_try_recv in E.
  - unfold do_select in H. destruct (ready_arms s arms 0) as [l|]; [|done]. destruct l as [|i1 l].
    + injection H as <- _. rewrite register_eq. cbn. split; [done|]. intros tm Ht. apply elem_of_app in Ht as [Ht|Ht]; [now left|right]. apply elem_of_list_In, in_map_iff in Ht as ([a j] & <- & Ht). rewrite <- elem_of_list_In in Ht. apply timeouts_delays in Ht. exact Ht.
    + destruct (match l with [] => _ | _ => _ end) as [[w c1]|]; [|done]. cbn [mbind option_bind] in H. destruct ((i1 :: l) !! w) as [i|]; [|done]. cbn [mbind option_bind] in H. destruct (arms !! i) as [[ch|d]|]; [|done..]. pose proof (still_take s ch) as G. destruct (take_one s ch) as [s1 v]. injection H as <- _. apply St. exact G.
  - injection H as <- _. cbn. split; [done|]. intros tm Ht. apply elem_of_app in Ht as [Ht|Ht]; [now left|right]. apply elem_of_list_singleton in Ht. subst tm. exists d. split; [now apply elem_of_list_singleton|done].
  - injection H as <- _. now apply St.
  - injection H as <- _. now apply St.
  - injection H as <- _. apply St. unfold do_await. destruct (results s !! t0); [done|]. destruct (tasks s !! t0); done.
  - injection H as <- _. apply St. apply (still_abort s).
  - destruct (do_close s ch) as [s1|] eqn:E; [|done]. injection H as <- _. apply St. apply (still_close s ch s1 E).
  - injection H as <- _. now apply St.
  - injection H as <- _. apply St. eapply still_trans; [|apply still_complete]. destruct (tasks s !! t) as [sl|]; [|done]. now destruct (is_main sl).
Qed.
Lemma earliest_spec l e : earliest l = Some e -> (exists tm, tm ∈ l /\ fire_at tm = e) /\ forall tm, tm ∈ l -> (e <= fire_at tm)%N.
Proof.
  destruct l as [|t l]; [done|]. cbn. intros [= <-].
  assert (Q : forall m, let r := fold_left (fun m x => N.min m (fire_at x)) l m in (r = m \/ exists tm, tm ∈ l /\ fire_at tm = r) /\ (r <= m)%N /\ forall tm, tm ∈ l -> (r <= fire_at tm)%N).
  { clear t. induction l as [|a l IH]; intros m; cbn.
    - split; [now left|]. split; [lia|]. intros tm H. now apply elem_of_nil in H.
    - destruct (IH (N.min m (fire_at a))) as (H1 & H2 & H3). split; [|split; [lia|]].
      + destruct H1 as [H1|(tm & H1 & H4)]; [|right; exists tm; split; [apply elem_of_cons; now right|done]]. rewrite H1. destruct (N.min_spec m (fire_at a)) as [[_ ->]|[_ ->]]; [now left|right]. exists a. split; [apply elem_of_cons; now left|done].
      + intros tm H. apply elem_of_cons in H as [->|H]; [lia|now apply H3]. }
  destruct (Q (fire_at t)) as (H1 & H2 & H3). split.
  - destruct H1 as [H1|(tm & H1 & H4)]; [exists t; split; [apply elem_of_cons; now left|done]|exists tm; split; [apply elem_of_cons; now right|done]].
  - intros tm H. apply elem_of_cons in H as [->|H]; [done|now apply H3].
Qed.
Lemma still_fire s t a : still s (fire_timer s t a).
Proof.
  unfold fire_timer. destruct (tasks s !! t) as [sl|]; [|done]. destruct (tst sl); try done; (destruct a as [i|]; [|now apply still_plain]); (destruct (sel_arms sl); [|now apply still_plain]); (eapply (still_trans _ (complete_select s t Nothing i)); [now apply still_plain|apply still_cancel]).
Qed.

(** ** Firing *)
Definition sleeping (s : core B) t : Prop := exists sl, tasks s !! t = Some sl /\ (tst sl = BlockedTimer \/ tst sl = BlockedSelect).
Lemma fire_ready s t a x : x ∈ ready (fire_timer s t a) <-> x ∈ ready s \/ (x = t /\ sleeping s t).
Proof.
  unfold fire_timer, sleeping. destruct (tasks s !! t) as [sl|]; [|split; [tauto|intros [H|(_ & sl & E & _)]; [done|done]]].
  assert (Q : forall P, (x ∈ ready s ++ [t] <-> x ∈ ready s \/ (x = t /\ exists sl', Some sl = Some sl' /\ P sl')) <-> (P sl \/ x ∈ ready s \/ x <> t)).
  { intros P. rewrite elem_of_app, elem_of_list_singleton. split.
    - intros H. destruct (decide (x = t)) as [->|N]; [|tauto]. destruct (decide (t ∈ ready s)) as [K|K]; [tauto|]. left. destruct (proj1 H (or_intror eq_refl)) as [H'|(_ & sl' & [= <-] & H')]; [done|done].
    - intros H. split; [intros [K| ->]; [tauto|]|intros [K|[-> _]]; tauto]. destruct H as [H|[H|H]]; [right; split; [done|now exists sl]|tauto|done]. }
  destruct (tst sl) eqn:E; try (split; [tauto|intros [H|(_ & sl' & [= <-] & [H|H])]; [done|congruence..]]).
  - destruct a as [i|]; [destruct (sel_arms sl)|]; cbn; apply (Q (fun sl => tst sl = BlockedTimer \/ tst sl = BlockedSelect)); now auto.
  - destruct a as [i|]; [destruct (sel_arms sl)|]; cbn; apply (Q (fun sl => tst sl = BlockedTimer \/ tst sl = BlockedSelect)); now auto.
Qed.
Lemma fire_sleeping s t a x : x <> t -> sleeping (fire_timer s t a) x <-> sleeping s x.
Proof.
  intros N. unfold sleeping. assert (Q : tasks (fire_timer s t a) !! x = tasks s !! x); [|now rewrite Q]. unfold fire_timer. destruct (tasks s !! t) as [sl|]; [|done]. destruct (tst sl); try done; (destruct a as [i|]; [destruct (sel_arms sl)|]); cbn; now rewrite lookup_alter_ne by congruence.
Qed.
Lemma fire_all l : forall s x, x ∈ ready (fold_left (fun s x => fire_timer s (ttid x) (tarm x)) l s) <-> x ∈ ready s \/ (sleeping s x /\ exists tm, tm ∈ l /\ ttid tm = x).
Proof.
  induction l as [|a l IH]; intros s x; cbn [fold_left].
  - split; [tauto|]. intros [H|(_ & tm & H & _)]; [done|now apply elem_of_nil in H].
  - rewrite IH, fire_ready. destruct (decide (x = ttid a)) as [->|N].
    + split.
      * intros [[H|[_ H]]|[H (tm & H1 & H2)]]; [now left|right; split; [done|]; exists a; split; [apply elem_of_cons; now left|done]|]. assert (K : sleeping s (ttid a)).
        { clear IH H1. unfold sleeping, fire_timer in *. destruct (tasks s !! ttid a) as [sl|] eqn:E; [|now rewrite E in H]. destruct (tst sl) eqn:Q; try (rewrite E in H; exact H); exists sl; (split; [done|]); rewrite Q; now auto. }
        right. split; [done|]. exists a. split; [apply elem_of_cons; now left|done].
      * intros [H|[H _]]; [left; now left|left; right; done].
    + rewrite fire_sleeping by done. split.
      * intros [[H|[H _]]|[H (tm & H1 & H2)]]; [now left|done|right]. split; [done|]. exists tm. split; [apply elem_of_cons; now right|done].
      * intros [H|[H (tm & H1 & H2)]]; [left; now left|right]. split; [done|]. exists tm. split; [|done]. apply elem_of_cons in H1 as [->|H1]; [congruence|done].
Qed.
Lemma fire_keeps l : forall s tm, tm ∈ timers s -> (forall x, x ∈ l -> ttid x <> ttid tm) -> tm ∈ timers (fold_left (fun s x => fire_timer s (ttid x) (tarm x)) l s).
Proof.
  induction l as [|a l IH]; intros s tm H K; cbn [fold_left]; [done|]. apply IH; [|intros x Hx; apply K, elem_of_cons; now right]. assert (N : ttid a <> ttid tm) by (apply K, elem_of_cons; now left). unfold fire_timer. destruct (tasks s !! ttid a) as [sl|]; [|done]. destruct (tst sl); try done; (destruct (tarm a) as [i|]; [destruct (sel_arms sl)|]; cbn; try done); rewrite elem_of_list_In, filter_In, <- elem_of_list_In; (split; [done|]); apply negb_true_iff, Nat.eqb_neq; congruence.
Qed.

(** ** C56 *)
Section Runs.
Context (p : program B) (cfg : config).
(** If nothing can run and timers are set, time jumps to the earliest of them; the tasks whose timers
    are due then become ready, no others do, and the timers left are those of the tasks still waiting. *)
Theorem C56_advance c0 cs s c es s' c' : run p cfg c0 cs s c es -> poll_once p cfg (s, c) = Some (s', c', None, None) ->
  (exists tm, tm ∈ timers s /\ fire_at tm = clock s') /\ (forall tm, tm ∈ timers s -> (clock s' <= fire_at tm)%N) /\
  (forall t, t ∈ ready s' <-> exists tm, tm ∈ timers s /\ fire_at tm = clock s' /\ ttid tm = t) /\
  (forall tm, tm ∈ timers s' <-> tm ∈ timers s /\ ttid tm ∉ ready s').
Proof.
  intros R H. assert (R' : run p cfg c0 (cs ++ [CPoll]) s' c' es).
  { destruct R as [R F]. split; [|done]. revert R H. clear. generalize (@new_core B, c0). intros sc. revert sc es. induction cs as [|a cs IH]; intros sc es R H; cbn [exec app] in *.
    - injection R as -> <-. cbn [do_call]. rewrite H. done.
    - destruct (do_call p cfg sc a) as [[sc1 e1]|]; [|done]. cbn [mbind option_bind] in *. destruct (exec p cfg sc1 cs) as [[[s2 c2] e2]|] eqn:E2; [|done]. cbn [mbind option_bind] in R. injection R as -> -> <-. now rewrite (IH _ _ E2 H). }
  unfold poll_once in H. destruct (pick_ready cfg s c) as [[o1 c1]|] eqn:Ep; [|done]. cbn [mbind option_bind] in H. pose proof (pick_spec _ _ _ _ _ Ep) as Hpk. destruct o1 as [[t s1]|].
  { destruct Hpk as (idx & Er & ->). destruct (tasks _ !! t); [|done]. cbn [mbind option_bind] in H. destruct (poll p _ _). destruct (process_step _ _ _ _ _ _) as [[? ?]|]; done. }
  destruct Hpk as [Er ->]. destruct (timers s) as [|tm0 l0] eqn:Etm; [done|]. rewrite <- Etm in *. destruct (advance_timers s c) as [[s2 c2]|] eqn:Ea; [|done]. cbn [mbind option_bind] in H. injection H as <- _. unfold advance_timers in Ea. destruct (earliest (timers s)) as [e|] eqn:Ee; [|now rewrite Etm in Ee]. clear tm0 l0 Etm.
  set (due := List.filter (fun x => (fire_at x =? e)%N) (timers s)) in Ea. set (rest := List.filter (fun x => negb (fire_at x =? e)%N) (timers s)) in Ea.
  assert (Ho : exists order, Permutation order due /\ s2 = fold_left (fun s x => fire_timer s (ttid x) (tarm x)) order (set_timers (set_clock s e) rest)).
  { destruct (1 <? length due).
    - destruct (shuffle (length due) c due) as [[order c3]|] eqn:E; [|done]. cbn [mbind option_bind] in Ea. injection Ea as <- _. exists order. split; [|done]. now apply (shuffle_perm (length due) c due order c3).
    - cbn [mbind option_bind] in Ea. injection Ea as <- _. now exists due. }
  destruct Ho as (order & P & ->).
  assert (Hd : forall x, x ∈ order <-> x ∈ timers s /\ fire_at x = e). { intros x. assert (Q : x ∈ order <-> x ∈ due) by (split; intros H'; [rewrite <- P|rewrite P]; exact H'). rewrite Q. unfold due. rewrite !elem_of_list_In, filter_In, N.eqb_eq. done. }
  assert (Hr : forall x, x ∈ rest <-> x ∈ timers s /\ fire_at x <> e). { intros x. unfold rest. rewrite !elem_of_list_In, filter_In, negb_true_iff, N.eqb_neq. done. }
  destruct (earliest_spec _ _ Ee) as [E1 E2]. set (s1 := set_timers (set_clock s e) rest) in *. pose proof (still_fold (fun s x => fire_timer s (ttid x) (tarm x)) order (fun s x => still_fire s (ttid x) (tarm x)) s1) as [S1 S2]. rewrite S1. cbn [clock s1 set_timers set_clock].
  assert (Hrd : forall t, t ∈ ready (fold_left (fun s x => fire_timer s (ttid x) (tarm x)) order s1) <-> exists tm, tm ∈ timers s /\ fire_at tm = e /\ ttid tm = t).
  { intros t. rewrite fire_all. cbn [ready s1 set_timers set_clock]. rewrite Er. split.
    - intros [H|(_ & tm & H1 & <-)]; [now apply elem_of_nil in H|]. exists tm. apply Hd in H1 as [? ?]. done.
    - intros (tm & H1 & H2 & <-). right. split; [|exists tm; split; [now apply Hd|done]]. destruct (C19_registered_partial p cfg c0 cs s c es (ttid tm) R) as (_ & _ & K & _). destruct tm as [a x i]. cbn in *. destruct (K a i H1) as (sl & Et & Q). exists sl. split; [done|]. destruct i; [right; now destruct Q|now left]. }
  split; [exact E1|]. split; [exact E2|]. split; [exact Hrd|]. intros tm. split.
  - intros H. split; [apply S2 in H; now apply Hr in H|]. intros K. pose proof (C19_ready_partial p cfg _ _ _ _ _ R') as [_ Rd]. apply Rd in K as (sl & Et & Q). destruct (C20_deregistered_partial p cfg _ _ _ _ _ (ttid tm) sl R' Et (or_introl Q)) as (_ & Z & _). now apply (Z tm H).
  - intros [H1 H2]. apply fire_keeps.
    + apply Hr. split; [done|]. intros Q. apply H2, Hrd. now exists tm.
    + intros x Hx Q. apply H2, Hrd. apply Hd in Hx as [Hx1 Hx2]. exists x. done.
Qed.
(** A sleep is for the time asked for: from a poll that asks for it, the task has a timer that much after
    the present; and a select that has to wait has one for each of its timeouts. *)
Theorem C56_request s c s' c' o e : poll_once p cfg (s, c) = Some (s', c', o, Some e) ->
  clock s' = clock s /\ match estep e with
  | Sleep d => Timer ((clock s + d) mod 2 ^ 64) (etid e) None ∈ timers s'
  | Select arms => (exists sl, tasks s' !! etid e = Some sl /\ tst sl = BlockedSelect) -> forall i d, arms !! i = Some (ATimeout d) -> Timer ((clock s + d) mod 2 ^ 64) (etid e) (Some i) ∈ timers s'
  | _ => True
  end.
Proof.
  intros H. unfold poll_once in H. destruct (pick_ready cfg s c) as [[o1 c1]|] eqn:Ep; [|done]. cbn [mbind option_bind] in H. pose proof (pick_spec _ _ _ _ _ Ep) as Hpk. destruct o1 as [[t s1]|].
  2: { destruct (timers s); [done|]. destruct (advance_timers s c1) as [[? ?]|]; done. }
  destruct Hpk as (idx & Er & ->). cbn [tasks set_ready] in H. destruct (tasks s !! t) as [sl|] eqn:Et; [|done]. cbn [mbind option_bind] in H. destruct (poll p (body sl) (ctx_of sl)) as [b st] eqn:Epoll. set (s1 := upd_task _ t _) in H. destruct (process_step p cfg s1 c1 t st) as [[s2 c2]|] eqn:Eps; [|done]. cbn [mbind option_bind] in H. injection H as <- _ _ <-. cbn [estep etid].
  pose proof (process_time _ _ _ _ _ _ _ _ Eps) as [Q _]. split; [exact Q|]. destruct st; try done; cbn [process_step] in Eps.
  - intros (sl' & Et' & Q') i d Ei. unfold do_select in Eps. destruct (ready_arms s1 arms 0) as [l|] eqn:El; [|done]. destruct l as [|i1 l].
    + injection Eps as <- _. rewrite register_eq. cbn [timers upd_task set_tasks set_timers]. apply elem_of_app. right. apply elem_of_list_In, in_map_iff. exists (add64 (clock s1) d, Some i). split; [done|]. rewrite <- elem_of_list_In. apply timeouts_spec. exists i, d. done.
    + exfalso. destruct (match l with [] => _ | _ => _ end) as [[w c3]|]; [|done]. cbn [mbind option_bind] in Eps. destruct ((i1 :: l) !! w) as [i'|]; [|done]. cbn [mbind option_bind] in Eps. destruct (arms !! i') as [[ch|d']|]; [|done..]. pose proof (g_take s1 ch) as (_ & G & _). destruct (take_one s1 ch) as [s3 v]. injection Eps as <- _. cbn in Et'. rewrite lookup_alter in Et'. destruct (tasks s3 !! t) as [sl3|]; [|done]. cbn in Et'. injection Et' as <-. done.
  - injection Eps as <- _. cbn. apply elem_of_app. right. now apply elem_of_list_singleton.
Qed.
(** As long as all the delays asked for add up to less than 2^64, time never runs backwards and no
    timer lies in the past. *)
Definition total es : N := fold_right N.add 0%N (flat_map (fun e => delays (estep e)) es).
Lemma total_app a b : total (a ++ b) = (total a + total b)%N.
Proof. unfold total. rewrite flat_map_app. generalize (flat_map (fun e => delays (estep e)) a). intros l. induction l as [|x l IH]; cbn; [done|]. rewrite IH. lia. Qed.
Lemma in_total d es e : e ∈ es -> d ∈ delays (estep e) -> (d <= total es)%N.
Proof.
  intros He Hd. unfold total. assert (H : In d (flat_map (fun e => delays (estep e)) es)) by (apply in_flat_map; exists e; now rewrite <- !elem_of_list_In). induction (flat_map _ es) as [|x l IH]; [done|]. cbn. destruct H as [->|H]; [lia|]. apply IH in H. lia.
Qed.
Definition timely s (m : N) : Prop := (clock s <= m)%N /\ forall tm, tm ∈ timers s -> (clock s <= fire_at tm <= m)%N.
Lemma timely_still s s' m : still s s' -> timely s m -> timely s' m.
Proof. intros [E H] [T1 T2]. split; rewrite E; [done|]. intros tm Ht. apply T2. now apply H. Qed.
Lemma timely_exec cs : forall s c m s' c' es, exec p cfg (s, c) cs = Some (s', c', es) -> timely s m -> (m + total es < 2 ^ 64)%N -> timely s' (m + total es) /\ (clock s <= clock s')%N.
Proof.
  induction cs as [|a cs IH]; intros s c m s' c' es H T Hm; cbn [exec] in H.
  - injection H as <- <- <-. change (total []) with 0%N. rewrite N.add_0_r. split; [done|lia].
  - destruct (do_call p cfg (s, c) a) as [[[s1 c1] e1]|] eqn:E1; [|done]. cbn [mbind option_bind] in H. destruct (exec p cfg (s1, c1) cs) as [[[s2 c2] e2]|] eqn:E2; [|done]. cbn [mbind option_bind] in H. injection H as <- <- <-. rewrite total_app in *. rewrite N.add_assoc in *.
    assert (G : timely s1 (m + total e1) /\ (clock s <= clock s1)%N).
    { assert (St : still s s1 -> timely s1 (m + total e1) /\ (clock s <= clock s1)%N). { intros S. split; [|destruct S as [-> _]; lia]. apply (timely_still s); [done|]. destruct T as [T1 T2]. split; [lia|]. intros tm Ht. specialize (T2 tm Ht). lia. }
      destruct a as [b mn|cap| |]; cbn [do_call fst snd] in E1.
      - injection E1 as <- _ <-. now apply St.
      - injection E1 as <- _ <-. now apply St.
      - destruct (poll_once p cfg (s, c)) as [[[[s3 c3] o3] e3]|] eqn:E3; [|done]. cbn [mbind option_bind] in E1. injection E1 as -> _ <-. unfold poll_once in E3. destruct (pick_ready cfg s c) as [[o1 c4]|] eqn:Ep; [|done]. cbn [mbind option_bind] in E3. pose proof (pick_spec _ _ _ _ _ Ep) as Hpk. destruct o1 as [[t s4]|].
        + destruct Hpk as (idx & Er & ->). cbn [tasks set_ready] in E3. destruct (tasks s !! t) as [sl|] eqn:Et; [|done]. cbn [mbind option_bind] in E3. destruct (poll p (body sl) (ctx_of sl)) as [b st]. destruct (process_step p cfg _ c4 t st) as [[s5 c5]|] eqn:Eps; [|done]. cbn [mbind option_bind] in E3. injection E3 as -> _ _ <-. apply process_time in Eps as [Q1 Q2]. cbn [clock timers upd_task set_tasks set_ready] in Q1, Q2. split; [|lia]. destruct T as [T1 T2]. split; [lia|]. intros tm Ht. rewrite Q1. destruct (Q2 tm Ht) as [K|(d & Kd & ->)]; [specialize (T2 tm K); lia|].
          pose proof (in_total d (option_list (Some (Event t (ctx_of sl) st (next_id s)))) (Event t (ctx_of sl) st (next_id s)) ltac:(now apply elem_of_list_singleton) Kd) as Z. cbn [next_id upd_task set_tasks set_ready] in *. unfold add64. change two64 with (2 ^ 64)%N. rewrite N.mod_small; lia.
        + destruct Hpk as [Er ->]. destruct (timers s) as [|tm0 l0] eqn:Etm; [injection E3 as -> _ _ <-; now apply St|]. clear tm0 l0 Etm. destruct (advance_timers s c) as [[s5 c5]|] eqn:Ea; [|done]. cbn [mbind option_bind] in E3. injection E3 as -> _ _ <-. unfold advance_timers in Ea. destruct (earliest (timers s)) as [e|] eqn:Ee; [|injection Ea as <- _; now apply St]. destruct (if 1 <? _ then _ else _) as [[order c6]|]; [|done]. cbn [mbind option_bind] in Ea. injection Ea as <- _.
          destruct (earliest_spec _ _ Ee) as [(tm1 & K1 & K2) K3]. destruct T as [T1 T2]. pose proof (T2 tm1 K1) as Z1. change (total (option_list None)) with 0%N. rewrite N.add_0_r. set (s6 := set_timers (set_clock s e) (List.filter (fun x => negb (fire_at x =? e)%N) (timers s))). pose proof (still_fold (fun s x => fire_timer s (ttid x) (tarm x)) order (fun s x => still_fire s (ttid x) (tarm x)) s6) as St6. split; [|destruct St6 as [-> _]; cbn; lia]. apply (timely_still s6); [exact St6|]. split; [cbn; lia|]. cbn. intros tm Ht. apply elem_of_list_In, filter_In in Ht as [Ht _]. rewrite <- elem_of_list_In in Ht. specialize (K3 tm Ht). specialize (T2 tm Ht). lia.
      - injection E1 as <- _ <-. apply St. apply still_fold. done. }
    destruct G as [G1 G2]. destruct (IH _ _ _ _ _ _ E2 G1) as [H1 H2]; [lia|]. split; [done|lia].
Qed.
Theorem C56_forward c0 cs cs' s c es s' c' es' : exec p cfg (new_core, c0) cs = Some (s, c, es) -> exec p cfg (s, c) cs' = Some (s', c', es') -> (total (es ++ es') < 2 ^ 64)%N ->
  (clock s <= clock s')%N /\ (forall tm, tm ∈ timers s' -> (clock s' <= fire_at tm)%N) /\ (clock s' <= total (es ++ es'))%N.
Proof.
  intros H1 H2 Ht. rewrite total_app in *. destruct (timely_exec cs new_core c0 0%N s c es H1) as [T1 _]; [split; [done|]; intros tm H; now apply elem_of_nil in H|lia|]. destruct (timely_exec cs' s c _ s' c' es' H2 T1) as [T2 T3]; [lia|]. rewrite !N.add_0_l in T2. destruct T2 as [T2 T4]. split; [done|]. split; [|done]. intros tm Hm. now apply T4.
Qed.
End Runs.
End Time.
