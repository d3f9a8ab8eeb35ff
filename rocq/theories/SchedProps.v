(** Channels, waiting, selecting and awaiting in the task scheduler. *)
From Coq Require Import NArith List Lia.
From stdpp Require Import list gmap.
From Verif Require Import SchedModel SchedInv SchedOps SchedStep SchedGrow.
From Verif Require SchedReplay.
Open Scope nat_scope.

Section Props.
Context {B : Type} (p : program B) (cfg : config).
Implicit Types (s : core B) (es : list (event B)).
(** A run: the host makes the calls [cs] on a new scheduler; no task aborts itself or names a channel
    twice in one select. For programs that do, the claims are false (see the refutations in SchedEx.v);
    that is what is missing in the theorems named [_partial]. *)
Definition run c0 cs s c es : Prop := exec p cfg (new_core, c0) cs = Some (s, c, es) /\ fair es.
Lemma run_good c0 cs s c es : run c0 cs s c es -> good s es.
Proof. intros [H F]. now apply (exec_good p cfg cs c0 s c es). Qed.
Lemma run_made c0 cs s c es : run c0 cs s c es -> (forall e, e ∈ es -> made cfg s e) /\ rests es.
Proof.
  intros [H F]. destruct (exec_made p cfg cs new_core c0 [] s c es) as (_ & H1 & H2); try done.
  - apply good_new. - intros e He. now apply elem_of_nil in He. - intros [|? ?]; done.
Qed.

(** ** C18 *)
(** There is one order of all deliveries [L] and one list [A] of the offers made, each taken or not,
    such that: the offers are those of the polls, a [Send] always counts as taken and a [TrySend] says
    whether it was; every channel's deliveries, then its queue, then its blocked senders' messages are
    what was taken, in that order, each once (messages of aborted senders may be missing); what a task
    gets to see is what was delivered to it, in order. *)
Theorem C18_once_in_order_partial c0 cs s c es : run c0 cs s c es -> exists L A,
  offers es = map fst A /\ (forall x, x ∈ A -> snd (fst x) = false -> snd x = true) /\
  (forall ch, match chans s !! ch with
    | None => hist L ch = [] /\ accepted A ch = []
    | Some c => sublist (hist L ch ++ queue c ++ (senders c).*2) (accepted A ch) /\ (no_abort es -> hist L ch ++ queue c ++ (senders c).*2 = accepted A ch)
    end) /\
  (forall t, received es t `prefix_of` given L t /\ tries es t `prefix_of` flags A t) /\
  (forall t sl, tasks s !! t = Some sl -> tst sl <> Finished ->
    given L t = received es t ++ (if decide (t ∈ ready s) then answer_of (last_req es t) (ctx_of sl) else []) /\
    flags A t = tries es t ++ (if decide (t ∈ ready s) then try_of (last_req es t) (ctx_of sl) else [])).
Proof.
  intros R. destruct (run_good _ _ _ _ _ R) as (L & A & W & I & Hs & Pi & Pf). exists L, A. pose proof (i_offers _ _ _ _ _ _ _ _ I) as [O1 O2]. rewrite app_nil_r in O1. split; [done|]. split; [done|]. split; [|split].
  - intros ch. specialize (Pf ch). destruct (chans s !! ch); [|done]. now destruct Pf as (F1 & F2 & _).
  - intros t. pose proof (i_tasks _ _ _ _ _ _ _ _ I t) as T. destruct (tasks s !! t) as [sl|].
    + destruct T as (_ & _ & T1 & T2). destruct (gone (W t)); [done|]. split; [rewrite <- T1|rewrite <- T2]; now apply prefix_app_r.
    + destruct T as (_ & T & -> & ->). unfold received, tries. now rewrite T.
  - intros t sl E N. pose proof (i_tasks _ _ _ _ _ _ _ _ I t) as T. rewrite E in T. destruct T as (T0 & _ & T1 & T2). pose proof (i_ready _ _ _ _ _ _ _ _ I) as [_ Rd]. specialize (Rd t). specialize (Hs t).
    destruct (W t) eqn:Ew; try done; cbn in T1, T2, Rd; rewrite <- T1, <- T2; destruct (decide (t ∈ ready s)) as [K|K]; try done; try (apply Rd in K; done). destruct K. now apply Rd.
Qed.
(** A channel never holds more than its capacity, and its capacity is the one asked for. *)
Theorem C18_capacity_partial c0 cs s c es : run c0 cs s c es ->
  (forall ch ch_, chans s !! ch = Some ch_ -> match capacity ch_ with Some n => length (queue ch_) <= n | None => True end) /\
  (forall t k cap n, Event t k (NewChan cap) n ∈ es -> exists ch_, chans s !! n = Some ch_ /\ capacity ch_ = Some (default (default_capacity cfg) cap)).
Proof.
  intros R. split.
  - intros ch c1 E. destruct (run_good _ _ _ _ _ R) as (L & A & W & I & Hs & Pi & Pf). now destruct (Pi ch c1 E) as (_ & _ & K).
  - intros t k cap n H. destruct (run_made _ _ _ _ _ R) as [M _]. destruct (M _ H) as (_ & _ & Q). exact Q.
Qed.
(** What a receive yields was sent on that channel; only after a close (or a [TryRecv]) it may also be
    nothing. *)
Theorem C18_from_channel_partial c0 cs s c es a e b st n : run c0 cs s c es -> es = a ++ e :: b -> last_req a (etid e) = Some (st, n) ->
  match st with
  | Recv ch => offered es ch (resumed_with (ectx e)) \/ (resumed_with (ectx e) = Nothing /\ closed_in es ch)
  | TryRecv ch => offered es ch (resumed_with (ectx e)) \/ resumed_with (ectx e) = Nothing
  | Send _ _ => resumed_with (ectx e) = Nothing
  | TrySend _ _ => exists ok, resumed_with (ectx e) = PBool ok
  | NewChan _ => new_chan (ectx e) = Some n
  | Spawn _ => spawned (ectx e) = Some n
  | Exit _ => False
  | _ => True
  end.
Proof.
  intros R E H. destruct (run_good _ _ _ _ _ R) as (L & A & W & I & _). pose proof (i_trace _ _ _ _ _ _ _ _ I a e b E) as T. rewrite H in T. destruct st; cbn in T |- *; try done; try (rewrite T; done).
  - destruct T as (v & -> & T). exact T.
  - destruct T as (ok & ->). now exists ok.
  - destruct T as (v & -> & T). exact T.
Qed.

(** ** C19 *)
(** The ready list has each task that can run once, and no other. *)
Theorem C19_ready_partial c0 cs s c es : run c0 cs s c es -> NoDup (ready s) /\ forall t, t ∈ ready s <-> exists sl, tasks s !! t = Some sl /\ tst sl = Ready.
Proof.
  intros R. destruct (run_good _ _ _ _ _ R) as (L & A & W & I & Hs & _). pose proof (i_ready _ _ _ _ _ _ _ _ I) as [N K]. split; [done|]. intros t. rewrite K. pose proof (i_tasks _ _ _ _ _ _ _ _ I t) as T. specialize (Hs t). split.
  - intros Q. destruct (tasks s !! t) as [sl|]; [|destruct T as [T _]; now rewrite T in Q]. exists sl. split; [done|]. destruct T as [T _]. destruct (W t); try done. now destruct T.
  - intros (sl & E & Q). rewrite E in T. destruct T as [T _]. destruct (W t); try done; cbn in T; try congruence; destruct T; congruence.
Qed.
(** What each waiting task waits for: it is registered where its request says, and there nothing is
    available. *)
Definition waiting s es (t : nat) (sl : slot B) : Prop :=
  match tst sl with
  | BlockedRecv => exists ch n c, last_req es t = Some (Recv ch, n) /\ chans s !! ch = Some c /\ t ∈ receivers c /\ queue c = [] /\ senders c = [] /\ closed c = false
  | BlockedSend => exists ch v n c, last_req es t = Some (Send ch v, n) /\ chans s !! ch = Some c /\ (t, v) ∈ senders c /\ has_room c = false /\ receivers c = []
  | BlockedSelect => exists arms n, last_req es t = Some (Select arms, n) /\
      (forall ch, ARecv ch ∈ arms -> exists c, chans s !! ch = Some c /\ t ∈ receivers c /\ queue c = [] /\ senders c = [] /\ closed c = false) /\
      (forall i d, arms !! i = Some (ATimeout d) -> exists a, Timer a t (Some i) ∈ timers s)
  | BlockedTimer => exists d n a, last_req es t = Some (Sleep d, n) /\ Timer a t None ∈ timers s
  | BlockedAwait => exists x n sl', last_req es t = Some (Await x, n) /\ t ∈ default [] (awaiters s !! x) /\ tasks s !! x = Some sl' /\ tst sl' <> Finished
  | BlockedIo => exists n, last_req es t = Some (IoPending, n)
  | Ready => t ∈ ready s
  | Finished => is_Some (results s !! t)
  end.
Theorem C19_waiting_partial c0 cs s c es t sl : run c0 cs s c es -> tasks s !! t = Some sl -> waiting s es t sl.
Proof.
  intros R E. pose proof (C19_ready_partial _ _ _ _ _ R) as [_ Rd]. destruct (run_good _ _ _ _ _ R) as (L & A & W & I & Hs & Pi & Pf). pose proof (i_tasks _ _ _ _ _ _ _ _ I t) as T. rewrite E in T. destruct T as (T1 & T2 & _). pose proof (Hs t) as Ho. unfold waiting. destruct (W t) eqn:Ew; try done; cbn in T1, T2.
  - destruct T1 as [-> _]. apply (i_ready _ _ _ _ _ _ _ _ I). now rewrite Ew.
  - destruct T1 as [-> _]. destruct T2 as [n T2]. destruct (i_dom _ _ _ _ _ _ _ _ I t ch) as [c1 Ec]; [left; rewrite Ew; now apply elem_of_list_singleton|]. exists ch, n, c1. destruct (i_recv _ _ _ _ _ _ _ _ I ch c1 Ec) as [_ K]. cbn in K. assert (Kt : t ∈ receivers c1) by (apply K; rewrite Ew; now apply elem_of_list_singleton). destruct (Pi ch c1 Ec) as (K1 & _). destruct K1 as (Q1 & Q2 & Q3); [intros Q; rewrite Q in Kt; now apply elem_of_nil in Kt|]. done.
  - destruct T1 as [-> _]. destruct T2 as [n T2]. destruct (i_dom _ _ _ _ _ _ _ _ I t ch) as [c1 Ec]; [right; exists v; now rewrite Ew|]. exists ch, v, n, c1. destruct (i_send _ _ _ _ _ _ _ _ I ch c1 Ec) as [_ K]. assert (Kt : (t, v) ∈ senders c1) by (apply K; now rewrite Ew). assert (Nn : senders c1 <> []) by (intros Q; rewrite Q in Kt; now apply elem_of_nil in Kt). destruct (Pi ch c1 Ec) as (K1 & K2 & _). split_and!; try done; [now apply K2|]. destruct (receivers c1); [done|]. now destruct K1 as (_ & Q & _).
  - destruct T1 as [-> _]. destruct T2 as [n T2]. exists arms, n. split; [done|]. split.
    + intros ch Hc. apply recv_chans_spec in Hc. destruct (i_dom _ _ _ _ _ _ _ _ I t ch) as [c1 Ec]; [left; now rewrite Ew|]. exists c1. destruct (i_recv _ _ _ _ _ _ _ _ I ch c1 Ec) as [_ K]. cbn in K. assert (Kt : t ∈ receivers c1) by (apply K; now rewrite Ew). destruct (Pi ch c1 Ec) as (K1 & _). destruct K1 as (Q1 & Q2 & Q3); [intros Q; rewrite Q in Kt; now apply elem_of_nil in Kt|]. done.
    + intros i d Hi. pose proof (i_timer _ _ _ _ _ _ _ _ I) as (_ & _ & K). exists (add64 since d). rewrite <- (app_nil_r (timers s)). apply K. rewrite Ew. cbn. apply timeouts_spec. exists i, d. done.
  - destruct T1 as [-> _]. destruct T2 as (d & n & T2). exists d, n, at_. split; [done|]. pose proof (i_timer _ _ _ _ _ _ _ _ I) as (_ & _ & K). rewrite <- (app_nil_r (timers s)). apply K. rewrite Ew. now apply elem_of_list_singleton.
  - destruct T1 as [-> _]. destruct T2 as [n T2]. pose proof (i_await _ _ _ _ _ _ _ _ I) as [K1 K2]. assert (Q : dead (W x) = false) by (apply (K2 t); now rewrite Ew). pose proof (i_tasks _ _ _ _ _ _ _ _ I x) as Tx. destruct (tasks s !! x) as [sl'|] eqn:Ex; [|destruct Tx as [Tx _]; now rewrite Tx in Q]. exists x, n, sl'. split; [done|]. split; [apply K1; now rewrite Ew|]. split; [done|]. destruct Tx as [Tx _]. pose proof (Hs x) as Hx. destruct (W x); try done; cbn in Tx; destruct Tx as [-> _]; done.
  - destruct T1 as [-> _]. exact T2.
  - rewrite T1. pose proof (i_results _ _ _ _ _ _ _ _ I) as [K _]. apply K. now rewrite Ew.
Qed.
(** Nobody is registered anywhere without waiting there: no channel, timer or task has a stale entry. *)
Theorem C19_registered_partial c0 cs s c es t : run c0 cs s c es ->
  (forall ch c, chans s !! ch = Some c -> t ∈ receivers c -> exists sl, tasks s !! t = Some sl /\ (tst sl = BlockedRecv /\ (exists n, last_req es t = Some (Recv ch, n)) \/ tst sl = BlockedSelect /\ (exists arms n, last_req es t = Some (Select arms, n) /\ ARecv ch ∈ arms))) /\
  (forall ch c v, chans s !! ch = Some c -> (t, v) ∈ senders c -> exists sl n, tasks s !! t = Some sl /\ tst sl = BlockedSend /\ last_req es t = Some (Send ch v, n)) /\
  (forall a i, Timer a t i ∈ timers s -> exists sl, tasks s !! t = Some sl /\ match i with None => tst sl = BlockedTimer | Some i => tst sl = BlockedSelect /\ exists arms n d, last_req es t = Some (Select arms, n) /\ arms !! i = Some (ATimeout d) end) /\
  (forall x, t ∈ default [] (awaiters s !! x) -> exists sl n, tasks s !! t = Some sl /\ tst sl = BlockedAwait /\ last_req es t = Some (Await x, n)).
Proof.
  intros R. destruct (run_good _ _ _ _ _ R) as (L & A & W & I & Hs & Pi & Pf). pose proof (i_tasks _ _ _ _ _ _ _ _ I t) as T.
  assert (Key : W t <> WNone -> exists sl, tasks s !! t = Some sl /\ slot_ok (W t) sl /\ last_ok (chans s) es t (W t) sl). { destruct (tasks s !! t) as [sl|]; [|now destruct T]. intros _. exists sl. destruct T as (T1 & T2 & _). done. } clear T. split_and!.
  - intros ch c1 E H. destruct (i_recv _ _ _ _ _ _ _ _ I ch c1 E) as [_ K]. cbn in K. apply K in H. destruct Key as (sl & Et & T1 & T2); [intros Q; rewrite Q in H; now apply elem_of_nil in H|]. exists sl. split; [done|]. destruct (W t); try (now apply elem_of_nil in H); cbn in H, T1, T2.
    + left. apply elem_of_list_singleton in H. subst ch0. destruct T1 as [-> _]. done.
    + right. destruct T1 as [-> _]. split; [done|]. destruct T2 as [n T2]. exists arms, n. split; [done|]. now apply recv_chans_spec.
  - intros ch c1 v E H. destruct (i_send _ _ _ _ _ _ _ _ I ch c1 E) as [_ K]. apply K in H. destruct Key as (sl & Et & T1 & T2); [intros Q; now rewrite Q in H|]. destruct (W t); try done; cbn in H, T1, T2. injection H as -> ->. destruct T1 as [T1 _]. destruct T2 as [n T2]. now exists sl, n.
  - intros a i H. pose proof (i_timer _ _ _ _ _ _ _ _ I) as (K & _). apply K in H. cbn in H. destruct Key as (sl & Et & T1 & T2); [intros Q; rewrite Q in H; now apply elem_of_nil in H|]. exists sl. split; [done|]. destruct (W t); try (now apply elem_of_nil in H); cbn in H, T1, T2.
    + destruct T1 as [-> _]. destruct T2 as [n T2]. apply timeouts_spec in H as (j & d & -> & Ej & _). split; [done|]. exists arms, n, d. done.
    + apply elem_of_list_singleton in H. injection H as -> ->. now destruct T1.
  - intros x H. pose proof (i_await _ _ _ _ _ _ _ _ I) as [K _]. apply K in H. destruct Key as (sl & Et & T1 & T2); [intros Q; now rewrite Q in H|]. destruct (W t); try done; cbn in H, T1, T2. injection H as ->. destruct T1 as [T1 _]. destruct T2 as [n T2]. now exists sl, n.
Qed.
(** What is reported, and when: an outcome exactly if nothing is ready and no timer runs; then [Done]
    if every task has ended — with the value a main task ended with, if one did —, [WaitingForIo] if
    one waits for the outside, and else [Deadlock]. *)
Theorem C19_outcome_partial c0 cs s c es s' c' o oe : run c0 cs s c es -> poll_once p cfg (s, c) = Some (s', c', o, oe) ->
  (is_Some o <-> (forall t sl, tasks s !! t = Some sl -> tst sl <> Ready) /\ timers s = []) /\
  match o with
  | None => True
  | Some (Done v) => (forall t sl, tasks s !! t = Some sl -> tst sl = Finished) /\
      ((exists t sl, tasks s !! t = Some sl /\ is_main sl = true /\ exited es t v) \/ (v = Nothing /\ forall t sl w, tasks s !! t = Some sl -> is_main sl = true -> ~ exited es t w))
  | Some WaitingForIo => exists t sl, tasks s !! t = Some sl /\ tst sl = BlockedIo
  | Some Deadlock => (exists t sl, tasks s !! t = Some sl /\ tst sl <> Finished) /\ forall t sl, tasks s !! t = Some sl -> tst sl <> BlockedIo
  end.
Proof.
  intros R H. pose proof (C19_ready_partial _ _ _ _ _ R) as [_ Rd]. unfold poll_once in H. destruct (pick_ready cfg s c) as [[o1 c1]|] eqn:Ep; [|done]. cbn [mbind option_bind] in H. pose proof (pick_spec _ _ _ _ _ Ep) as Hpk. destruct o1 as [[t s1]|].
  - destruct Hpk as (idx & Er & ->). apply elem_of_list_lookup_2 in Er. destruct (tasks _ !! t); [|done]. cbn [mbind option_bind] in H. destruct (poll p _ _). destruct (process_step _ _ _ _ _ _) as [[? ?]|]; [|done]. cbn in H. injection H as _ _ <- _. split; [|done]. split; [intros [? ?]; done|]. intros [K _]. exfalso. apply Rd in Er as (sl & E & Q). now apply (K t sl).
  - destruct Hpk as [Er ->]. assert (Nr : forall t sl, tasks s !! t = Some sl -> tst sl <> Ready). { intros t sl E Q. assert (Z : t ∈ ready s) by (apply Rd; now exists sl). rewrite Er in Z. now apply elem_of_nil in Z. } destruct (timers s) as [|tm l] eqn:Etm.
    + injection H as _ _ <- _. split; [split; [done|now eexists]|]. pose proof (run_good _ _ _ _ _ R) as (L & A & W & I & Hs & _). pose proof (i_main _ _ _ _ _ _ _ _ I) as [M1 M2].
      assert (Fx : forall f, forallb (fun x : nat * slot B => f (snd x)) (map_to_list (tasks s)) = true <-> forall t sl, tasks s !! t = Some sl -> f sl = true).
      { intros f. rewrite forallb_forall. split; [intros K t sl E; apply (K (t, sl)); rewrite <- elem_of_list_In; now apply elem_of_map_to_list|]. intros K [t sl] Hx. rewrite <- elem_of_list_In in Hx. apply elem_of_map_to_list in Hx. now apply (K t). }
      destruct (forallb _ _) eqn:Ef.
      * pose proof (proj1 (Fx (fun sl => match tst sl with Finished => true | _ => false end)) Ef) as K. split; [intros t sl E; specialize (K t sl E); cbn in K; now destruct (tst sl)|]. destruct (main_result s) as [v|] eqn:Em; cbn; [left; now apply M1|right; split; [done|]; intros t sl w; now apply M2].
      * destruct (existsb _ _) eqn:Eb.
        -- apply existsb_exists in Eb as ([t sl] & Hx & Q). rewrite <- elem_of_list_In in Hx. apply elem_of_map_to_list in Hx. exists t, sl. split; [done|]. cbn in Q. now destruct (tst sl).
        -- split.
           ++ apply not_true_iff_false in Ef. assert (Z : ~ forall x, x ∈ map_to_list (tasks s) -> (match tst (snd x) with Finished => true | _ => false end) = true). { intros Z. apply Ef, forallb_forall. intros x Hx. apply Z. now apply elem_of_list_In. }
              destruct (List.existsb (fun x => match tst (snd x) with Finished => false | _ => true end) (map_to_list (tasks s))) eqn:Eu.
              ** apply existsb_exists in Eu as ([t sl] & Hx & Q). rewrite <- elem_of_list_In in Hx. apply elem_of_map_to_list in Hx. exists t, sl. split; [done|]. cbn in Q. intros Q'. now rewrite Q' in Q.
              ** exfalso. apply Z. intros x Hx. destruct (tst (snd x)) eqn:Q; try done; (exfalso; apply not_true_iff_false in Eu; apply Eu, existsb_exists; exists x; rewrite <- elem_of_list_In; split; [done|now rewrite Q]).
           ++ intros t sl E Q. apply not_true_iff_false in Eb. apply Eb, existsb_exists. exists (t, sl). rewrite <- elem_of_list_In. split; [now apply elem_of_map_to_list|]. cbn. now rewrite Q.
    + destruct (advance_timers s c) as [[s2 c2]|]; [|done]. cbn in H. injection H as _ _ <- _. split; [|done]. split; [intros [? ?]; done|]. intros [_ Q]. done.
Qed.
(** When a deadlock is reported, every task that has not ended waits for something only another waiting
    task could provide: a message on an empty open channel, room in a full channel, or the end of a task
    that has not ended either; and none waits for a timer or for the outside. *)
Theorem C19_deadlock_partial c0 cs s c es s' c' oe : run c0 cs s c es -> poll_once p cfg (s, c) = Some (s', c', Some Deadlock, oe) ->
  (exists t sl, tasks s !! t = Some sl /\ tst sl <> Finished) /\
  forall t sl, tasks s !! t = Some sl -> tst sl <> Finished -> exists st n, last_req es t = Some (st, n) /\
    match st with
    | Recv ch => exists c, chans s !! ch = Some c /\ queue c = [] /\ senders c = [] /\ closed c = false
    | Send ch _ => exists c, chans s !! ch = Some c /\ has_room c = false /\ receivers c = []
    | Select arms => forall a, a ∈ arms -> exists ch c, a = ARecv ch /\ chans s !! ch = Some c /\ queue c = [] /\ senders c = [] /\ closed c = false
    | Await x => exists sl', tasks s !! x = Some sl' /\ tst sl' <> Finished
    | _ => False
    end.
Proof.
  intros R H. destruct (C19_outcome_partial _ _ _ _ _ _ _ _ _ R H) as [[[Nr Nt] _] [Ex Nio]]; [now eexists|]. split; [exact Ex|]. intros t sl E N. pose proof (C19_waiting_partial _ _ _ _ _ t sl R E) as Hw. unfold waiting in Hw. destruct (tst sl) eqn:Q; try done.
  - now destruct (Nr t sl E).
  - destruct Hw as (ch & n & c1 & H1 & H2 & _ & H3). exists (Recv ch), n. split; [done|]. now exists c1.
  - destruct Hw as (ch & v & n & c1 & H1 & H2 & _ & H3). exists (Send ch v), n. split; [done|]. now exists c1.
  - destruct Hw as (arms & n & H1 & H2 & H3). exists (Select arms), n. split; [done|]. intros [ch|d] Ha.
    + destruct (H2 ch Ha) as (c1 & Ec & _ & K). now exists ch, c1.
    + apply elem_of_list_lookup in Ha as [i Ha]. destruct (H3 i d Ha) as [a K]. rewrite Nt in K. now apply elem_of_nil in K.
  - destruct Hw as (d & n & a & _ & K). rewrite Nt in K. now apply elem_of_nil in K.
  - destruct Hw as (x & n & sl' & H1 & _ & H2 & H3). exists (Await x), n. split; [done|]. now exists sl'.
  - now destruct (Nio t sl E).
Qed.
(** A recording scheduler does not panic, as long as tasks name existing channels only. *)
Definition knows s (st : step B) : Prop :=
  match st with
  | Recv ch | Send ch _ | TrySend ch _ | TryRecv ch | Close ch => is_Some (chans s !! ch)
  | Select arms => forall ch, ARecv ch ∈ arms -> is_Some (chans s !! ch)
  | SpawnDesc => False
  | _ => True
  end.
Lemma rng_below_lt rng n : 0 < n -> fst (rng_below rng n) < n.
Proof.
  intros H. unfold rng_below. destruct (Nat.leb_spec n 1); [cbn; lia|]. destruct (rng_next rng) as [z st]. cbn. pose proof (N.mod_lt z (N.of_nat n) ltac:(lia)). lia.
Qed.
Lemma record_chooses rng l k n : 0 < n -> exists i rng' l', choose_among (Record rng l) k n = Some (i, Record rng' l') /\ i < n.
Proof. intros H. cbn. pose proof (rng_below_lt rng n H) as Q. destruct (rng_below rng n) as [i rng']. cbn in Q. eauto. Qed.
Lemma shuffle_total {X} n : forall rng l (pool : list X), n = length pool -> exists o rng' l', shuffle n (Record rng l) pool = Some (o, Record rng' l').
Proof.
  induction n as [|n IH]; intros rng l pool En; cbn [shuffle]; [eauto|]. destruct (record_chooses rng l TimerTieBreak (length pool)) as (i & rng' & l' & -> & Hi); [lia|]. cbn [mbind option_bind]. destruct (lookup_lt_is_Some_2 pool i Hi) as [x Ex]. rewrite Ex. cbn [mbind option_bind]. destruct (IH rng' l' (take i pool ++ drop (S i) pool)) as (o & r2 & l2 & ->); [|cbn [mbind option_bind]; eauto]. rewrite app_length, take_length, drop_length. lia.
Qed.
Lemma best_index_lt s l : forall i best q, best < i -> best_index s l i best q < i + length l.
Proof.
  induction l as [|t l IH]; intros i best q H; cbn; [lia|]. destruct (_ <? _)%N; [specialize (IH (S i) i (match tasks s !! t with Some sl => prio sl | None => 0%N end) ltac:(lia))|specialize (IH (S i) best q ltac:(lia))]; lia.
Qed.
Lemma ready_arms_total s arms i : (forall ch, ARecv ch ∈ arms -> is_Some (chans s !! ch)) -> is_Some (ready_arms s arms i).
Proof.
  revert i. induction arms as [|[ch|d] arms IH]; intros i H; cbn [ready_arms]; [now eexists| |apply IH; intros ch Hc; apply H, elem_of_cons; now right]. destruct (H ch) as [c ->]; [apply elem_of_cons; now left|]. cbn [mbind option_bind]. destruct (IH (S i)) as [l ->]; [intros x Hx; apply H, elem_of_cons; now right|]. cbn. now eexists.
Qed.
Theorem C19_no_panic_partial rng l cs s c es : run (Record rng l) cs s c es -> (forall t sl, tasks s !! t = Some sl -> tst sl = Ready -> knows s (snd (poll p (body sl) (ctx_of sl)))) -> is_Some (poll_once p cfg (s, c)).
Proof.
  intros R K. pose proof (C19_ready_partial _ _ _ _ _ R) as [_ Rd].
  assert (Hc : exists rng' l', c = Record rng' l').
  { destruct R as [H _]. destruct (SchedReplay.exec_sim id (fun _ => True) SchedReplay.le_pos SchedReplay.le_pos_refl SchedReplay.le_pos_trans (fun _ _ _ _ => I) SchedReplay.le_pos_choose (fun _ _ _ _ _ H _ => H) p cfg cs _ _ _ _ _ H) as [Q _]. destruct c as [r' l'|]; [now exists r', l'|done]. }
  destruct Hc as (rng' & l' & ->).
  assert (Pk : exists o r2 l2, pick_ready cfg s (Record rng' l') = Some (o, Record r2 l2)).
  { unfold pick_ready. destruct (ready s) as [|t0 q] eqn:Er; [eauto|]. rewrite <- Er. assert (Len : length (ready s) = S (length q)) by (rewrite Er; done).
    assert (Key : forall i (c2 : chooser), i < length (ready s) -> exists o, ('(idx, c0) ← Some (i, c2); t ← ready s !! idx; Some (Some (t, set_ready s (take idx (ready s) ++ drop (S idx) (ready s))), c0)) = Some (o, c2)). { intros i c2 Hi. cbn [mbind option_bind]. destruct (lookup_lt_is_Some_2 (ready s) i Hi) as [x ->]. cbn. eauto. }
    destruct (cpolicy cfg).
    - destruct (Key 0 (Record rng' l')) as [o E]; [lia|]. exists o, rng', l'. exact E.
    - destruct (Key (length (ready s) - 1) (Record rng' l')) as [o E]; [lia|]. exists o, rng', l'. exact E.
    - destruct (Key 0 (Record rng' l')) as [o E]; [lia|]. exists o, rng', l'. exact E.
    - destruct (record_chooses rng' l' TaskPick (length (ready s))) as (i & r2 & l2 & -> & Hi); [lia|]. destruct (Key i (Record r2 l2) Hi) as [o E]. exists o, r2, l2. exact E.
    - destruct (Key (best_index s q 1 0 (match tasks s !! t0 with Some sl => prio sl | None => 0%N end)) (Record rng' l')) as [o E]; [pose proof (best_index_lt s q 1 0 (match tasks s !! t0 with Some sl => prio sl | None => 0%N end)); lia|]. exists o, rng', l'. exact E. }
  destruct Pk as (o & r2 & l2 & Ep). unfold poll_once. rewrite Ep. cbn [mbind option_bind]. pose proof (pick_spec _ _ _ _ _ Ep) as Hpk. destruct o as [[t s1]|].
  - destruct Hpk as (idx & Er & ->). cbn [tasks set_ready]. apply elem_of_list_lookup_2 in Er. pose proof Er as Er'. apply Rd in Er' as (sl & Et & Est). rewrite Et. cbn [mbind option_bind]. specialize (K t sl Et Est). destruct (poll p (body sl) (ctx_of sl)) as [b st]. cbn [snd] in K. set (s1 := upd_task _ t _).
    assert (Hdel : forall ch c1 rid r v cm, chans s !! ch = Some c1 -> receivers c1 = rid :: r -> is_Some (deliver (set_chan s1 ch cm) rid ch v)).
    { intros ch c1 rid r v cm Ec Hr. destruct (C19_registered_partial _ _ _ _ _ rid R) as (Q & _). destruct (Q ch c1 Ec) as (slr & Etr & Qr); [rewrite Hr; apply elem_of_cons; now left|]. assert (N : rid <> t). { intros ->. destruct Qr as [[Qr _]|[Qr _]]; congruence. }
      destruct (run_good _ _ _ _ _ R) as (L & A & W & I & Hs & _). pose proof (i_tasks _ _ _ _ _ _ _ _ I rid) as T. rewrite Etr in T. destruct T as [T _]. destruct (i_recv _ _ _ _ _ _ _ _ I ch c1 Ec) as [_ Kr]. cbn in Kr. specialize (Kr rid). rewrite Hr in Kr. assert (Hin : ch ∈ rpart (W rid)) by (apply Kr, elem_of_cons; now left).
      unfold deliver, set_chan. cbn [tasks set_chans s1 upd_task set_tasks set_ready]. rewrite lookup_alter_ne by congruence. rewrite Etr. destruct (W rid); try (now apply elem_of_nil in Hin); cbn in T, Hin.
      - destruct T as (_ & -> & _). now eexists.
      - destruct T as (_ & -> & _). destruct (arm_position_some arms ch Hin) as [i ->]. now eexists. }
    assert (G : is_Some (process_step p cfg s1 (Record r2 l2) t st)).
    { destruct st; cbn [process_step]; try done; try (now eexists); cbn [knows] in K.
      - unfold do_recv. change (chans s1) with (chans s). destruct K as [c1 ->]. destruct (queue c1) as [|v q]; [destruct (senders c1) as [|[sid v] q]; [destruct (closed c1)|]|]; cbn; now eexists.
      - unfold do_send. change (chans s1) with (chans s). destruct K as [c1 Ec]. rewrite Ec. destruct (receivers c1) as [|rid r] eqn:Hr; [destruct (has_room c1); cbn; now eexists|]. destruct (Hdel ch c1 rid r v (with_receivers c1 r) Ec Hr) as [s2 ->]. cbn. now eexists.
      - unfold do_try_send. change (chans s1) with (chans s). destruct K as [c1 Ec]. rewrite Ec. destruct (receivers c1) as [|rid r] eqn:Hr; [destruct (has_room c1); cbn; now eexists|]. destruct (Hdel ch c1 rid r v (with_receivers c1 r) Ec Hr) as [s2 ->]. cbn. now eexists.
      - unfold do_try_recv. change (chans s1) with (chans s). destruct K as [c1 ->]. destruct (queue c1) as [|v q]; [destruct (senders c1) as [|[sid v] q]|]; cbn; now eexists.
      - unfold do_select. destruct (ready_arms_total s1 arms 0) as [lr Elr]; [exact K|]. rewrite Elr. pose proof (ready_arms_in s1 arms 0 lr Elr) as Hin. destruct lr as [|i1 lr]; [now eexists|].
        assert (Hw : exists w c3, (match lr with [] => Some (0, Record r2 l2) | _ => choose_among (Record r2 l2) SelectWinner (length (i1 :: lr)) end) = Some (w, c3) /\ w < length (i1 :: lr)). { destruct lr as [|i2 lr]; [exists 0, (Record r2 l2); split; [done|cbn; lia]|]. destruct (record_chooses r2 l2 SelectWinner (length (i1 :: i2 :: lr))) as (i & r3 & l3 & -> & Hi); [cbn; lia|]. eauto. }
        destruct Hw as (w & c3 & Ew & Hw). destruct (lookup_lt_is_Some_2 (i1 :: lr) w Hw) as [i Ei]. pose proof (Hin i (elem_of_list_lookup_2 _ _ _ Ei)) as (k & ch & cc & -> & Ea & _). cbn [Nat.add] in *. destruct lr as [|i2 lr]; rewrite Ew; cbn [mbind option_bind]; rewrite Ei; cbn [mbind option_bind]; rewrite Ea; destruct (take_one s1 ch); now eexists.
      - unfold do_close. change (chans s1) with (chans s). destruct K as [c1 ->]. cbn. now eexists. }
    destruct G as [[s2 c2] ->]. cbn. now eexists.
  - destruct (timers s) as [|tm q] eqn:Etm; [now eexists|]. assert (G : is_Some (advance_timers s (Record r2 l2))).
    { unfold advance_timers. destruct (earliest (timers s)) as [e|]; [|now eexists]. destruct (1 <? _); [|now eexists]. destruct (shuffle_total (length (List.filter (fun x => (fire_at x =? e)%N) (timers s))) r2 l2 (List.filter (fun x => (fire_at x =? e)%N) (timers s)) eq_refl) as (ord & r3 & l3 & ->). now eexists. }
    destruct G as [[s2 c2] ->]. exists (s2, c2, None, None). reflexivity.
Qed.

(** ** C20 *)
(** A task that waited in a select goes on with exactly one arm: the context of its next poll names an
    arm of that select, and carries a message of that arm's channel or, for a timeout, nothing. *)
Theorem C20_one_arm_partial c0 cs s c es a e b arms n : run c0 cs s c es -> es = a ++ e :: b -> last_req a (etid e) = Some (Select arms, n) ->
  exists i, selected (ectx e) = Some i /\ ((exists ch, arms !! i = Some (ARecv ch) /\ (offered es ch (resumed_with (ectx e)) \/ (resumed_with (ectx e) = Nothing /\ closed_in es ch))) \/ (exists d, arms !! i = Some (ATimeout d) /\ resumed_with (ectx e) = Nothing)).
Proof.
  intros R E H. destruct (run_good _ _ _ _ _ R) as (L & A & W & I & _). pose proof (i_trace _ _ _ _ _ _ _ _ I a e b E) as T. rewrite H in T. cbn in T. destruct T as (v & i & -> & T). exists i. split; [done|]. exact T.
Qed.
(** Nothing else is reported as a select's arm. *)
Theorem C20_only_selects_partial c0 cs s c es a e b : run c0 cs s c es -> es = a ++ e :: b -> is_Some (selected (ectx e)) -> exists arms n, last_req a (etid e) = Some (Select arms, n).
Proof.
  intros R E H. destruct (run_good _ _ _ _ _ R) as (L & A & W & I & _). pose proof (i_trace _ _ _ _ _ _ _ _ I a e b E) as T. destruct (last_req a (etid e)) as [[st n]|]; [|cbn in T; rewrite T in H; now destruct H]. destruct H as [i H]. destruct st; cbn in T; try done; try (rewrite T in H; cbn in H; done); try (destruct T as (? & T); rewrite T in H; cbn in H; done); try (destruct T as (? & T & _); rewrite T in H; cbn in H; done). now exists arms, n.
Qed.
(** Once it can go on (or has ended) it is registered nowhere: no other arm can fire. *)
Theorem C20_deregistered_partial c0 cs s c es t sl : run c0 cs s c es -> tasks s !! t = Some sl -> tst sl = Ready \/ tst sl = Finished ->
  (forall ch c, chans s !! ch = Some c -> t ∉ receivers c /\ t ∉ (senders c).*1) /\ (forall tm, tm ∈ timers s -> ttid tm <> t) /\ (forall x, t ∉ default [] (awaiters s !! x)).
Proof.
  intros R E H. destruct (C19_registered_partial _ _ _ _ _ t R) as (H1 & H2 & H3 & H4). split_and!.
  - intros ch c1 Ec. split.
    + intros Q. destruct (H1 ch c1 Ec Q) as (sl' & E' & [[Z _]|[Z _]]); destruct H; congruence.
    + intros Q. apply elem_of_list_fmap in Q as ([t' v] & -> & Q). destruct (H2 ch c1 v Ec Q) as (sl' & n & E' & Z & _). cbn in E, E'. destruct H; congruence.
  - intros [a x i] Q <-. cbn in *. destruct (H3 a i Q) as (sl' & E' & Z). destruct i as [i|]; [destruct Z as [Z _]|]; destruct H; congruence.
  - intros x Q. destruct (H4 x Q) as (sl' & n & E' & Z & _). destruct H; congruence.
Qed.

(** ** C21 *)
(** An await of a task yields what the task exited with, or nothing if it was aborted. *)
Theorem C21_result_partial c0 cs s c es a e b x n : run c0 cs s c es -> es = a ++ e :: b -> last_req a (etid e) = Some (Await x, n) -> x < n -> is_Some (tasks s !! x) ->
  exited es x (resumed_with (ectx e)) \/ (resumed_with (ectx e) = Nothing /\ aborted es x).
Proof.
  intros R E H L Hx. destruct (run_good _ _ _ _ _ R) as (L0 & A & W & I & _). pose proof (i_trace _ _ _ _ _ _ _ _ I a e b E) as T. rewrite H in T. cbn in T. destruct T as (v & -> & T). destruct T as [T|[-> [T|[T|T]]]]; [now left|now right|lia|]. exfalso. destruct (i_ids _ _ _ _ _ _ _ _ I x) as [K1 K2]. destruct (decide (x < next_id s)) as [Q|Q].
  - destruct (K2 Q) as [[_ Z]|[Z _]]; [rewrite Z in T; now destruct T|rewrite Z in Hx; now destruct Hx].
  - destruct K1 as [Z _]; [lia|]. rewrite Z in Hx. now destruct Hx.
Qed.
(** A task that has exited or been aborted by another is never polled again; in particular it exits at
    most once, so the result awaited is the one. *)
Theorem C21_ended_partial c0 cs s c es a e b e' : run c0 cs s c es -> es = a ++ e :: b -> e' ∈ b ->
  match estep e with Exit _ => etid e' <> etid e | Abort x => x < eids e -> etid e' <> x | _ => True end.
Proof.
  intros R E He. destruct (run_made _ _ _ _ _ R) as [_ Rs]. specialize (Rs a e b e' E He). unfold ends in Rs. destruct (estep e) as [ | | | | | | | | | | |x| | |v]; try exact I; [intros L <-; now apply Rs|intros Q; now apply Rs].
Qed.
Theorem C21_exit_once_partial c0 cs s c es x v w : run c0 cs s c es -> exited es x v -> exited es x w -> v = w.
Proof.
  intros R (k1 & n1 & H1) (k2 & n2 & H2). apply elem_of_list_split in H1 as (a & b & E). rewrite E in H2. apply elem_of_app in H2 as [H2|H2]; [|apply elem_of_cons in H2 as [H2|H2]; [congruence|]].
  - apply elem_of_list_split in H2 as (a1 & a2 & E2). rewrite E2, <- app_assoc in E. cbn in E. pose proof (C21_ended_partial _ _ _ _ _ a1 (Event x k2 (Exit w) n2) (a2 ++ Event x k1 (Exit v) n1 :: b) (Event x k1 (Exit v) n1) R E) as Q. exfalso. apply Q; [apply elem_of_app; right; apply elem_of_cons; now left|done].
  - pose proof (C21_ended_partial _ _ _ _ _ a (Event x k1 (Exit v) n1) b (Event x k2 (Exit w) n2) R E H2) as Q. now destruct Q.
Qed.
(** The results the host can ask for are those of the polls. *)
Theorem C21_results_partial c0 cs s c es x : run c0 cs s c es ->
  match results s !! x with Some (Completed v) => exited es x v | Some Aborted => aborted es x | None => forall sl, tasks s !! x = Some sl -> tst sl <> Finished /\ forall v, ~ exited es x v end.
Proof.
  intros R. destruct (run_made _ _ _ _ _ R) as [M _]. destruct (run_good _ _ _ _ _ R) as (L & A & W & I & Hs & _). pose proof (i_results _ _ _ _ _ _ _ _ I) as (R1 & R2 & R3). destruct (results s !! x) as [[v|]|] eqn:E; [now apply R2|now apply R3|]. intros sl Ex. split.
  - pose proof (C19_waiting_partial _ _ _ _ _ x sl R Ex) as Hw. unfold waiting in Hw. intros Q. rewrite Q, E in Hw. now destruct Hw.
  - intros v (k & n & H). pose proof (M _ H) as (_ & _ & Q). cbn in Q. rewrite E in Q. now destruct Q.
Qed.
End Props.
