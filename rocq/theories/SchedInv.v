(** What holds of every reachable scheduler state, and the elementary moves that keep it. *)
From Coq Require Import NArith List Lia.
From stdpp Require Import list gmap.
From Verif Require Import SchedModel.
Open Scope nat_scope.

(** ** What a task is doing *)
(** [WOut]: between two places (running, or being woken); the messages and the send results handed
    to it but not yet put into its slot come along. [WGone]: about to be finished. *)
Inductive wait := WNone | WOut (g : list (nat * payload)) (q : list bool) | WGone | WReady | WRecv (ch : nat) | WSend (ch : nat) (v : payload)
  | WSelect (since : N) (arms : list arm) | WTimer (at_ : N) | WAwait (x : nat) | WIo | WDone.
Definition upd (W : nat -> wait) (t : nat) (w : wait) : nat -> wait := fun x => if x =? t then w else W x.
Lemma upd_same W t w : upd W t w t = w. Proof. unfold upd. now rewrite Nat.eqb_refl. Qed.
Lemma upd_other W t w x : x <> t -> upd W t w x = W x. Proof. intros H. unfold upd. now rewrite (proj2 (Nat.eqb_neq x t) H). Qed.
Lemma proj_upd {X} (f : wait -> X) W t w : f w = f (W t) -> forall x, f (upd W t w x) = f (W x).
Proof. intros H x. destruct (decide (x = t)) as [->|N]; [now rewrite upd_same|now rewrite upd_other]. Qed.
Definition recv_chans (arms : list arm) : list nat := flat_map (fun a => match a with ARecv ch => [ch] | ATimeout _ => [] end) arms.
Fixpoint timeouts (b : N) (arms : list arm) (i : nat) : list (N * option nat) :=
  match arms with [] => [] | ARecv _ :: r => timeouts b r (S i) | ATimeout d :: r => (add64 b d, Some i) :: timeouts b r (S i) end.
Definition rpart (w : wait) : list nat := match w with WRecv ch => [ch] | WSelect _ arms => recv_chans arms | _ => [] end.
Definition spart (w : wait) : option (nat * payload) := match w with WSend ch v => Some (ch, v) | _ => None end.
Definition tpart (w : wait) : list (N * option nat) := match w with WTimer a => [(a, None)] | WSelect b arms => timeouts b arms 0 | _ => [] end.
Definition apart (w : wait) : option nat := match w with WAwait x => Some x | _ => None end.
Definition isready (w : wait) : bool := match w with WReady => true | _ => false end.
Definition isdone (w : wait) : bool := match w with WDone => true | _ => false end.
Definition dead (w : wait) : bool := match w with WNone | WDone => true | _ => false end.

Section Inv.
Context {B : Type}.
Implicit Types (s : core B) (tr : list (event B)) (W : nat -> wait).

(** ** What can be read off a list of polls *)
(** The messages a poll's context carries, given the request it answers. *)
Definition answer_of (l : option (step B * nat)) (k : ctx) : list (nat * payload) :=
  match l with
  | Some (Recv ch, _) | Some (TryRecv ch, _) => [(ch, resumed_with k)]
  | Some (Select arms, _) => match selected k with Some i => match arms !! i with Some (ARecv ch) => [(ch, resumed_with k)] | _ => [] end | None => [] end
  | _ => []
  end.
Definition try_of (l : option (step B * nat)) (k : ctx) : list bool := match l with Some (TrySend _ _, _) => match resumed_with k with PBool b => [b] | _ => [] end | _ => [] end.
Definition scan1 (t : nat) (a : option (step B * nat) * list (nat * payload) * list bool) (e : event B) :=
  let '(l, g, q) := a in if etid e =? t then (Some (estep e, eids e), g ++ answer_of l (ectx e), q ++ try_of l (ectx e)) else a.
Definition scan tr t := fold_left (scan1 t) tr (None, [], []).
(** The request of the last poll of [t]; the messages [t] was given, with their channels; the
    results of its [TrySend]s. *)
Definition last_req tr t : option (step B * nat) := fst (fst (scan tr t)).
Definition received tr t : list (nat * payload) := snd (fst (scan tr t)).
Definition tries tr t : list bool := snd (scan tr t).
(** The messages offered, in the order of the polls; the flag says whether by [TrySend]. *)
Definition offer_of (e : event B) : list (nat * nat * payload * bool) := match estep e with Send ch v => [(etid e, ch, v, false)] | TrySend ch v => [(etid e, ch, v, true)] | _ => [] end.
Definition offers tr := flat_map offer_of tr.
Definition exited tr x v : Prop := exists k n, Event x k (Exit v) n ∈ tr.
Definition aborted tr x : Prop := exists t k n, Event t k (Abort x) n ∈ tr.

Definition closed_in tr ch : Prop := exists t k n, Event t k (Close ch) n ∈ tr.
Definition offered tr ch v : Prop := exists t b, (t, ch, v, b) ∈ offers tr.
(** Where a message may come from: it was sent, or there is none because the channel was closed. *)
Definition src tr ch v : Prop := offered tr ch v \/ (v = Nothing /\ closed_in tr ch).

(** ** What a request may be answered with *)
Definition ctx0 : ctx := Ctx Nothing None None None.
Definition ans (cm : gmap nat chan) tr (l : option (step B * nat)) (k : ctx) : Prop :=
  match l with
  | None => k = ctx0
  | Some (st, n) =>
      match st with
      | Yield | Sleep _ | Abort _ | Close _ | IoPending | Send _ _ => k = ctx0
      | TrySend _ _ => exists b, k = Ctx (PBool b) None None None
      | Recv ch => exists v, k = Ctx v None None None /\ src tr ch v
      | TryRecv ch => exists v, k = Ctx v None None None /\ (offered tr ch v \/ v = Nothing)
      | Select arms => exists v i, k = Ctx v (Some i) None None /\ ((exists ch, arms !! i = Some (ARecv ch) /\ src tr ch v) \/ (exists d, arms !! i = Some (ATimeout d) /\ v = Nothing))
      | NewChan _ => k = Ctx Nothing None (Some n) None
      | Spawn _ => k = Ctx Nothing None None (Some n)
      | Await x => exists v, k = Ctx v None None None /\ (exited tr x v \/ (v = Nothing /\ (aborted tr x \/ n <= x \/ is_Some (cm !! x))))
      | SpawnDesc | Exit _ => False
      end
  end.

(** ** Ghost logs *)
(** Deliveries in their order: task, channel, message ([None]: there was none). *)
Notation dlog := (list (nat * nat * option payload)).
Definition hist (L : dlog) (ch : nat) : list payload := flat_map (fun x => if snd (fst x) =? ch then option_list (snd x) else []) L.
Definition given (L : dlog) (t : nat) : list (nat * payload) := flat_map (fun x => if fst (fst x) =? t then [(snd (fst x), default Nothing (snd x))] else []) L.
(** Offers and whether they were taken. *)
Notation alog := (list (nat * nat * payload * bool * bool)).
Definition accepted (A : alog) (ch : nat) : list payload := flat_map (fun x => if (snd (fst (fst (fst x))) =? ch) && snd x then [snd (fst (fst x))] else []) A.
Definition flags (A : alog) (t : nat) : list bool := flat_map (fun x => if (fst (fst (fst (fst x))) =? t) && snd (fst x) then [snd x] else []) A.

(** ** The invariant *)
Definition slot_ok (w : wait) (sl : slot B) : Prop :=
  match w with
  | WNone => False
  | WOut _ _ | WGone => True
  | WReady => tst sl = Ready /\ sel_arms sl = None
  | WRecv _ => tst sl = BlockedRecv /\ sel_arms sl = None /\ ctx_of sl = ctx0
  | WSend _ _ => tst sl = BlockedSend /\ sel_arms sl = None /\ ctx_of sl = ctx0
  | WSelect _ arms => tst sl = BlockedSelect /\ sel_arms sl = Some arms /\ ctx_of sl = ctx0
  | WTimer _ => tst sl = BlockedTimer /\ sel_arms sl = None /\ ctx_of sl = ctx0
  | WAwait _ => tst sl = BlockedAwait /\ sel_arms sl = None /\ ctx_of sl = ctx0
  | WIo => tst sl = BlockedIo /\ sel_arms sl = None /\ ctx_of sl = ctx0
  | WDone => tst sl = Finished
  end.
Definition last_ok (cm : gmap nat chan) tr (t : nat) (w : wait) (sl : slot B) : Prop :=
  match w with
  | WReady => ans cm tr (last_req tr t) (ctx_of sl)
  | WRecv ch => exists n, last_req tr t = Some (Recv ch, n)
  | WSend ch v => exists n, last_req tr t = Some (Send ch v, n)
  | WSelect _ arms => exists n, last_req tr t = Some (Select arms, n)
  | WTimer _ => exists d n, last_req tr t = Some (Sleep d, n)
  | WAwait x => exists n, last_req tr t = Some (Await x, n)
  | WIo => exists n, last_req tr t = Some (IoPending, n)
  | _ => True
  end.
Definition inflight tr (t : nat) (w : wait) (sl : slot B) : list (nat * payload) := match w with WReady => answer_of (last_req tr t) (ctx_of sl) | WOut g _ => g | _ => [] end.
Definition inflight_try tr (t : nat) (w : wait) (sl : slot B) : list bool := match w with WReady => try_of (last_req tr t) (ctx_of sl) | WOut _ q => q | _ => [] end.
Definition gone (w : wait) : bool := match w with WGone | WDone => true | _ => false end.
Definition task_ok (cm : gmap nat chan) tr (L : dlog) (A : alog) (t : nat) (w : wait) (o : option (slot B)) : Prop :=
  match o with
  | None => w = WNone /\ scan tr t = (None, [], []) /\ given L t = [] /\ flags A t = []
  | Some sl => slot_ok w sl /\ last_ok cm tr t w sl /\
      (if gone w then received tr t `prefix_of` given L t else received tr t ++ inflight tr t w sl = given L t) /\
      (if gone w then tries tr t `prefix_of` flags A t else tries tr t ++ inflight_try tr t w sl = flags A t)
  end.
Definition tasks_ok W (tk : gmap nat (slot B)) cm tr L A : Prop := forall t, task_ok cm tr L A t (W t) (tk !! t).
Definition ready_ok W (rd : list nat) : Prop := NoDup rd /\ forall t, t ∈ rd <-> isready (W t) = true.
(** While a channel is being closed, its waiters are those still to be woken. *)
Definition rcv (xch : option (nat * list nat)) (ch : nat) (c : chan) : list nat := match xch with Some (x, l) => if x =? ch then l else receivers c | None => receivers c end.
Definition recv_ok W xch (cm : gmap nat chan) : Prop := forall ch c, cm !! ch = Some c -> NoDup (rcv xch ch c) /\ forall t, t ∈ rcv xch ch c <-> ch ∈ rpart (W t).
Definition send_ok W (cm : gmap nat chan) : Prop := forall ch c, cm !! ch = Some c -> NoDup (senders c).*1 /\ forall t v, (t, v) ∈ senders c <-> spart (W t) = Some (ch, v).
Definition chan_idle (c : chan) : Prop :=
  (receivers c <> [] -> queue c = [] /\ senders c = [] /\ closed c = false) /\ (senders c <> [] -> has_room c = false) /\
  match capacity c with Some n => length (queue c) <= n | None => True end.
Definition idle_ok (cm : gmap nat chan) : Prop := forall ch c, cm !! ch = Some c -> chan_idle c.
Definition dom_ok W (cm : gmap nat chan) : Prop := forall t ch, ch ∈ rpart (W t) \/ (exists v, spart (W t) = Some (ch, v)) -> is_Some (cm !! ch).
(** [due] are timers taken off the list to be fired. *)
Definition quiet (w : wait) : bool := match w with WReady | WOut _ _ => true | _ => false end.
Definition timer_ok W (tms due : list timer) : Prop :=
  (forall tm, tm ∈ tms -> (fire_at tm, tarm tm) ∈ tpart (W (ttid tm))) /\
  (forall tm, tm ∈ due -> (fire_at tm, tarm tm) ∈ tpart (W (ttid tm)) \/ quiet (W (ttid tm)) = true) /\
  (forall t a i, (a, i) ∈ tpart (W t) -> Timer a t i ∈ tms ++ due).
Definition await_ok W (aw : gmap nat (list nat)) : Prop := (forall x, NoDup (default [] (aw !! x)) /\ forall t, t ∈ default [] (aw !! x) <-> apart (W t) = Some x) /\ (forall t x, apart (W t) = Some x -> dead (W x) = false).
Definition results_ok W (rs : gmap nat aresult) tr : Prop :=
  (forall t, is_Some (rs !! t) <-> isdone (W t) = true) /\ (forall x v, rs !! x = Some (Completed v) -> exited tr x v) /\ (forall x, rs !! x = Some Aborted -> aborted tr x).
Definition ids_ok (tk : gmap nat (slot B)) (cm : gmap nat chan) (nid : nat) : Prop :=
  forall x, (nid <= x -> tk !! x = None /\ cm !! x = None) /\ (x < nid -> (is_Some (tk !! x) /\ cm !! x = None) \/ (tk !! x = None /\ is_Some (cm !! x))).
Definition no_abort tr : Prop := forall e, e ∈ tr -> match estep e with Abort _ => False | _ => True end.
Definition flow_ok (cm : gmap nat chan) (L : dlog) (A : alog) tr : Prop :=
  forall ch, match cm !! ch with
  | None => hist L ch = [] /\ accepted A ch = []
  | Some c => sublist (hist L ch ++ queue c ++ (senders c).*2) (accepted A ch) /\ (no_abort tr -> hist L ch ++ queue c ++ (senders c).*2 = accepted A ch) /\ (closed c = true -> closed_in tr ch)
  end.
Definition offers_ok (A : alog) (po : list (nat * nat * payload * bool)) tr : Prop := offers tr = map fst A ++ po /\ (forall x, x ∈ A -> snd (fst x) = false -> snd x = true).
(** Every answer that has been read was a proper one. *)
Definition trace_ok (cm : gmap nat chan) tr : Prop := forall a e b, tr = a ++ e :: b -> ans cm tr (last_req a (etid e)) (ectx e).
Definition main_ok (tk : gmap nat (slot B)) (m : option payload) tr : Prop :=
  (forall v, m = Some v -> exists t sl, tk !! t = Some sl /\ is_main sl = true /\ exited tr t v) /\
  (m = None -> forall t sl v, tk !! t = Some sl -> is_main sl = true -> ~ exited tr t v).
Record inv s tr L A po W due xch : Prop := Inv {
  i_tasks : tasks_ok W (tasks s) (chans s) tr L A;
  i_ready : ready_ok W (ready s);
  i_recv : recv_ok W xch (chans s);
  i_send : send_ok W (chans s);
  i_dom : dom_ok W (chans s);
  i_timer : timer_ok W (timers s) due;
  i_await : await_ok W (awaiters s);
  i_results : results_ok W (results s) tr;
  i_ids : ids_ok (tasks s) (chans s) (next_id s);
  i_offers : offers_ok A po tr;
  i_trace : trace_ok (chans s) tr;
  i_main : main_ok (tasks s) (main_result s) tr }.

(** ** Independence of the components from irrelevant changes *)
Lemma ready_ext W W' rd : (forall t, isready (W' t) = isready (W t)) -> ready_ok W rd -> ready_ok W' rd.
Proof. intros E [H1 H2]. split; [done|]. intros t. now rewrite E. Qed.
Lemma recv_ext W W' xch cm : (forall t, rpart (W' t) = rpart (W t)) -> recv_ok W xch cm -> recv_ok W' xch cm.
Proof. intros E H ch c Hc. destruct (H ch c Hc) as [H1 H2]. split; [done|]. intros t. now rewrite E. Qed.
Lemma send_ext W W' cm : (forall t, spart (W' t) = spart (W t)) -> send_ok W cm -> send_ok W' cm.
Proof. intros E H ch c Hc. destruct (H ch c Hc) as [H1 H2]. split; [done|]. intros t v. now rewrite E. Qed.
Lemma dom_ext W W' cm : (forall t, rpart (W' t) = rpart (W t)) -> (forall t, spart (W' t) = spart (W t)) -> dom_ok W cm -> dom_ok W' cm.
Proof. intros E1 E2 H t ch. rewrite E1. setoid_rewrite E2. apply H. Qed.
Lemma timer_ext W W' tms due : (forall t, tpart (W' t) = tpart (W t)) -> (forall t, quiet (W t) = true -> quiet (W' t) = true) -> timer_ok W tms due -> timer_ok W' tms due.
Proof. intros E1 E2 (H1 & H2 & H3). split; [|split]. - intros tm. rewrite E1. apply H1. - intros tm Ht. rewrite E1. destruct (H2 tm Ht) as [H|H]; [now left|right]. now apply E2. - intros t a i. rewrite E1. apply H3. Qed.
Lemma await_ext W W' aw : (forall t, apart (W' t) = apart (W t)) -> (forall t, dead (W' t) = dead (W t)) -> await_ok W aw -> await_ok W' aw.
Proof. intros E1 E2 [H1 H2]. split. - intros x. destruct (H1 x) as [K1 K2]. split; [done|]. intros t. now rewrite E1. - intros t x. rewrite E1, E2. apply H2. Qed.
Lemma results_ext W W' rs tr : (forall t, isdone (W' t) = isdone (W t)) -> results_ok W rs tr -> results_ok W' rs tr.
Proof. intros E (H1 & H2). split; [|done]. intros t. now rewrite E. Qed.
(** One task's slot changes. *)
Lemma tasks_upd W tk cm tr L A t w f sl : tasks_ok W tk cm tr L A -> tk !! t = Some sl -> task_ok cm tr L A t w (Some (f sl)) -> tasks_ok (upd W t w) (alter f t tk) cm tr L A.
Proof.
  intros H E K x. destruct (decide (x = t)) as [->|N]; [rewrite upd_same, lookup_alter, E; exact K|]. rewrite upd_other, lookup_alter_ne by congruence. apply H.
Qed.
Lemma tasks_upd_W W tk cm tr L A t w : tasks_ok W tk cm tr L A -> task_ok cm tr L A t w (tk !! t) -> tasks_ok (upd W t w) tk cm tr L A.
Proof. intros H K x. destruct (decide (x = t)) as [->|N]; [rewrite upd_same; exact K|]. rewrite upd_other by done. apply H. Qed.
(** Channels may change as long as none disappears. *)
Definition more (cm cm' : gmap nat chan) : Prop := forall ch, is_Some (cm !! ch) -> is_Some (cm' !! ch).
Lemma offered_more tr tr' ch v : (forall e, e ∈ tr -> e ∈ tr') -> offered tr ch v -> offered tr' ch v.
Proof. intros T (t & b & H). exists t, b. unfold offers in *. rewrite elem_of_list_In, in_flat_map in *. destruct H as (e & He & H). exists e. split; [|done]. rewrite <- elem_of_list_In in *. now apply T. Qed.
Lemma closed_more tr tr' ch : (forall e, e ∈ tr -> e ∈ tr') -> closed_in tr ch -> closed_in tr' ch.
Proof. intros T (t & k & n & H). exists t, k, n. now apply T. Qed.
Lemma src_more tr tr' ch v : (forall e, e ∈ tr -> e ∈ tr') -> src tr ch v -> src tr' ch v.
Proof. intros T [H|[-> H]]; [left; now apply (offered_more tr)|right; split; [done|now apply (closed_more tr)]]. Qed.
Lemma ans_more cm cm' tr tr' l k : more cm cm' -> (forall e, e ∈ tr -> e ∈ tr') -> ans cm tr l k -> ans cm' tr' l k.
Proof.
  intros M T. destruct l as [[st n]|]; [|done]. destruct st; cbn; try done.
  - intros (v & -> & H). exists v. split; [done|]. now apply (src_more tr).
  - intros (v & -> & H). exists v. split; [done|]. destruct H as [H| ->]; [left; now apply (offered_more tr)|now right].
  - intros (v & i & -> & [(ch & E & H)|H]); exists v, i; (split; [done|]); [left; exists ch; split; [done|]; now apply (src_more tr)|now right].
  - intros (v & -> & H). exists v. split; [done|]. destruct H as [(k' & n' & H)|[-> H]]; [left; exists k', n'; now apply T|right]. split; [done|]. destruct H as [(x & k' & n' & H)|[H|H]]; [left; exists x, k', n'; now apply T|right; now left|right; right; now apply M].
Qed.
Lemma task_more cm cm' tr L A t w o : more cm cm' -> task_ok cm tr L A t w o -> task_ok cm' tr L A t w o.
Proof. intros M. destruct o as [sl|]; [|done]. intros (H1 & H2 & H3). split; [done|]. split; [|done]. destruct w; try done. cbn in *. now apply (ans_more cm cm' tr tr). Qed.
Lemma tasks_more W tk cm cm' tr L A : more cm cm' -> tasks_ok W tk cm tr L A -> tasks_ok W tk cm' tr L A.
Proof. intros M H t. now apply (task_more cm). Qed.
Lemma trace_more cm cm' tr : more cm cm' -> trace_ok cm tr -> trace_ok cm' tr.
Proof. intros M H a e b E. now apply (ans_more cm cm' tr tr), (H a e b). Qed.
Lemma more_insert cm ch c : more cm (<[ch := c]> cm).
Proof. intros x H. destruct (decide (x = ch)) as [->|N]; [rewrite lookup_insert; now eexists|rewrite lookup_insert_ne by congruence; exact H]. Qed.
Lemma ids_alter tk cm nid t f : ids_ok tk cm nid -> ids_ok (alter f t tk) cm nid.
Proof.
  intros H x. destruct (H x) as [H1 H2]. assert (E : is_Some (alter f t tk !! x) <-> is_Some (tk !! x)). { rewrite lookup_alter_is_Some. done. } assert (E' : alter f t tk !! x = None <-> tk !! x = None) by apply lookup_alter_None. split.
  - intros L. rewrite E'. now apply H1. - intros L. rewrite E, E'. now apply H2.
Qed.
Lemma ids_insert_chan tk cm nid ch c c' : ids_ok tk cm nid -> cm !! ch = Some c' -> ids_ok tk (<[ch := c]> cm) nid.
Proof.
  intros H E x. destruct (H x) as [H1 H2]. destruct (decide (x = ch)) as [->|N]; [|rewrite lookup_insert_ne by congruence; now split]. rewrite lookup_insert. split.
  - intros L. destruct (H1 L) as [_ K]. congruence. - intros L. destruct (H2 L) as [[_ K]|[K _]]; [congruence|]. right. split; [done|]. now eexists.
Qed.
Lemma main_alter tk m tr t f : (forall sl, is_main (f sl) = is_main sl) -> main_ok tk m tr -> main_ok (alter f t tk) m tr.
Proof.
  intros Hf [H1 H2]. split.
  - intros v E. destruct (H1 v E) as (x & sl & Ex & Em & He). destruct (decide (x = t)) as [->|N].
    + exists t, (f sl). rewrite lookup_alter, Ex, Hf. done.
    + exists x, sl. rewrite lookup_alter_ne by congruence. done.
  - intros E x sl v Ex Em. destruct (decide (x = t)) as [->|N].
    + rewrite lookup_alter in Ex. destruct (tk !! t) as [sl'|] eqn:E'; [|done]. injection Ex as <-. rewrite Hf in Em. now apply (H2 E t sl').
    + rewrite lookup_alter_ne in Ex by done. now apply (H2 E x sl).
Qed.

Lemma scan_app tr e t : scan (tr ++ [e]) t = scan1 t (scan tr t) e. Proof. unfold scan. now rewrite fold_left_app. Qed.
Lemma last_req_app tr e t : last_req (tr ++ [e]) t = if etid e =? t then Some (estep e, eids e) else last_req tr t.
Proof. unfold last_req. rewrite scan_app. destruct (scan tr t) as [[l g] q]. cbn. now destruct (etid e =? t). Qed.
Lemma received_app tr e t : received (tr ++ [e]) t = received tr t ++ (if etid e =? t then answer_of (last_req tr t) (ectx e) else []).
Proof. unfold received, last_req. rewrite scan_app. destruct (scan tr t) as [[l g] q]. cbn. destruct (etid e =? t); [done|]. now rewrite app_nil_r. Qed.
Lemma tries_app tr e t : tries (tr ++ [e]) t = tries tr t ++ (if etid e =? t then try_of (last_req tr t) (ectx e) else []).
Proof. unfold tries, last_req. rewrite scan_app. destruct (scan tr t) as [[l g] q]. cbn. destruct (etid e =? t); [done|]. now rewrite app_nil_r. Qed.
Lemma last_req_some tr e : e ∈ tr -> is_Some (last_req tr (etid e)).
Proof.
  induction tr as [|a tr IH] using rev_ind; intros H; [now apply elem_of_nil in H|]. rewrite last_req_app. destruct (Nat.eqb_spec (etid a) (etid e)) as [E|N]; [now eexists|]. apply elem_of_app in H as [H|H]; [now apply IH|]. apply elem_of_list_singleton in H. now subst.
Qed.
Lemma hist_app L x ch : hist (L ++ [x]) ch = hist L ch ++ (if snd (fst x) =? ch then option_list (snd x) else []).
Proof. unfold hist. rewrite flat_map_app. cbn. now rewrite app_nil_r. Qed.
Lemma given_app L x t : given (L ++ [x]) t = given L t ++ (if fst (fst x) =? t then [(snd (fst x), default Nothing (snd x))] else []).
Proof. unfold given. rewrite flat_map_app. cbn. now rewrite app_nil_r. Qed.
Lemma accepted_app A x ch : accepted (A ++ [x]) ch = accepted A ch ++ (if (snd (fst (fst (fst x))) =? ch) && snd x then [snd (fst (fst x))] else []).
Proof. unfold accepted. rewrite flat_map_app. cbn. now rewrite app_nil_r. Qed.
Lemma flags_app A x t : flags (A ++ [x]) t = flags A t ++ (if (fst (fst (fst (fst x))) =? t) && snd (fst x) then [snd x] else []).
Proof. unfold flags. rewrite flat_map_app. cbn. now rewrite app_nil_r. Qed.
Lemma recv_chans_spec arms ch : ch ∈ recv_chans arms <-> ARecv ch ∈ arms.
Proof.
  unfold recv_chans. rewrite !elem_of_list_In, in_flat_map. split.
  - intros (a & Ha & H). destruct a as [c|d]; [|done]. destruct H as [->|[]]. done.
  - intros H. exists (ARecv ch). split; [done|]. now left.
Qed.
Lemma timeouts_spec b arms i a o : (a, o) ∈ timeouts b arms i <-> exists j d, o = Some (i + j) /\ arms !! j = Some (ATimeout d) /\ a = add64 b d.
Proof.
  revert i. induction arms as [|x arms IH]; intros i; cbn.
  - split; [intros H; now apply elem_of_nil in H|intros (j & d & _ & H & _); now rewrite lookup_nil in H].
  - destruct x as [c|d].
    + rewrite IH. split.
      * intros (j & d & -> & H & ->). exists (S j), d. split; [f_equal; lia|done].
      * intros ([|j] & d & -> & H & ->); [done|]. exists j, d. split; [f_equal; lia|done].
    + rewrite elem_of_cons, IH. split.
      * intros [[= -> ->]|(j & d' & -> & H & ->)]; [exists 0, d; split; [f_equal; lia|done]|exists (S j), d'; split; [f_equal; lia|done]].
      * intros ([|j] & d' & -> & H & ->); [injection H as ->; left; f_equal; f_equal; lia|right]. exists j, d'. split; [f_equal; lia|done].
Qed.

Lemma keep_out t (l : list nat) : t ∉ l -> List.filter (fun x => negb (x =? t)) l = l.
Proof.
  induction l as [|a l IH]; [done|]. intros H. cbn. apply not_elem_of_cons in H as [N H]. destruct (Nat.eqb_spec a t) as [->|_]; [done|]. cbn. f_equal. now apply IH.
Qed.
Lemma keep_elem t (l : list nat) x : x ∈ List.filter (fun x => negb (x =? t)) l <-> x ∈ l /\ x <> t.
Proof. rewrite !elem_of_list_In, filter_In. destruct (Nat.eqb_spec x t) as [->|N]; cbn; [split; [intros [_ H]; done|tauto]|tauto]. Qed.
Lemma keep_NoDup {X} (f : X -> bool) (l : list X) : NoDup l -> NoDup (List.filter f l).
Proof. rewrite !NoDup_ListNoDup. apply List.NoDup_filter. Qed.
Lemma keep_NoDup_fst {X} t (l : list (nat * X)) : NoDup l.*1 -> NoDup (List.filter (fun x => negb (fst x =? t)) l).*1.
Proof.
  induction l as [|[a v] l IH]; [done|]. cbn. intros H. apply NoDup_cons in H as [N H]. destruct (a =? t); cbn; [now apply IH|]. apply NoDup_cons. split; [|now apply IH]. intros K. apply N. apply elem_of_list_fmap in K as ([b w] & -> & K). apply elem_of_list_fmap. exists (b, w). split; [done|]. rewrite elem_of_list_In in *. now apply filter_In in K.
Qed.

(** ** Moves *)
Ltac frame Hw := cbn; first
  [ assumption
  | eapply ready_ext; [apply (proj_upd isready); rewrite Hw; reflexivity|eassumption]
  | eapply recv_ext; [apply (proj_upd rpart); rewrite Hw; reflexivity|eassumption]
  | eapply send_ext; [apply (proj_upd spart); rewrite Hw; reflexivity|eassumption]
  | eapply dom_ext; [apply (proj_upd rpart); rewrite Hw; reflexivity|apply (proj_upd spart); rewrite Hw; reflexivity|eassumption]
  | eapply timer_ext; [apply (proj_upd tpart); rewrite Hw; reflexivity|intros ?x; rewrite (proj_upd quiet) by (rewrite Hw; reflexivity); done|eassumption]
  | eapply await_ext; [apply (proj_upd apart); rewrite Hw; reflexivity|apply (proj_upd dead); rewrite Hw; reflexivity|eassumption]
  | eapply results_ext; [apply (proj_upd isdone); rewrite Hw; reflexivity|eassumption]
  | apply ids_alter; assumption
  | apply main_alter; [done|assumption]
  | idtac ].
(** A task outside is put into the ready list. *)
Lemma attach_ready s tr L A po W due xch t g q f sl : inv s tr L A po W due xch -> W t = WOut g q -> tasks s !! t = Some sl ->
  tst (f sl) = Ready -> sel_arms (f sl) = None -> (forall x, is_main (f x) = is_main x) -> answer_of (last_req tr t) (ctx_of (f sl)) = g -> try_of (last_req tr t) (ctx_of (f sl)) = q -> ans (chans s) tr (last_req tr t) (ctx_of (f sl)) ->
  inv (set_ready (upd_task s t f) (ready s ++ [t])) tr L A po (upd W t WReady) due xch.
Proof.
  intros I Hw Et H1 H2 H3 H4 H5 H6. destruct I. split; frame Hw.
  - apply (tasks_upd _ _ _ _ _ _ _ _ _ sl); [done..|]. specialize (i_tasks0 t). rewrite Hw, Et in i_tasks0. destruct i_tasks0 as (_ & _ & K1 & K2). split; [done|]. split; [done|]. cbn in *. rewrite H4, H5. done.
  - destruct i_ready0 as [N K]. split.
    + apply NoDup_app. split; [done|]. split; [|apply NoDup_singleton]. intros x Hx Hx'. apply elem_of_list_singleton in Hx'. subst x. apply K in Hx. rewrite Hw in Hx. done.
    + intros x. rewrite elem_of_app, elem_of_list_singleton, K. destruct (decide (x = t)) as [->|Nx]; [rewrite upd_same; tauto|rewrite upd_other by done; tauto].
Qed.
(** A channel's queue or its being closed changes. *)
Lemma inv_chan s tr L A po W due ch c c' : inv s tr L A po W due None -> chans s !! ch = Some c -> receivers c' = receivers c -> senders c' = senders c -> inv (set_chan s ch c') tr L A po W due None.
Proof.
  intros I E R S. destruct I. pose proof (more_insert (chans s) ch c') as M. split; cbn; try done.
  - now apply (tasks_more _ _ (chans s)).
  - intros x cx Ex. destruct (decide (x = ch)) as [->|N]; [rewrite lookup_insert in Ex; injection Ex as <-; cbn; rewrite R; now apply (i_recv0 ch c)|rewrite lookup_insert_ne in Ex by done; now apply (i_recv0 x cx)].
  - intros x cx Ex. destruct (decide (x = ch)) as [->|N]; [rewrite lookup_insert in Ex; injection Ex as <-; rewrite S; now apply (i_send0 ch c)|rewrite lookup_insert_ne in Ex by done; now apply (i_send0 x cx)].
  - intros x cx Ex. now apply M, (i_dom0 x).
  - now apply (ids_insert_chan _ _ _ _ _ c).
  - now apply (trace_more (chans s)).
Qed.
(** A delivery is noted. *)
Lemma inv_give s tr L A po W due xch t g q ch o : inv s tr L A po W due xch -> W t = WOut g q -> inv s tr (L ++ [(t, ch, o)]) A po (upd W t (WOut (g ++ [(ch, default Nothing o)]) q)) due xch.
Proof.
  intros I Hw. destruct I. split; frame Hw. intros x. pose proof (i_tasks0 x) as T. destruct (decide (x = t)) as [->|N].
  - rewrite upd_same, Hw in *. unfold task_ok in *. destruct (tasks s !! t) as [sl|]; [|now destruct T]. destruct T as (_ & _ & K1 & K2). cbn in *. split; [done|]. split; [done|]. rewrite given_app, <- K1. cbn. rewrite Nat.eqb_refl, app_assoc. done.
  - rewrite upd_other by done. unfold task_ok in *. rewrite given_app. cbn. rewrite (proj2 (Nat.eqb_neq t x)), app_nil_r by done. exact T.
Qed.
(** An offer is decided. *)
Lemma inv_offer s tr L A W due xch t g q ch v b ok : inv s tr L A [(t, ch, v, b)] W due xch -> W t = WOut g q -> (b = false -> ok = true) -> inv s tr L (A ++ [(t, ch, v, b, ok)]) [] (upd W t (WOut g (q ++ if b then [ok] else []))) due xch.
Proof.
  intros I Hw Hb. destruct I. split; frame Hw.
  - intros x. pose proof (i_tasks0 x) as T. destruct (decide (x = t)) as [->|N].
    + rewrite upd_same, Hw in *. unfold task_ok in *. destruct (tasks s !! t) as [sl|]; [|now destruct T]. destruct T as (_ & _ & K1 & K2). cbn in *. split; [done|]. split; [done|]. split; [done|]. rewrite flags_app, <- K2. cbn. rewrite Nat.eqb_refl, app_assoc. done.
    + rewrite upd_other by done. unfold task_ok in *. rewrite flags_app. cbn. rewrite (proj2 (Nat.eqb_neq t x)), app_nil_r by done. exact T.
  - destruct i_offers0 as [H1 H2]. split; [rewrite H1, map_app; cbn; now rewrite app_nil_r|]. intros x Hx. apply elem_of_app in Hx as [Hx|Hx]; [now apply H2|]. apply elem_of_list_singleton in Hx. subst x. exact Hb.
Qed.
(** A task is taken off everything it waits for. *)
Definition cut (t : nat) xch xch' (cm cm' : gmap nat chan) : Prop :=
  forall ch, match cm !! ch, cm' !! ch with
  | Some c, Some c' => rcv xch' ch c' = List.filter (fun x => negb (x =? t)) (rcv xch ch c) /\ senders c' = List.filter (fun x => negb (fst x =? t)) (senders c)
  | None, None => True | _, _ => False end.
Lemma cut_more t xch xch' cm cm' : cut t xch xch' cm cm' -> more cm cm'.
Proof. intros H ch [c E]. specialize (H ch). rewrite E in H. destruct (cm' !! ch) as [c'|]; [now eexists|done]. Qed.
Definition resting (w : wait) : bool := match w with WRecv _ | WSend _ _ | WSelect _ _ | WTimer _ | WAwait _ | WIo => true | _ => false end.
Lemma detach s tr L A po W w due due' xch xch' t rd' cm' tms' aw' : inv s tr L A po W due xch -> is_Some (tasks s !! t) ->
  (w = WOut [] [] /\ resting (W t) = true \/ w = WGone /\ gone (W t) = false) ->
  rd' = List.filter (fun x => negb (x =? t)) (ready s) -> cut t xch xch' (chans s) cm' ->
  (forall tm, tm ∈ tms' <-> tm ∈ timers s /\ ttid tm <> t) -> (forall tm, tm ∈ due' -> tm ∈ due /\ (w = WGone -> ttid tm <> t)) -> (forall tm, tm ∈ due -> tm ∈ due' \/ ttid tm = t) ->
  (forall x, default [] (aw' !! x) = List.filter (fun x => negb (x =? t)) (default [] (awaiters s !! x))) ->
  inv (Core (tasks s) rd' cm' tms' (clock s) (next_id s) (main_result s) (results s) aw') tr L A po (upd W t w) due' xch'.
Proof.
  intros I Et Hw -> Hc Ht Hd1 Hd2 Ha. destruct I.
  assert (Hrp : rpart w = [] /\ spart w = None /\ tpart w = [] /\ apart w = None /\ isready w = false /\ isdone w = false) by (destruct Hw as [[-> _]|[-> _]]; done).
  destruct Hrp as (Pr & Ps & Pt & Pa & Py & Pd). pose proof (cut_more _ _ _ _ _ Hc) as M. split; cbn.
  - apply (tasks_more _ _ (chans s)); [done|]. apply tasks_upd_W; [done|]. specialize (i_tasks0 t). destruct (tasks s !! t) as [sl|]; [|now destruct Et]. destruct i_tasks0 as (K1 & K2 & K3 & K4). destruct Hw as [[-> Hw]|[-> Hw]].
    + destruct (W t); cbn in *; try done; rewrite ?app_nil_r in *; done.
    + split; [done|]. split; [done|]. cbn. destruct (W t); cbn in *; try done; rewrite ?app_nil_r in *; rewrite <- K3, <- K4; split; try done; now apply prefix_app_r.
  - destruct i_ready0 as [N K]. split; [now apply keep_NoDup|]. intros x. rewrite keep_elem, K. destruct (decide (x = t)) as [->|Nx]; [rewrite upd_same, Py; split; [intros [_ H]; done|done]|rewrite upd_other by done; tauto].
  - intros ch c' E'. specialize (Hc ch). rewrite E' in Hc. destruct (chans s !! ch) as [c|] eqn:E; [|done]. destruct Hc as [-> _]. destruct (i_recv0 ch c E) as [N K]. split; [now apply keep_NoDup|]. intros x. rewrite keep_elem, K. destruct (decide (x = t)) as [->|Nx]; [rewrite upd_same, Pr; split; [intros [_ H]; done|intros H; now apply elem_of_nil in H]|rewrite upd_other by done; tauto].
  - intros ch c' E'. specialize (Hc ch). rewrite E' in Hc. destruct (chans s !! ch) as [c|] eqn:E; [|done]. destruct Hc as [_ ->]. destruct (i_send0 ch c E) as [N K]. split; [now apply keep_NoDup_fst|]. intros x v. rewrite elem_of_list_In, filter_In, <- elem_of_list_In, K. cbn. destruct (decide (x = t)) as [->|Nx]; [rewrite upd_same, Ps, Nat.eqb_refl; split; [intros [_ H]; done|done]|rewrite upd_other, (proj2 (Nat.eqb_neq x t)) by done; cbn; tauto].
  - intros x ch H. destruct (decide (x = t)) as [->|Nx]; [rewrite upd_same, Pr, Ps in H; destruct H as [H|[v H]]; [now apply elem_of_nil in H|done]|]. rewrite upd_other in H by done. now apply M, (i_dom0 x).
  - destruct i_timer0 as (T1 & T2 & T3). split; [|split].
    + intros tm H. apply Ht in H as [H N]. rewrite upd_other by done. now apply T1.
    + intros tm H. apply Hd1 in H as [H H']. destruct (decide (ttid tm = t)) as [Q|N]; [rewrite Q, upd_same; right; destruct Hw as [[-> _]|[-> _]]; [done|exfalso; now apply H']|]. rewrite upd_other by done. now apply T2.
    + intros x a i H. destruct (decide (x = t)) as [->|Nx]; [rewrite upd_same, Pt in H; now apply elem_of_nil in H|]. rewrite upd_other in H by done. apply T3 in H. apply elem_of_app in H. apply elem_of_app. destruct H as [H|H]; [left; now apply Ht|]. apply Hd2 in H as [H|H]; [now right|]. cbn in H. congruence.
  - destruct i_await0 as [A1 A2]. split.
    + intros x. destruct (A1 x) as [N K]. rewrite Ha. split; [now apply keep_NoDup|]. intros y. rewrite keep_elem, K. destruct (decide (y = t)) as [->|Ny]; [rewrite upd_same, Pa; split; [intros [_ H]; done|done]|rewrite upd_other by done; tauto].
    + intros y x H. destruct (decide (y = t)) as [->|Ny]; [rewrite upd_same, Pa in H; done|]. rewrite upd_other in H by done. destruct (decide (x = t)) as [->|Nx]; [|rewrite upd_other by done; now apply (A2 y)]. rewrite upd_same. now destruct Hw as [[-> _]|[-> _]].
  - destruct i_results0 as (R1 & R2). split; [|done]. intros x. rewrite R1. destruct (decide (x = t)) as [->|Nx]; [|now rewrite upd_other]. rewrite upd_same, Pd. destruct Hw as [[-> Hw]|[-> Hw]]; destruct (W t); done.
  - intros x. destruct (i_ids0 x) as [D1 D2]. assert (E : is_Some (cm' !! x) <-> is_Some (chans s !! x)). { specialize (Hc x). destruct (chans s !! x), (cm' !! x); split; intros [? ?]; try done; now eexists. } assert (E' : cm' !! x = None <-> chans s !! x = None) by (rewrite !eq_None_not_Some; tauto). rewrite E, E'. done.
  - done.
  - now apply (trace_more (chans s)).
  - done.
Qed.
(** A task outside starts to wait. *)
Definition joined (t : nat) (w : wait) (cm cm' : gmap nat chan) : Prop :=
  forall ch, match cm !! ch, cm' !! ch with
  | Some c, Some c' => receivers c' = receivers c ++ (if bool_decide (ch ∈ rpart w) then [t] else []) /\ senders c' = senders c ++ (match spart w with Some (x, v) => if x =? ch then [(t, v)] else [] | None => [] end)
  | None, None => True | _, _ => False end.
Lemma joined_more t w cm cm' : joined t w cm cm' -> more cm cm'.
Proof. intros H ch [c E]. specialize (H ch). rewrite E in H. destruct (cm' !! ch) as [c'|]; [now eexists|done]. Qed.
Lemma attach s tr L A po W w t f sl cm' tms' aw' : inv s tr L A po W [] None -> W t = WOut [] [] -> resting w = true -> tasks s !! t = Some sl -> slot_ok w (f sl) -> last_ok (chans s) tr t w (f sl) -> (forall x, is_main (f x) = is_main x) ->
  joined t w (chans s) cm' -> (forall ch, ch ∈ rpart w \/ (exists v, spart w = Some (ch, v)) -> is_Some (chans s !! ch)) ->
  tms' = timers s ++ map (fun x => Timer (fst x) t (snd x)) (tpart w) -> (forall x, default [] (aw' !! x) = default [] (awaiters s !! x) ++ (if bool_decide (apart w = Some x) then [t] else [])) -> (forall x, apart w = Some x -> dead (W x) = false) ->
  inv (Core (alter f t (tasks s)) (ready s) cm' tms' (clock s) (next_id s) (main_result s) (results s) aw') tr L A po (upd W t w) [] None.
Proof.
  intros I Hw Hr Et Hs Hl Hm Hc Hd -> Ha Hal. destruct I. pose proof (joined_more _ _ _ _ Hc) as M.
  assert (Py : isready w = false /\ isdone w = false /\ dead w = false /\ gone w = false) by (destruct w; done). destruct Py as (Py & Pd & Pe & Pg). split; cbn.
  - apply (tasks_more _ _ (chans s)); [done|]. apply (tasks_upd _ _ _ _ _ _ _ _ _ sl); [done..|]. specialize (i_tasks0 t). rewrite Et, Hw in i_tasks0. destruct i_tasks0 as (_ & _ & K3 & K4). split; [done|]. split; [done|]. rewrite Pg. cbn in K3, K4. destruct w; done.
  - apply (ready_ext W); [|done]. apply (proj_upd isready). now rewrite Hw, Py.
  - intros ch c' E'. specialize (Hc ch). rewrite E' in Hc. destruct (chans s !! ch) as [c|] eqn:E; [|done]. destruct Hc as [Hc _]. cbn. rewrite Hc. destruct (i_recv0 ch c E) as [N K]. cbn in N, K. assert (Nt : t ∉ receivers c) by (rewrite K, Hw; apply not_elem_of_nil). split.
    + apply NoDup_app. split; [done|]. split; [|case_bool_decide; [apply NoDup_singleton|apply NoDup_nil_2]]. intros x Hx. case_bool_decide; [intros Q; apply elem_of_list_singleton in Q; congruence|apply not_elem_of_nil].
    + intros x. rewrite elem_of_app. destruct (decide (x = t)) as [->|Nx].
      * rewrite upd_same. case_bool_decide; [rewrite elem_of_list_singleton; tauto|rewrite elem_of_nil; tauto].
      * rewrite upd_other by done. rewrite <- K. case_bool_decide; [rewrite elem_of_list_singleton; tauto|rewrite elem_of_nil; tauto].
  - intros ch c' E'. specialize (Hc ch). rewrite E' in Hc. destruct (chans s !! ch) as [c|] eqn:E; [|done]. destruct Hc as [_ ->]. destruct (i_send0 ch c E) as [N K]. assert (Nt : forall v, (t, v) ∉ senders c) by (intros v; rewrite K, Hw; done). split.
    + rewrite fmap_app. apply NoDup_app. split; [done|]. split.
      * intros x Hx. destruct (spart w) as [[x' v]|]; [|apply not_elem_of_nil]. destruct (x' =? ch); [|apply not_elem_of_nil]. cbn. rewrite elem_of_list_singleton. intros ->. apply elem_of_list_fmap in Hx as ([a u] & Q & Hx). cbn in Q. subst a. now apply Nt in Hx.
      * destruct (spart w) as [[x' v]|]; [|apply NoDup_nil_2]. destruct (x' =? ch); [apply NoDup_singleton|apply NoDup_nil_2].
    + intros x v. rewrite elem_of_app. destruct (decide (x = t)) as [->|Nx].
      * rewrite upd_same. destruct (spart w) as [[x' v']|]; [|rewrite elem_of_nil; split; [intros [H|[]]; now apply Nt in H|done]]. destruct (Nat.eqb_spec x' ch) as [->|Nc].
        -- rewrite elem_of_list_singleton. split; [intros [H|[= ->]]; [now apply Nt in H|done]|intros [= ->]; now right].
        -- rewrite elem_of_nil. split; [intros [H|[]]; now apply Nt in H|intros [= -> ->]; done].
      * rewrite upd_other by done. rewrite K. split; [|tauto]. intros [H|H]; [done|]. destruct (spart w) as [[x' v']|]; [|now apply elem_of_nil in H]. destruct (x' =? ch); [|now apply elem_of_nil in H]. apply elem_of_list_singleton in H. congruence.
  - intros x ch H. destruct (decide (x = t)) as [->|Nx]; [rewrite upd_same in H; now apply M, Hd|]. rewrite upd_other in H by done. now apply M, (i_dom0 x).
  - destruct i_timer0 as (T1 & T2 & T3). split; [|split].
    + intros tm H. apply elem_of_app in H as [H|H].
      * destruct (decide (ttid tm = t)) as [Q|N]; [|rewrite upd_other by done; now apply T1]. apply T1 in H. rewrite Q, Hw in H. now apply elem_of_nil in H.
      * apply elem_of_list_fmap in H as ([a i] & -> & H). cbn. now rewrite upd_same.
    + intros tm H. now apply elem_of_nil in H.
    + intros x a i H. rewrite app_nil_r. apply elem_of_app. destruct (decide (x = t)) as [->|Nx].
      * rewrite upd_same in H. right. apply elem_of_list_fmap. now exists (a, i).
      * rewrite upd_other in H by done. apply T3 in H. rewrite app_nil_r in H. now left.
  - destruct i_await0 as [A1 A2]. split.
    + intros x. destruct (A1 x) as [N K]. rewrite Ha. assert (Nt : t ∉ default [] (awaiters s !! x)) by (rewrite K, Hw; done). split.
      * apply NoDup_app. split; [done|]. split; [|case_bool_decide; [apply NoDup_singleton|apply NoDup_nil_2]]. intros y Hy. case_bool_decide; [intros Q; apply elem_of_list_singleton in Q; congruence|apply not_elem_of_nil].
      * intros y. rewrite elem_of_app. destruct (decide (y = t)) as [->|Ny].
        -- rewrite upd_same. case_bool_decide; [rewrite elem_of_list_singleton; tauto|rewrite elem_of_nil; tauto].
        -- rewrite upd_other by done. rewrite <- K. case_bool_decide; [rewrite elem_of_list_singleton; tauto|rewrite elem_of_nil; tauto].
    + intros y x H. assert (Q : dead (W x) = false). { destruct (decide (y = t)) as [->|Ny]; [rewrite upd_same in H; now apply Hal|rewrite upd_other in H by done; now apply (A2 y)]. } rewrite (proj_upd dead); [done|]. now rewrite Pe, Hw.
  - apply (results_ext W); [|done]. apply (proj_upd isdone). now rewrite Pd, Hw.
  - intros x. destruct (ids_alter _ _ _ t f i_ids0 x) as [D1 D2]. assert (E : is_Some (cm' !! x) <-> is_Some (chans s !! x)). { specialize (Hc x). destruct (chans s !! x), (cm' !! x); split; intros [? ?]; try done; now eexists. } assert (E' : cm' !! x = None <-> chans s !! x = None) by (rewrite !eq_None_not_Some; tauto). rewrite E, E'. done.
  - done.
  - now apply (trace_more (chans s)).
  - now apply main_alter.
Qed.
(** Nothing about a task outside is fixed by its slot. *)
Definition out (w : wait) : bool := match w with WOut _ _ | WGone => true | _ => false end.
Lemma touch s tr L A po W due xch t f sl : inv s tr L A po W due xch -> out (W t) = true -> tasks s !! t = Some sl -> (forall x, is_main (f x) = is_main x) -> inv (upd_task s t f) tr L A po W due xch.
Proof.
  intros I Hw Et Hm. destruct I. split; cbn; try done; [|now apply ids_alter|now apply main_alter].
  intros x. destruct (decide (x = t)) as [->|N]; [|rewrite lookup_alter_ne by congruence; apply i_tasks0]. rewrite lookup_alter, Et. specialize (i_tasks0 t). rewrite Et in i_tasks0. cbn in *. destruct (W t); done.
Qed.
(** All who wait for a task are let go. *)
Lemma free_awaiters s tr L A po W x : inv s tr L A po W [] None ->
  inv (set_awaiters s (delete x (awaiters s))) tr L A po (fun t => match W t with WAwait y => if y =? x then WOut [] [] else W t | w => w end) [] None.
Proof.
  intros I. destruct I. set (W' := fun t => _). assert (P : forall t, rpart (W' t) = rpart (W t) /\ spart (W' t) = spart (W t) /\ tpart (W' t) = tpart (W t) /\ isready (W' t) = isready (W t) /\ isdone (W' t) = isdone (W t) /\ dead (W' t) = dead (W t) /\ (quiet (W t) = true -> quiet (W' t) = true) /\ apart (W' t) = if bool_decide (apart (W t) = Some x) then None else apart (W t)).
  { intros t. unfold W'. destruct (W t) eqn:E; try done. destruct (Nat.eqb_spec x0 x) as [->|N]; cbn; [rewrite bool_decide_true by done|rewrite bool_decide_false by congruence]; done. }
  split; cbn.
  - intros t. specialize (i_tasks0 t). unfold W', task_ok in *. destruct (tasks s !! t) as [sl|]; [|now destruct (W t)]. destruct (W t) eqn:E; try done. destruct (x0 =? x); [|done]. destruct i_tasks0 as (_ & _ & K). cbn in *. done.
  - apply (ready_ext W); [|done]. intros t. now apply P.
  - apply (recv_ext W); [|done]. intros t. now apply P.
  - apply (send_ext W); [|done]. intros t. now apply P.
  - apply (dom_ext W); [intros t; now apply P..|done].
  - apply (timer_ext W); [intros t; now apply P..|done].
  - destruct i_await0 as [A1 A2]. split.
    + intros y. destruct (A1 y) as [N K]. destruct (decide (y = x)) as [->|Ny].
      * rewrite lookup_delete. cbn. split; [apply NoDup_nil_2|]. intros t. destruct (P t) as (_ & _ & _ & _ & _ & _ & _ & ->). rewrite elem_of_nil. split; [done|]. case_bool_decide; done.
      * rewrite lookup_delete_ne by congruence. split; [done|]. intros t. rewrite K. destruct (P t) as (_ & _ & _ & _ & _ & _ & _ & ->). case_bool_decide as Q; [split; congruence|done].
    + intros t y. destruct (P t) as (_ & _ & _ & _ & _ & _ & _ & ->). destruct (P y) as (_ & _ & _ & _ & _ & -> & _). case_bool_decide; [done|]. apply A2.
  - apply (results_ext W); [|done]. intros t. now apply P.
  - done.
  - done.
  - done.
  - done.
Qed.
(** A task ends. *)
Lemma attach_done s tr L A po W t g q r f sl : inv s tr L A po W [] None -> W t = WOut g q \/ W t = WGone -> tasks s !! t = Some sl -> tst (f sl) = Finished -> (forall x, is_main (f x) = is_main x) -> (forall x, apart (W x) <> Some t) ->
  match r with Completed v => exited tr t v | Aborted => aborted tr t end ->
  inv (set_results (upd_task s t f) (<[t := r]> (results s))) tr L A po (upd W t WDone) [] None.
Proof.
  intros I Hw Et Hf Hm Hx Hr. destruct I. split; cbn.
  - apply (tasks_upd _ _ _ _ _ _ _ _ _ sl); [done..|]. specialize (i_tasks0 t). rewrite Et in i_tasks0. destruct i_tasks0 as (_ & _ & K3 & K4). split; [done|]. split; [done|]. cbn. destruct Hw as [Hw|Hw]; rewrite Hw in *; cbn in *; [|done]. rewrite <- K3, <- K4. split; now apply prefix_app_r.
  - apply (ready_ext W); [|done]. apply (proj_upd isready). now destruct Hw as [-> | ->].
  - apply (recv_ext W); [|done]. apply (proj_upd rpart). now destruct Hw as [-> | ->].
  - apply (send_ext W); [|done]. apply (proj_upd spart). now destruct Hw as [-> | ->].
  - apply (dom_ext W); [| |done]; apply proj_upd; now destruct Hw as [-> | ->].
  - destruct i_timer0 as (T1 & _ & T3). assert (E : forall x, tpart (upd W t WDone x) = tpart (W x)) by (apply proj_upd; now destruct Hw as [-> | ->]). split; [|split]. + intros tm. rewrite E. apply T1. + intros tm H. now apply elem_of_nil in H. + intros x a i. rewrite E. apply T3.
  - destruct i_await0 as [A1 A2]. assert (E : forall x, apart (upd W t WDone x) = apart (W x)) by (apply proj_upd; now destruct Hw as [-> | ->]). split.
    + intros x. destruct (A1 x) as [N K]. split; [done|]. intros y. now rewrite E.
    + intros y x. rewrite E. intros H. destruct (decide (x = t)) as [->|Nx]; [now apply Hx in H|]. rewrite upd_other by done. now apply (A2 y).
  - destruct i_results0 as (R1 & R2 & R3). split; [|split].
    + intros x. destruct (decide (x = t)) as [->|Nx]; [rewrite upd_same, lookup_insert; split; [done|now eexists]|rewrite upd_other, lookup_insert_ne by congruence; apply R1].
    + intros x v. destruct (decide (x = t)) as [->|Nx]; [rewrite lookup_insert; intros [= ->]; done|rewrite lookup_insert_ne by congruence; apply R2].
    + intros x. destruct (decide (x = t)) as [->|Nx]; [rewrite lookup_insert; intros [= ->]; done|rewrite lookup_insert_ne by congruence; apply R3].
  - now apply ids_alter.
  - done.
  - done.
  - now apply main_alter.
Qed.
(** A channel is made. *)
Lemma inv_add_chan s tr L A po W cap : inv s tr L A po W [] None -> inv (add_chan s cap) tr L A po W [] None.
Proof.
  intros I. destruct I. assert (En : chans s !! next_id s = None /\ tasks s !! next_id s = None) by (destruct (i_ids0 (next_id s)) as [D _]; destruct D as [-> ->]; [lia|done]). destruct En as [En En'].
  pose proof (more_insert (chans s) (next_id s) (empty_chan cap)) as M. split; cbn; try done.
  - now apply (tasks_more _ _ (chans s)).
  - intros ch c E. destruct (decide (ch = next_id s)) as [->|N]; [|rewrite lookup_insert_ne in E by congruence; now apply (i_recv0 ch c)]. rewrite lookup_insert in E. injection E as <-. cbn. split; [apply NoDup_nil_2|]. intros t. rewrite elem_of_nil. split; [done|]. intros H. destruct (i_dom0 t (next_id s)) as [c E]; [now left|congruence].
  - intros ch c E. destruct (decide (ch = next_id s)) as [->|N]; [|rewrite lookup_insert_ne in E by congruence; now apply (i_send0 ch c)]. rewrite lookup_insert in E. injection E as <-. cbn. split; [apply NoDup_nil_2|]. intros t v. rewrite elem_of_nil. split; [done|]. intros H. destruct (i_dom0 t (next_id s)) as [c E]; [right; now exists v|congruence].
  - intros t ch H. now apply M, (i_dom0 t).
  - intros x. destruct (i_ids0 x) as [D1 D2]. destruct (decide (x = next_id s)) as [->|N].
    + split; [lia|]. intros _. right. rewrite lookup_insert. split; [done|now eexists].
    + rewrite lookup_insert_ne by congruence. split; intros Hx; [apply D1; lia|apply D2; lia].
  - now apply (trace_more (chans s)).
Qed.
(** A task is made. *)
Lemma inv_spawn p s tr L A po W b m : inv s tr L A po W [] None -> inv (spawn p s b m) tr L A po (upd W (next_id s) WReady) [] None.
Proof.
  intros I. destruct I. assert (En : chans s !! next_id s = None /\ tasks s !! next_id s = None) by (destruct (i_ids0 (next_id s)) as [D _]; destruct D as [-> ->]; [lia|done]). destruct En as [En En'].
  assert (Hw : W (next_id s) = WNone /\ scan tr (next_id s) = (None, [], []) /\ given L (next_id s) = [] /\ flags A (next_id s) = []). { specialize (i_tasks0 (next_id s)). now rewrite En' in i_tasks0. } destruct Hw as (Hw & Hs & HL & HA).
  assert (Htr : forall e, e ∈ tr -> etid e <> next_id s). { intros e He E. apply (last_req_some tr e) in He. unfold last_req in He. rewrite E, Hs in He. now destruct He. }
  split; frame Hw.
  - intros x. destruct (decide (x = next_id s)) as [->|N]; [|rewrite upd_other, lookup_insert_ne by congruence; apply i_tasks0]. rewrite upd_same, lookup_insert. unfold task_ok, last_ok, inflight, inflight_try, received, tries, last_req. rewrite Hs. cbn. rewrite HL, HA. done.
  - destruct i_ready0 as [N K]. split.
    + apply NoDup_app. split; [done|]. split; [|apply NoDup_singleton]. intros x Hx Hx'. apply elem_of_list_singleton in Hx'. subst x. apply K in Hx. rewrite Hw in Hx. done.
    + intros x. rewrite elem_of_app, elem_of_list_singleton, K. destruct (decide (x = next_id s)) as [->|Nx]; [rewrite upd_same; tauto|rewrite upd_other by done; tauto].
  - destruct i_timer0 as (T1 & T2 & T3). assert (E : forall x, tpart (upd W (next_id s) WReady x) = tpart (W x)) by (apply proj_upd; now rewrite Hw). split; [|split]. + intros tm. rewrite E. apply T1. + intros tm H. now apply elem_of_nil in H. + intros x a i. rewrite E. apply T3.
  - destruct i_await0 as [A1 A2]. assert (E : forall x, apart (upd W (next_id s) WReady x) = apart (W x)) by (apply proj_upd; now rewrite Hw). split.
    + intros x. destruct (A1 x) as [N K]. split; [done|]. intros y. now rewrite E.
    + intros y x. rewrite E. intros H. apply A2 in H. destruct (decide (x = next_id s)) as [->|Nx]; [now rewrite upd_same|now rewrite upd_other].
  - intros x. destruct (i_ids0 x) as [D1 D2]. destruct (decide (x = next_id s)) as [->|N].
    + split; [lia|]. intros _. left. rewrite lookup_insert. split; [now eexists|done].
    + rewrite lookup_insert_ne by congruence. split; intros Hx; [apply D1; lia|apply D2; lia].
  - destruct i_main0 as [M1 M2]. split.
    + intros v E. destruct (M1 v E) as (t & sl & Et & Em & He). exists t, sl. rewrite lookup_insert_ne by congruence. done.
    + intros E t sl v Et Em. destruct (decide (t = next_id s)) as [->|N]; [|rewrite lookup_insert_ne in Et by congruence; now apply (M2 E t sl)]. intros (k & n & H). now apply Htr in H.
Qed.
(** A ready task is polled. *)
Definition note_exit s t (st : step B) : core B := match st with Exit v => match tasks s !! t with Some sl => if is_main sl then set_main s (Some v) else s | None => s end | _ => s end.
Definition run_body (b : B) (sl : slot B) : slot B := Slot b (prio sl) Nothing None (sel_arms sl) None None (tst sl) (is_main sl).
Lemma inv_poll s tr L A W idx t sl b st : inv s tr L A [] W [] None -> ready s !! idx = Some t -> tasks s !! t = Some sl ->
  let e := Event t (ctx_of sl) st (next_id s) in
  inv (note_exit (upd_task (set_ready s (take idx (ready s) ++ drop (S idx) (ready s))) t (run_body b)) t st) (tr ++ [e]) L A (offer_of e) (upd W t (WOut [] [])) [] None.
Proof.
  intros I Er Et e. set (s1 := upd_task (set_ready s (take idx (ready s) ++ drop (S idx) (ready s))) t (run_body b)). assert (Pf : tasks (note_exit s1 t st) = tasks s1 /\ ready (note_exit s1 t st) = ready s1 /\ chans (note_exit s1 t st) = chans s1 /\ timers (note_exit s1 t st) = timers s1 /\ next_id (note_exit s1 t st) = next_id s1 /\ results (note_exit s1 t st) = results s1 /\ awaiters (note_exit s1 t st) = awaiters s1).
  { unfold note_exit. destruct st; try done. destruct (tasks s1 !! t) as [sl'|]; [|done]. now destruct (is_main sl'). }
  destruct Pf as (P1 & P2 & P3 & P4 & P5 & P6 & P7). destruct I. destruct i_ready0 as [Nr Kr].
  assert (Hw : W t = WReady). { assert (H : t ∈ ready s) by (eapply elem_of_list_lookup_2; eauto). apply Kr in H. destruct (W t); done. }
  assert (Mt : forall x, x ∈ tr -> x ∈ tr ++ [e]) by (intros x Hx; apply elem_of_app; now left).
  pose proof (i_tasks0 t) as Tt. rewrite Hw, Et in Tt. destruct Tt as (Ht1 & Ht2 & Ht3 & Ht4). cbn in Ht2, Ht3, Ht4.
  split; rewrite ?P1, ?P2, ?P3, ?P4, ?P5, ?P6, ?P7; unfold s1; frame Hw.
  - intros x. destruct (decide (x = t)) as [->|N].
    + rewrite upd_same, lookup_alter, Et. cbn. split; [done|]. split; [done|]. unfold e. rewrite received_app, tries_app. cbn. rewrite Nat.eqb_refl, !app_nil_r. done.
    + rewrite upd_other, lookup_alter_ne by congruence. specialize (i_tasks0 x). assert (Q : (etid e =? x) = false) by (apply Nat.eqb_neq; cbn; congruence). unfold task_ok in *. assert (Es : scan (tr ++ [e]) x = scan tr x). { rewrite scan_app. destruct (scan tr x) as [[? ?] ?]. unfold scan1. now rewrite Q. }
      assert (El : last_req (tr ++ [e]) x = last_req tr x) by (unfold last_req; now rewrite Es). assert (Ev : received (tr ++ [e]) x = received tr x) by (unfold received; now rewrite Es). assert (Eq : tries (tr ++ [e]) x = tries tr x) by (unfold tries; now rewrite Es).
      destruct (tasks s !! x) as [slx|]; [|now rewrite Es]. unfold inflight, inflight_try, last_ok in *. rewrite Ev, Eq, El. destruct i_tasks0 as (K1 & K2 & K3). split; [done|]. split; [|done]. destruct (W x); try done. now apply (ans_more (chans s) _ tr).
  - rewrite <- delete_take_drop. pose proof (delete_Permutation (ready s) idx t Er) as P. rewrite P in Nr. apply NoDup_cons in Nr as [Nt Nr]. split; [done|]. intros x. destruct (decide (x = t)) as [->|N].
    + rewrite upd_same. cbn. split; [done|done].
    + rewrite upd_other, <- Kr by done. assert (Q : x ∈ ready s <-> x ∈ t :: delete idx (ready s)) by (split; intros Hx; [rewrite <- P; exact Hx|rewrite P; exact Hx]). rewrite Q, elem_of_cons. split; [now right|intros [?|?]; done].
  - destruct i_results0 as (R1 & R2 & R3). assert (E : forall x, isdone (upd W t (WOut [] []) x) = isdone (W x)) by (apply proj_upd; now rewrite Hw). split; [|split].
    + intros x. now rewrite E.
    + intros x v H. destruct (R2 x v H) as (k & n & H'). exists k, n. now apply Mt.
    + intros x H. destruct (R3 x H) as (t' & k & n & H'). exists t', k, n. now apply Mt.
  - destruct i_offers0 as [O1 O2]. split; [|done]. unfold offers in *. rewrite flat_map_app, O1. cbn [flat_map]. now rewrite !app_nil_r.
  - intros a e' b' E. destruct (decide (b' = [])) as [->|Nb].
    + apply app_inj_tail in E as [<- <-]. cbn. now apply (ans_more (chans s) _ tr).
    + destruct (exists_last Nb) as (b'' & y & ->). rewrite app_comm_cons, app_assoc in E. apply app_inj_tail in E as [E _]. apply (ans_more (chans s) _ tr); [intros ? ?; assumption|exact Mt|]. now apply (i_trace0 a e' b'').
  - assert (M : main_ok (alter (run_body b) t (tasks s)) (main_result s) tr) by now apply main_alter. destruct M as [M1 M2]. unfold note_exit. destruct st; try (split; [intros v' E; destruct (M1 v' E) as (x & slx & Ex & Em & k & n & He); exists x, slx; split; [done|]; split; [done|]; exists k, n; now apply Mt|intros E x slx v' Ex Em (k & n & He); apply elem_of_app in He as [He|He]; [apply (M2 E x slx v' Ex Em); now exists k, n|apply elem_of_list_singleton in He; discriminate He]]).
    cbn [tasks upd_task set_ready]. cbn. rewrite lookup_alter, Et. cbn. destruct (is_main sl) eqn:Em.
    + cbn. split; [|done]. intros v' [= <-]. exists t, (run_body b sl). rewrite lookup_alter, Et. split; [done|]. split; [done|]. exists (ctx_of sl), (next_id s). apply elem_of_app. right. now apply elem_of_list_singleton.
    + cbn. split; [intros v' E; destruct (M1 v' E) as (x & slx & Ex & Em' & k & n & He); exists x, slx; split; [done|]; split; [done|]; exists k, n; now apply Mt|]. intros E x slx v' Ex Em' (k & n & He). apply elem_of_app in He as [He|He]; [apply (M2 E x slx v' Ex Em'); now exists k, n|]. apply elem_of_list_singleton in He. injection He as -> _ _ _. rewrite lookup_alter, Et in Ex. injection Ex as <-. cbn in Em'. congruence.
Qed.
Lemma inv_new : inv new_core [] [] [] [] (fun _ => WNone) [] None.
Proof.
  split; cbn; try done.
  - split; [apply NoDup_nil_2|]. intros t. rewrite elem_of_nil. done.
  - intros t ch [H|[v H]]; [now apply elem_of_nil in H|done].
  - split; [|split]; intros * H; now apply elem_of_nil in H.
  - split; [|done]. intros x. rewrite lookup_empty. cbn. split; [apply NoDup_nil_2|]. intros t. rewrite elem_of_nil. done.
  - split; [|split]; [intros t; rewrite lookup_empty; split; [intros [? ?]; done|done]|done..].
  - intros x. rewrite !lookup_empty. split; [done|lia].
  - split; [done|]. intros x H. now apply elem_of_nil in H.
  - intros a e b E. now destruct a.
Qed.
End Inv.
