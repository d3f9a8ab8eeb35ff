(** Every operation of the scheduler keeps the invariant. *)
From Coq Require Import NArith List Lia.
From stdpp Require Import list gmap.
From Verif Require Import SchedModel SchedInv.
Open Scope nat_scope.

Section Ops.
Context {B : Type}.
Implicit Types (s : core B) (tr : list (event B)) (W : nat -> wait).
Definition pipe (cm : gmap nat chan) L A tr : Prop := idle_ok cm /\ flow_ok cm L A tr.
Definition settled_but (W : nat -> wait) (t : nat) : Prop := forall x, x <> t -> out (W x) = false.
Definition settled (W : nat -> wait) : Prop := forall x, out (W x) = false.
(** A state between two calls. *)
Definition good s tr : Prop := exists L A W, inv s tr L A [] W [] None /\ settled W /\ pipe (chans s) L A tr.
(** A task whose slot is as it is while nothing has been put there. *)
Definition fresh s tr t (r : step B * nat) : Prop := exists sl, tasks s !! t = Some sl /\ sel_arms sl = None /\ ctx_of sl = ctx0 /\ last_req tr t = Some r.

Lemma inv_eta s tr L A po W due xch : inv (Core (tasks s) (ready s) (chans s) (timers s) (clock s) (next_id s) (main_result s) (results s) (awaiters s)) tr L A po W due xch -> inv s tr L A po W due xch.
Proof. now destruct s. Qed.
Lemma mark_ok s tr L A po W due xch t g q r v : inv s tr L A po W due xch -> W t = WOut g q -> fresh s tr t r ->
  answer_of (Some r) (Ctx v None None None) = g -> try_of (Some r) (Ctx v None None None) = q -> ans (chans s) tr (Some r) (Ctx v None None None) -> inv (mark_ready s t v) tr L A po (upd W t WReady) due xch.
Proof.
  intros I Hw (sl & Et & Es & Ec & El) H1 H2 H3. assert (E : ctx_of (with_tst (with_resume sl v) Ready) = Ctx v None None None). { unfold ctx_of in *. cbn. injection Ec as _ -> -> ->. done. }
  apply (attach_ready s tr L A po W due xch t g q (fun sl => with_tst (with_resume sl v) Ready) sl); try done; rewrite El, E; done.
Qed.
Lemma fresh_mark s tr t r x v : t <> x -> fresh s tr t r -> fresh (mark_ready s x v) tr t r.
Proof. intros N (sl & Et & H). exists sl. split; [|done]. cbn. rewrite lookup_alter_ne by congruence. done. Qed.
Lemma fresh_resting s tr L A po W due xch t : inv s tr L A po W due xch ->
  match W t with WRecv ch => exists n, fresh s tr t (Recv ch, n) | WSend ch v => exists n, fresh s tr t (Send ch v, n) | WTimer _ => exists d n, fresh s tr t (Sleep d, n)
  | WAwait x => exists n, fresh s tr t (Await x, n) | WIo => exists n, fresh s tr t (IoPending, n) | _ => True end.
Proof.
  intros I. pose proof (i_tasks _ _ _ _ _ _ _ _ I t) as T. unfold task_ok in T. destruct (tasks s !! t) as [sl|] eqn:E; [|destruct T as [-> _]; done]. destruct T as (T1 & T2 & _). destruct (W t) eqn:Hw; try done; cbn in T1, T2; destruct T1 as (_ & T3 & T4).
  1, 2, 4, 5: destruct T2 as [n T2]; exists n; now exists sl. destruct T2 as (d & n & T2). exists d, n. now exists sl.
Qed.
(** ** Channels *)
Lemma flow_chan cm L A tr L' A' ch c c' suf : flow_ok cm L A tr -> cm !! ch = Some c -> closed c' = closed c -> (forall x, x <> ch -> hist L' x = hist L x /\ accepted A' x = accepted A x) ->
  hist L' ch ++ queue c' ++ (senders c').*2 = (hist L ch ++ queue c ++ (senders c).*2) ++ suf -> accepted A' ch = accepted A ch ++ suf -> flow_ok (<[ch := c']> cm) L' A' tr.
Proof.
  intros F E Ecl Ho H1 H2 x. specialize (F x). destruct (decide (x = ch)) as [->|N].
  - rewrite lookup_insert. rewrite E in F. rewrite H1, H2. destruct F as (F1 & F2 & F3). split; [now apply sublist_app|]. rewrite Ecl. split; [|exact F3]. intros Hn. now rewrite F2.
  - rewrite lookup_insert_ne by congruence. destruct (Ho x N) as [-> ->]. exact F.
Qed.
Lemma idle_chan cm ch c' : idle_ok cm -> chan_idle c' -> idle_ok (<[ch := c']> cm).
Proof. intros I H x c E. destruct (decide (x = ch)) as [->|N]; [rewrite lookup_insert in E; now injection E as <-|rewrite lookup_insert_ne in E by congruence; now apply (I x)]. Qed.
(** Receivers may go away. *)
Definition thin (cm cm' : gmap nat chan) : Prop := forall ch, match cm !! ch, cm' !! ch with
  | Some c, Some c' => capacity c' = capacity c /\ queue c' = queue c /\ senders c' = senders c /\ closed c' = closed c /\ (receivers c' <> [] -> receivers c <> [])
  | None, None => True | _, _ => False end.
Lemma thin_refl cm : thin cm cm.
Proof. intros ch. destruct (cm !! ch); done. Qed.
Lemma thin_trans a b c : thin a b -> thin b c -> thin a c.
Proof. intros H K ch. specialize (H ch). specialize (K ch). destruct (a !! ch), (b !! ch), (c !! ch); try done. destruct H as (H1 & H2 & H3 & H4 & H5), K as (K1 & K2 & K3 & K4 & K5). split_and!; try congruence. intros Q. now apply H5, K5. Qed.
Lemma pipe_thin cm cm' L A tr : thin cm cm' -> pipe cm L A tr -> pipe cm' L A tr.
Proof.
  intros T [I F]. split.
  - intros ch c' E'. specialize (T ch). rewrite E' in T. destruct (cm !! ch) as [c|] eqn:E; [|done]. destruct T as (T1 & T2 & T3 & T4 & T5). destruct (I ch c E) as (K1 & K2 & K3). unfold chan_idle, has_room in *. rewrite T1, T2, T3, T4. split; [|done]. intros Q. now apply K1, T5.
  - intros ch. specialize (T ch). specialize (F ch). destruct (cm !! ch) as [c|], (cm' !! ch) as [c'|]; try done. destruct T as (_ & -> & -> & -> & _). exact F.
Qed.

(** The receivers of a channel are set aside. *)
Lemma inv_hide s tr L A po W due ch c c' : inv s tr L A po W due None -> chans s !! ch = Some c -> senders c' = senders c -> inv (set_chan s ch c') tr L A po W due (Some (ch, receivers c)).
Proof.
  intros I E S. destruct I. pose proof (more_insert (chans s) ch c') as M. split; cbn; try done.
  - now apply (tasks_more _ _ (chans s)).
  - intros x cx Ex. destruct (decide (x = ch)) as [->|N]; [rewrite lookup_insert in Ex; injection Ex as <-; cbn; rewrite Nat.eqb_refl; now apply (i_recv ch c)|rewrite lookup_insert_ne in Ex by congruence]. cbn. rewrite (proj2 (Nat.eqb_neq ch x)) by congruence. now apply (i_recv x cx).
  - intros x cx Ex. destruct (decide (x = ch)) as [->|N]; [rewrite lookup_insert in Ex; injection Ex as <-; rewrite S; now apply (i_send ch c)|rewrite lookup_insert_ne in Ex by congruence; now apply (i_send x cx)].
  - intros x cx Ex. now apply M, (i_dom x).
  - now apply (ids_insert_chan _ _ _ _ _ c).
  - now apply (trace_more (chans s)).
Qed.
Lemma inv_show s tr L A po W due ch c : inv s tr L A po W due (Some (ch, receivers c)) -> chans s !! ch = Some c -> inv s tr L A po W due None.
Proof.
  intros I E. destruct I. split; try done. intros x cx Ex. specialize (i_recv x cx Ex). cbn in *. destruct (Nat.eqb_spec ch x) as [->|N]; [|done]. rewrite E in Ex. injection Ex as <-. done.
Qed.
Lemma arm_position_spec arms ch i : arm_position arms ch = Some i -> arms !! i = Some (ARecv ch).
Proof.
  revert i. induction arms as [|[c|d] arms IH]; intros i; [done| |]; cbn.
  - destruct (Nat.eqb_spec c ch) as [->|N]; [intros [= <-]; done|]. destruct (arm_position arms ch) as [j|]; [|done]. intros [= <-]. cbn. now apply IH.
  - destruct (arm_position arms ch) as [j|]; [|done]. intros [= <-]. cbn. now apply IH.
Qed.
Lemma arm_position_some arms ch : ch ∈ recv_chans arms -> is_Some (arm_position arms ch).
Proof.
  rewrite recv_chans_spec. induction arms as [|[c|d] arms IH]; intros H; [now apply elem_of_nil in H| |]; cbn.
  - destruct (Nat.eqb_spec c ch) as [->|N]; [now eexists|]. apply elem_of_cons in H as [[= ->]|H]; [done|]. destruct (IH H) as [j ->]. now eexists.
  - apply elem_of_cons in H as [H|H]; [done|]. destruct (IH H) as [j ->]. now eexists.
Qed.
Lemma keep_fst_out {X} t (l : list (nat * X)) : (forall v, (t, v) ∉ l) -> List.filter (fun x => negb (fst x =? t)) l = l.
Proof.
  induction l as [|[a v] l IH]; [done|]. intros H. cbn. destruct (Nat.eqb_spec a t) as [->|_]; [destruct (H v); apply elem_of_cons; now left|]. cbn. f_equal. apply IH. intros u K. apply (H u). apply elem_of_cons. now right.
Qed.
Lemma keep_head t (l : list nat) : NoDup (t :: l) -> List.filter (fun x => negb (x =? t)) (t :: l) = l.
Proof. intros H. apply NoDup_cons in H as [N _]. cbn. rewrite Nat.eqb_refl. cbn. now apply keep_out. Qed.
Lemma keep_timers t (l : list timer) tm : tm ∈ List.filter (fun x => negb (ttid x =? t)) l <-> tm ∈ l /\ ttid tm <> t.
Proof. rewrite !elem_of_list_In, filter_In. destruct (Nat.eqb_spec (ttid tm) t) as [->|N]; cbn; [split; [intros [_ H]; done|tauto]|tauto]. Qed.
Lemma no_timers W tms due t tm : timer_ok W tms due -> tpart (W t) = [] -> tm ∈ tms -> ttid tm <> t.
Proof. intros (T1 & _) H Hi <-. apply T1 in Hi. rewrite H in Hi. now apply elem_of_nil in Hi. Qed.
Lemma no_ready W rd t : ready_ok W rd -> isready (W t) = false -> List.filter (fun x => negb (x =? t)) rd = rd.
Proof. intros [_ K] H. apply keep_out. rewrite K. congruence. Qed.
Lemma no_await W aw t : await_ok W aw -> apart (W t) = None -> forall x, default [] (aw !! x) = List.filter (fun x => negb (x =? t)) (default [] (aw !! x)).
Proof. intros [K _] H x. symmetry. apply keep_out. destruct (K x) as [_ K']. rewrite K'. congruence. Qed.
(** A waiting receiver is handed something, or told there is nothing. *)
Lemma deliver_ok s tr L A po W ch rid r o : inv s tr L A po W [] (Some (ch, rid :: r)) -> is_Some (chans s !! ch) -> src tr ch (default Nothing o) -> exists s' W', deliver s rid ch (default Nothing o) = Some s' /\ inv s' tr (L ++ [(rid, ch, o)]) A po W' [] (Some (ch, r)) /\
  W' rid = WReady /\ (forall x, x <> rid -> W' x = W x) /\ resting (W rid) = true /\ thin (chans s) (chans s') /\ chans s' !! ch = chans s !! ch /\ (forall x, x <> rid -> tasks s' !! x = tasks s !! x) /\ next_id s' = next_id s.
Proof.
  intros I [c Ec] Hsrc. pose proof I as I0. destruct I. destruct (i_recv ch c Ec) as [Nd Hr]. cbn in Nd, Hr. rewrite Nat.eqb_refl in Nd, Hr. assert (Hin : ch ∈ rpart (W rid)) by (apply Hr; apply elem_of_cons; now left).
  pose proof (i_tasks rid) as T. unfold task_ok in T. destruct (tasks s !! rid) as [sl|] eqn:Et; [|destruct T as [T _]; rewrite T in Hin; now apply elem_of_nil in Hin]. destruct T as (T1 & T2 & _).
  unfold deliver. rewrite Et. destruct (W rid) as [| | | |ch'| |b arms| | | |] eqn:Hw; try (exfalso; now apply elem_of_nil in Hin).
  - cbn in Hin. apply elem_of_list_singleton in Hin. subst ch'. destruct T1 as (T3 & T4 & T5). destruct T2 as [n T2]. rewrite T4. eexists _, _. split; [done|]. split.
    + eapply (mark_ok s tr _ A po _ [] _ rid [(ch, default Nothing o)] []); [|apply upd_same| | | |].
      * refine (inv_give s tr L A po _ [] _ rid [] [] ch o _ _); [|apply upd_same].
        apply inv_eta, (detach s tr L A po W (WOut [] []) [] [] (Some (ch, rid :: r)) (Some (ch, r)) rid (ready s) (chans s) (timers s) (awaiters s)); try done.
        -- left. rewrite Hw. done.
        -- symmetry. apply (no_ready W); [done|]. now rewrite Hw.
        -- intros x. destruct (chans s !! x) as [cx|] eqn:Ex; [|done]. split.
           ++ cbn. destruct (Nat.eqb_spec ch x) as [->|N]; [now rewrite keep_head|]. symmetry. apply keep_out. destruct (i_recv x cx Ex) as [_ K]. cbn in K. rewrite (proj2 (Nat.eqb_neq ch x)) in K by done. rewrite K, Hw. cbn. rewrite elem_of_list_singleton. congruence.
           ++ symmetry. apply keep_fst_out. intros v. destruct (i_send x cx Ex) as [_ K]. rewrite K, Hw. done.
        -- intros tm. split; [|tauto]. intros H. split; [done|]. apply (no_timers W _ _ _ _ i_timer); [now rewrite Hw|done].
        -- intros tm H. now left.
        -- apply (no_await W); [done|]. now rewrite Hw.
      * exists sl. split; [exact Et|]. split; [exact T4|]. split; [exact T5|]. exact T2.
      * done.
      * done.
      * cbn. now exists (default Nothing o).
    + rewrite !upd_same. split; [done|]. split; [intros x N; now rewrite !upd_other|]. split; [done|]. split; [apply thin_refl|]. split; [done|]. split; [|done]. intros x N. cbn. now rewrite lookup_alter_ne by congruence.
  - cbn in Hin. destruct T1 as (T3 & T4 & T5). rewrite T4. destruct (arm_position_some arms ch Hin) as [i Ei]. rewrite Ei. pose proof (arm_position_spec _ _ _ Ei) as Ea. destruct T2 as [n T2].
    assert (Cd : forall X (f : chan -> X), (forall c l, f (with_receivers c l) = f c) -> forall x, f <$> (chans (cancel_select (complete_select s rid (default Nothing o) i) rid (Some ch)) !! x) = f <$> (chans s !! x)).
    { intros X f Hf x. cbn. rewrite map_lookup_imap. destruct (chans s !! x) as [cx|]; [|done]. cbn. case_bool_decide; [done|]. cbn. now rewrite Hf. }
    assert (Cc : chans (cancel_select (complete_select s rid (default Nothing o) i) rid (Some ch)) !! ch = chans s !! ch). { cbn. rewrite map_lookup_imap, Ec. cbn. now rewrite bool_decide_true. }
    eexists _, _. split; [done|]. split.
    + refine (attach_ready (Core (tasks s) (ready s) (chans (cancel_select (complete_select s rid (default Nothing o) i) rid (Some ch))) (timers (cancel_select (complete_select s rid (default Nothing o) i) rid (Some ch))) (clock s) (next_id s) (main_result s) (results s) (awaiters s)) tr (L ++ [(rid, ch, o)]) A po _ [] (Some (ch, r)) rid [(ch, default Nothing o)] [] (fun sl => with_tst (with_sel_arm (with_resume (with_sel_arms sl None) (default Nothing o)) (Some i)) Ready) sl _ (upd_same _ _ _) Et _ _ _ _ _ _); try done.
      * refine (inv_give _ tr L A po _ [] _ rid [] [] ch o _ _); [|apply upd_same].
        apply (detach s tr L A po W (WOut [] []) [] [] (Some (ch, rid :: r)) (Some (ch, r)) rid); try done.
        -- left. rewrite Hw. done.
        -- symmetry. apply (no_ready W); [done|]. now rewrite Hw.
        -- intros x. destruct (chans s !! x) as [cx|] eqn:Ex; [|destruct (chans (cancel_select _ _ _) !! x) as [y|] eqn:Ey; [|done]; pose proof (Cd _ (fun _ => tt) (fun _ _ => eq_refl) x) as Q; rewrite Ex, Ey in Q; done].
           destruct (chans (cancel_select _ _ _) !! x) as [y|] eqn:Ey; [|pose proof (Cd _ (fun _ => tt) (fun _ _ => eq_refl) x) as Q; rewrite Ex, Ey in Q; done]. split.
           ++ cbn. destruct (Nat.eqb_spec ch x) as [->|N]; [now rewrite keep_head|]. cbn in Ey. rewrite map_lookup_imap, Ex in Ey. cbn in Ey. rewrite bool_decide_false in Ey by congruence. injection Ey as <-. done.
           ++ pose proof (Cd _ senders (fun _ _ => eq_refl) x) as Q. rewrite Ex, Ey in Q. injection Q as ->. symmetry. apply keep_fst_out. intros v. destruct (i_send x cx Ex) as [_ K]. rewrite K, Hw. done.
        -- intros tm. cbn. apply keep_timers.
        -- intros tm H. now left.
        -- apply (no_await W); [done|]. now rewrite Hw.
      * rewrite T2. unfold ctx_of in *. cbn. now rewrite Ea.
      * rewrite T2. done.
      * rewrite T2. unfold ctx_of in *. cbn. injection T5 as _ _ -> ->. eexists _, _. split; [done|]. left. exists ch. now split.
    + rewrite !upd_same. split; [done|]. split; [intros x N; now rewrite !upd_other|]. split; [done|]. split; [|split; [done|]].
      * intros x. destruct (chans s !! x) as [cx|] eqn:Ex, (chans (cancel_select (complete_select s rid (default Nothing o) i) rid (Some ch)) !! x) as [y|] eqn:Ey; try done; [|pose proof (Cd _ (fun _ => tt) (fun _ _ => eq_refl) x) as Q; rewrite Ex, Ey in Q; done..].
        cbn in Ey. rewrite map_lookup_imap, Ex in Ey. cbn in Ey. injection Ey as <-. case_bool_decide; [done|]. cbn. split_and!; try done. intros Q Q'. now rewrite Q' in Q.
      * split; [|done]. intros x N. cbn. now rewrite lookup_alter_ne by congruence.
Qed.
(** What is in a channel was sent. *)
Lemma sublist_elem {X} (l k : list X) x : sublist l k -> x ∈ l -> x ∈ k.
Proof. induction 1; intros Hx; [done| |apply elem_of_cons; right; now auto]. apply elem_of_cons in Hx as [->|Hx]; apply elem_of_cons; [now left|right; now auto]. Qed.
Lemma accepted_offered A po tr ch v : offers_ok A po tr -> v ∈ accepted A ch -> offered tr ch v.
Proof.
  intros [E _] H. unfold accepted in H. rewrite elem_of_list_In, in_flat_map in H. destruct H as ([[[[t c] w] b] ok] & Hx & H). cbn in H. destruct (Nat.eqb_spec c ch) as [->|N]; [|done]. destruct ok; [|done]. destruct H as [->|[]]. exists t, b. rewrite E. apply elem_of_app. left. apply elem_of_list_In. now apply (in_map fst) in Hx.
Qed.
Lemma queued_offered s tr L A po W due xch ch c v : inv s tr L A po W due xch -> flow_ok (chans s) L A tr -> chans s !! ch = Some c -> v ∈ queue c \/ v ∈ (senders c).*2 -> offered tr ch v.
Proof.
  intros I F E H. apply (accepted_offered A po); [apply (i_offers _ _ _ _ _ _ _ _ I)|]. specialize (F ch). rewrite E in F. destruct F as [F _]. apply (sublist_elem _ _ v F). rewrite !elem_of_app. tauto.
Qed.
(** ** Sending *)
Lemma hist_other L t ch o x : x <> ch -> hist (L ++ [(t, ch, o)]) x = hist L x.
Proof. intros N. rewrite hist_app. cbn. rewrite (proj2 (Nat.eqb_neq ch x)) by congruence. apply app_nil_r. Qed.
Lemma hist_same L t ch o : hist (L ++ [(t, ch, o)]) ch = hist L ch ++ option_list o.
Proof. rewrite hist_app. cbn. now rewrite Nat.eqb_refl. Qed.
Lemma accepted_other A t ch v b ok x : x <> ch -> accepted (A ++ [(t, ch, v, b, ok)]) x = accepted A x.
Proof. intros N. rewrite accepted_app. cbn. rewrite (proj2 (Nat.eqb_neq ch x)) by congruence. apply app_nil_r. Qed.
Lemma accepted_same A t ch v b ok : accepted (A ++ [(t, ch, v, b, ok)]) ch = accepted A ch ++ (if ok then [v] else []).
Proof. rewrite accepted_app. cbn. now rewrite Nat.eqb_refl. Qed.
Lemma settled_upd W W' t w : settled_but W t -> W' t = w -> out w = false -> (forall x, x <> t -> W' x = W x) -> settled W'.
Proof. intros H E Ho K x. destruct (decide (x = t)) as [->|N]; [now rewrite E|rewrite K by done; now apply H]. Qed.
Lemma fresh_chans s tr t r s' : fresh s tr t r -> tasks s' !! t = tasks s !! t -> fresh s' tr t r.
Proof. intros (sl & Et & H) E. exists sl. now rewrite E. Qed.
Lemma accept_ok s tr L A W t ch v b r c a : inv s tr L A [(t, ch, v, b)] W [] None -> W t = WOut [] [] -> settled_but W t -> pipe (chans s) L A tr -> fresh s tr t r -> chans s !! ch = Some c ->
  answer_of (Some r) (Ctx a None None None) = [] -> try_of (Some r) (Ctx a None None None) = (if b then [true] else []) -> (forall cm, ans cm tr (Some r) (Ctx a None None None)) ->
  match receivers c with
  | rid :: l => exists s1, deliver (set_chan s ch (with_receivers c l)) rid ch v = Some s1 /\ good (mark_ready s1 t a) tr
  | [] => has_room c = true -> good (mark_ready (set_chan s ch (with_queue c (queue c ++ [v]))) t a) tr
  end.
Proof.
  intros I Hw Hs [Pi Pf] Hf Ec H1 H2 H3. destruct (Pi ch c Ec) as (K1 & K2 & K3). destruct (receivers c) as [|rid l] eqn:Er.
  - intros Hr. assert (Es : senders c = []) by (destruct (senders c) as [|x y]; [done|]; exfalso; rewrite K2 in Hr; done).
    pose proof (inv_chan s tr L A _ W [] ch c (with_queue c (queue c ++ [v])) I Ec eq_refl eq_refl) as I1.
    pose proof (inv_offer _ tr L A W [] None t [] [] ch v b true I1 Hw (fun _ => eq_refl)) as I2.
    eexists L, _, _. split; [|split].
    + eapply (mark_ok _ tr L _ [] _ [] None t [] _ r a I2); [apply upd_same|exact Hf|done|exact H2|apply H3].
    + apply (settled_upd W _ t WReady); [done|apply upd_same|done|]. intros x N. now rewrite !upd_other.
    + split; cbn.
      * apply idle_chan; [done|]. split; [intros Q; cbn in Q; congruence|]. split; [intros Q; cbn in Q; congruence|]. unfold has_room in Hr. cbn. destruct (capacity c) as [n|]; [|done]. apply Nat.ltb_lt in Hr. rewrite app_length. cbn. lia.
      * apply (flow_chan _ L A tr _ _ ch c _ [v]); [done..| | |].
        -- intros x N. split; [done|]. now apply accepted_other.
        -- cbn. rewrite Es. cbn. now rewrite !app_nil_r, app_assoc.
        -- apply accepted_same.
  - destruct (K1 ltac:(done)) as (Q1 & Q2 & Q3).
    pose proof (inv_hide s tr L A _ W [] ch c (with_receivers c l) I Ec eq_refl) as I1. rewrite Er in I1.
    destruct (deliver_ok _ tr L A _ W ch rid l (Some v) I1) as (s1 & W1 & D1 & D2 & D3 & D4 & D5 & D6 & D7 & D8 & D9); [cbn; rewrite lookup_insert; now eexists|left; exists t, b; destruct (i_offers _ _ _ _ _ _ _ _ I) as [Eo _]; rewrite Eo; apply elem_of_app; right; now apply elem_of_list_singleton|].
    exists s1. split; [exact D1|]. cbn in D7. rewrite lookup_insert in D7. apply (inv_show _ _ _ _ _ _ _ ch (with_receivers c l)) in D2; [|done].
    assert (Nt : t <> rid) by (intros ->; rewrite Hw in D5; done).
    pose proof (inv_offer _ tr _ A W1 [] None t [] [] ch v b true D2 ltac:(rewrite D4 by done; exact Hw) (fun _ => eq_refl)) as I2.
    eexists _, _, _. split; [|split].
    + eapply (mark_ok _ tr _ _ [] _ [] None t [] _ r a I2); [apply upd_same| |done|exact H2|apply H3]. apply (fresh_chans s); [done|]. now rewrite D8.
    + intros x. destruct (decide (x = t)) as [->|N]; [now rewrite upd_same|]. rewrite !upd_other by done. destruct (decide (x = rid)) as [->|N']; [now rewrite D3|]. rewrite D4 by done. now apply Hs.
    + apply (pipe_thin _ _ _ _ _ D6). cbn. split.
      * apply idle_chan; [done|]. split; [intros _; cbn; done|]. cbn. now rewrite Q2.
      * apply (flow_chan _ L A tr _ _ ch c _ [v]); [done..| | |].
        -- intros x N. split; [now apply hist_other|]. now apply accepted_other.
        -- rewrite hist_same. cbn. rewrite Q1, Q2. cbn. now rewrite !app_nil_r.
        -- apply accepted_same.
Qed.
Lemma do_send_ok s tr L A W t ch v n c : inv s tr L A [(t, ch, v, false)] W [] None -> W t = WOut [] [] -> settled_but W t -> pipe (chans s) L A tr -> fresh s tr t (Send ch v, n) -> chans s !! ch = Some c -> exists s', do_send s t ch v = Some s' /\ good s' tr.
Proof.
  intros I Hw Hs Hp Hf Ec. pose proof (accept_ok s tr L A W t ch v false _ c Nothing I Hw Hs Hp Hf Ec eq_refl eq_refl ltac:(done)) as G. unfold do_send. rewrite Ec.
  destruct (receivers c) as [|rid l] eqn:Er; [|destruct G as (s1 & -> & G); cbn; eauto]. destruct (has_room c) eqn:Hr; [eauto|].
  eexists. split; [done|]. destruct Hf as (sl & Et & F1 & F2 & F3). destruct Hp as [Pi Pf].
  pose proof (inv_offer _ tr L A W [] None t [] [] ch v false true I Hw (fun _ => eq_refl)) as I2.
  eexists L, _, _. split; [|split].
  - refine (attach s tr L _ [] _ (WSend ch v) t (fun sl => with_tst sl BlockedSend) sl (<[ch := with_senders c (senders c ++ [(t, v)])]> (chans s)) (timers s) (awaiters s) I2 (upd_same _ _ _) eq_refl Et _ _ _ _ _ _ _ _); try done.
    + now exists n.
    + intros x. destruct (decide (x = ch)) as [->|N].
      * rewrite Ec, lookup_insert. cbn. rewrite Nat.eqb_refl, app_nil_r. done.
      * rewrite lookup_insert_ne by congruence. destruct (chans s !! x); [|done]. cbn. rewrite (proj2 (Nat.eqb_neq ch x)) by congruence. now rewrite !app_nil_r.
    + cbn. intros x [H|[v' H]]; [now apply elem_of_nil in H|]. injection H as <- <-. now exists c.
    + cbn. now rewrite app_nil_r.
    + intros x. cbn. now rewrite app_nil_r.
  - apply (settled_upd W _ t (WSend ch v)); [done|apply upd_same|done|]. intros x N. now rewrite !upd_other.
  - destruct (Pi ch c Ec) as (K1 & K2 & K3). split; cbn.
    + apply idle_chan; [done|]. split; [intros Q; cbn in Q; congruence|]. split; [intros _; exact Hr|exact K3].
    + apply (flow_chan _ L A tr _ _ ch c _ [v]); [done..| | |].
      * intros x N. split; [done|]. now apply accepted_other.
      * cbn. rewrite fmap_app. cbn. now rewrite !app_assoc.
      * apply accepted_same.
Qed.
Lemma do_try_send_ok s tr L A W t ch v n c : inv s tr L A [(t, ch, v, true)] W [] None -> W t = WOut [] [] -> settled_but W t -> pipe (chans s) L A tr -> fresh s tr t (TrySend ch v, n) -> chans s !! ch = Some c -> exists s', do_try_send s t ch v = Some s' /\ good s' tr.
Proof.
  intros I Hw Hs Hp Hf Ec. assert (Ha : forall b cm, ans cm tr (Some (TrySend ch v, n)) (Ctx (PBool b) None None None)) by (intros b cm; now exists b). pose proof (accept_ok s tr L A W t ch v true _ c (PBool true) I Hw Hs Hp Hf Ec eq_refl eq_refl (Ha true)) as G. unfold do_try_send. rewrite Ec.
  destruct (receivers c) as [|rid l] eqn:Er; [|destruct G as (s1 & -> & G); cbn; eauto]. destruct (has_room c) eqn:Hr; [eauto|].
  eexists. split; [done|]. destruct Hp as [Pi Pf]. pose proof (inv_offer _ tr L A W [] None t [] [] ch v true false I Hw ltac:(done)) as I2.
  eexists L, _, _. split; [|split].
  - eapply (mark_ok _ tr L _ [] _ [] None t [] _ _ _ I2); [apply upd_same|exact Hf|done|done|apply Ha].
  - apply (settled_upd W _ t WReady); [done|apply upd_same|done|]. intros x N. now rewrite !upd_other.
  - split; [done|]. intros x. specialize (Pf x). cbn. rewrite accepted_app. cbn. rewrite andb_false_r, app_nil_r. exact Pf.
Qed.
(** ** Receiving *)
Lemma set_chan_twice s ch c c' : set_chan (set_chan s ch c) ch c' = set_chan s ch c'.
Proof. unfold set_chan, set_chans. cbn. now rewrite insert_insert. Qed.
Lemma detach_sender s tr L A po W ch c sid sv r : inv s tr L A po W [] None -> chans s !! ch = Some c -> senders c = (sid, sv) :: r -> W sid = WSend ch sv /\ inv (set_chan s ch (with_senders c r)) tr L A po (upd W sid (WOut [] [])) [] None.
Proof.
  intros I Ec Es. destruct (i_send _ _ _ _ _ _ _ _ I ch c Ec) as [Nd K]. assert (Hs : spart (W sid) = Some (ch, sv)) by (apply K; rewrite Es; apply elem_of_cons; now left). assert (Hw : W sid = WSend ch sv) by (destruct (W sid); try done; cbn in Hs; congruence). split; [done|].
  pose proof (i_tasks _ _ _ _ _ _ _ _ I sid) as T. unfold task_ok in T. destruct (tasks s !! sid) as [sl|] eqn:Et; [|destruct T; congruence].
  apply (detach s tr L A po W (WOut [] []) [] [] None None sid (ready s) (<[ch := with_senders c r]> (chans s)) (timers s) (awaiters s)); try done.
  - left. now rewrite Hw.
  - symmetry. apply (no_ready W); [now destruct I|]. now rewrite Hw.
  - intros x. assert (Hx : forall cx, chans s !! x = Some cx -> rcv None x cx = List.filter (fun y => negb (y =? sid)) (rcv None x cx)). { intros cx Ex. symmetry. apply keep_out. destruct (i_recv _ _ _ _ _ _ _ _ I x cx Ex) as [_ Kx]. rewrite Kx, Hw. apply not_elem_of_nil. }
    destruct (decide (x = ch)) as [->|N].
    + rewrite Ec, lookup_insert. split; [exact (Hx c Ec)|]. cbn. rewrite Es. cbn. rewrite Nat.eqb_refl. cbn. symmetry. apply keep_fst_out. intros v Q. rewrite Es in Nd. cbn in Nd. apply NoDup_cons in Nd as [Nd _]. apply Nd. apply elem_of_list_fmap. now exists (sid, v).
    + rewrite lookup_insert_ne by congruence. destruct (chans s !! x) as [cx|] eqn:Ex; [|done]. split; [now apply Hx|]. symmetry. apply keep_fst_out. intros v. destruct (i_send _ _ _ _ _ _ _ _ I x cx Ex) as [_ Kx]. rewrite Kx, Hw. cbn. congruence.
  - intros tm. split; [|tauto]. intros H. split; [done|]. apply (no_timers W (timers s) [] _ _); [now destruct I|now rewrite Hw|done].
  - intros tm H. now left.
  - apply (no_await W); [now destruct I|]. now rewrite Hw.
Qed.
(** The oldest message of a channel is taken: what the channel becomes, and which sender goes on. *)
Definition popped (c : chan) : option (payload * chan * option nat) :=
  match queue c, senders c with
  | v :: q, [] => Some (v, with_queue c q, None)
  | v :: q, (sid, sv) :: r => Some (v, with_queue (with_senders c r) (q ++ [sv]), Some sid)
  | [], (sid, v) :: r => Some (v, with_senders c r, Some sid)
  | [], [] => None
  end.
Lemma popped_ok s tr L A W t ch c v c' o : inv s tr L A [] W [] None -> W t = WOut [] [] -> settled_but W t -> pipe (chans s) L A tr -> chans s !! ch = Some c -> popped c = Some (v, c', o) ->
  exists W', inv (set_chan s ch c') tr (L ++ [(t, ch, Some v)]) A [] W' [] None /\ W' t = WOut [(ch, v)] [] /\ pipe (chans (set_chan s ch c')) (L ++ [(t, ch, Some v)]) A tr /\
    match o with
    | None => settled_but W' t
    | Some sid => sid <> t /\ W' sid = WOut [] [] /\ (exists sv n, fresh s tr sid (Send ch sv, n)) /\ (forall x, x <> t -> x <> sid -> out (W' x) = false)
    end.
Proof.
  intros I Hw Hs [Pi Pf] Ec Hp. destruct (Pi ch c Ec) as (K1 & K2 & K3). assert (Er : queue c <> [] \/ senders c <> [] -> receivers c = []). { intros Q. destruct (receivers c); [done|]. destruct K1 as (Q1 & Q2 & _); [done|]. tauto. }
  unfold popped in Hp. destruct (queue c) as [|v0 q] eqn:Eq, (senders c) as [|[sid sv] r] eqn:Es; try done; injection Hp as -> <- <-.
  - destruct (detach_sender s tr L A [] W ch c sid v r I Ec Es) as [Hsid I1]. assert (Nt : sid <> t) by congruence.
    pose proof (inv_give _ tr L A [] _ [] None t [] [] ch (Some v) I1 ltac:(rewrite upd_other by congruence; exact Hw)) as I2.
    eexists. split; [exact I2|]. split; [apply upd_same|]. split.
    + split; cbn.
      * apply idle_chan; [done|]. split; [cbn; rewrite Er by (right; done); done|]. cbn. rewrite Eq. split; [|done]. intros Q. unfold has_room in *. cbn. rewrite Eq in *. now apply K2.
      * apply (flow_chan _ L A tr _ _ ch c _ []); [done..| | |].
        -- intros x N. split; [now apply hist_other|done].
        -- rewrite hist_same. cbn. rewrite Eq, Es. cbn. now rewrite app_nil_r, <- app_assoc.
        -- now rewrite app_nil_r.
    + split; [done|]. split; [rewrite upd_other by done; apply upd_same|]. split.
      * pose proof (fresh_resting s tr L A [] W [] None sid I) as F. rewrite Hsid in F. destruct F as [n F]. now exists v, n.
      * intros x N1 N2. rewrite !upd_other by done. now apply Hs.
  - pose proof (inv_chan s tr L A _ W [] ch c (with_queue c q) I Ec eq_refl eq_refl) as I1.
    pose proof (inv_give _ tr L A [] _ [] None t [] [] ch (Some v) I1 Hw) as I2.
    eexists. split; [exact I2|]. split; [apply upd_same|]. split.
    + split; cbn.
      * apply idle_chan; [done|]. split; [cbn; rewrite Er by (left; done); done|]. cbn. rewrite Es. split; [done|]. destruct (capacity c); [|done]. cbn in K3. lia.
      * apply (flow_chan _ L A tr _ _ ch c _ []); [done..| | |].
        -- intros x N. split; [now apply hist_other|done].
        -- rewrite hist_same. cbn. rewrite Eq, Es. cbn. now rewrite !app_nil_r, <- app_assoc.
        -- now rewrite app_nil_r.
    + intros x N. rewrite upd_other by done. now apply Hs.
  - destruct (detach_sender s tr L A [] W ch c sid sv r I Ec Es) as [Hsid I1]. assert (Nt : sid <> t) by congruence.
    pose proof (inv_chan _ tr L A _ _ [] ch (with_senders c r) (with_queue (with_senders c r) (q ++ [sv])) I1 ltac:(cbn; apply lookup_insert) eq_refl eq_refl) as I1'. rewrite set_chan_twice in I1'.
    pose proof (inv_give _ tr L A [] _ [] None t [] [] ch (Some v) I1' ltac:(rewrite upd_other by congruence; exact Hw)) as I2.
    eexists. split; [exact I2|]. split; [apply upd_same|]. split.
    + split; cbn.
      * apply idle_chan; [done|]. split; [cbn; rewrite Er by (left; done); done|]. specialize (K2 ltac:(done)). unfold has_room in K2 |- *. cbn [capacity queue senders with_queue with_senders]. rewrite Eq in K2. destruct (capacity c) as [n|]; [|done]. rewrite app_length. cbn [length] in *. apply Nat.ltb_ge in K2. split; [|lia]. intros _. apply Nat.ltb_ge. lia.
      * apply (flow_chan _ L A tr _ _ ch c _ []); [done..| | |].
        -- intros x N. split; [now apply hist_other|done].
        -- rewrite hist_same. cbn. rewrite Eq, Es. cbn. rewrite !app_nil_r, <- !app_assoc. done.
        -- now rewrite app_nil_r.
    + split; [done|]. split; [rewrite upd_other by done; apply upd_same|]. split.
      * pose proof (fresh_resting s tr L A [] W [] None sid I) as F. rewrite Hsid in F. destruct F as [n F]. now exists sv, n.
      * intros x N1 N2. rewrite !upd_other by done. now apply Hs.
Qed.
(** The code's two ways of taking, by what is taken. *)
Definition wake (s : core B) (o : option nat) : core B := match o with Some sid => mark_ready s sid Nothing | None => s end.
Lemma refill_eq s ch c v q : chans s !! ch = Some (with_queue c q) -> queue c = v :: q -> chan_idle c ->
  match popped c with Some (_, c', o) => refill s ch = match o with Some _ => wake (set_chan s ch c') o | None => s end | None => False end.
Proof.
  intros E Eq (_ & K2 & K3). unfold popped, refill. rewrite E, Eq. cbn. rewrite Eq in K3. cbn in K3. assert (Hr : has_room (with_queue c q) = true) by (unfold has_room; cbn; destruct (capacity c); [apply Nat.ltb_lt; lia|done]). rewrite Hr. destruct (senders c) as [|[sid sv] r]; done.
Qed.
Lemma mark_set_chan s t v ch c : set_chan (mark_ready s t v) ch c = mark_ready (set_chan s ch c) t v. Proof. done. Qed.
Lemma do_recv_eq s t ch c : chans s !! ch = Some c -> chan_idle c -> do_recv s t ch =
  match popped c with
  | Some (v, c', o) => Some (wake (mark_ready (set_chan s ch c') t v) o)
  | None => if closed c then Some (mark_ready s t Nothing) else Some (set_tst (set_chan s ch (with_receivers c (receivers c ++ [t]))) t BlockedRecv)
  end.
Proof.
  intros E I. unfold do_recv. rewrite E. destruct (queue c) as [|v q] eqn:Eq.
  - unfold popped. rewrite Eq. destruct (senders c) as [|[sid sv] r]; done.
  - pose proof (refill_eq (mark_ready (set_chan s ch (with_queue c q)) t v) ch c v q) as R. cbn in R. rewrite lookup_insert in R. specialize (R eq_refl Eq I). unfold popped in *. rewrite Eq in *. destruct (senders c) as [|[sid sv] r]; rewrite R; [done|]. now rewrite mark_set_chan, set_chan_twice.
Qed.
Lemma do_try_recv_eq s t ch c : chans s !! ch = Some c -> chan_idle c -> do_try_recv s t ch =
  match popped c with Some (v, c', o) => Some (wake (mark_ready (set_chan s ch c') t v) o) | None => Some (mark_ready s t Nothing) end.
Proof.
  intros E I. unfold do_try_recv. rewrite E. destruct (queue c) as [|v q] eqn:Eq.
  - unfold popped. rewrite Eq. destruct (senders c) as [|[sid sv] r]; done.
  - pose proof (refill_eq (mark_ready (set_chan s ch (with_queue c q)) t v) ch c v q) as R. cbn in R. rewrite lookup_insert in R. specialize (R eq_refl Eq I). unfold popped in *. rewrite Eq in *. destruct (senders c) as [|[sid sv] r]; rewrite R; [done|]. now rewrite mark_set_chan, set_chan_twice.
Qed.
Lemma take_one_eq s ch c : chans s !! ch = Some c -> chan_idle c -> take_one s ch = match popped c with Some (v, c', o) => (wake (set_chan s ch c') o, v) | None => (s, Nothing) end.
Proof.
  intros E I. unfold take_one. rewrite E. destruct (queue c) as [|v q] eqn:Eq.
  - unfold popped. rewrite Eq. destruct (senders c) as [|[sid sv] r]; done.
  - pose proof (refill_eq (set_chan s ch (with_queue c q)) ch c v q) as R. cbn in R. rewrite lookup_insert in R. specialize (R eq_refl Eq I). unfold popped in *. rewrite Eq in *. destruct (senders c) as [|[sid sv] r]; rewrite R; [done|]. now rewrite set_chan_twice.
Qed.
Lemma popped_from c v c' o : popped c = Some (v, c', o) -> v ∈ queue c \/ v ∈ (senders c).*2.
Proof.
  unfold popped. destruct (queue c) as [|w q], (senders c) as [|[sid sv] r]; try done; intros [= <- _ _]; [right; cbn; apply elem_of_cons; now left|left; apply elem_of_cons; now left..].
Qed.
Lemma wake_mark_ok s tr L A W t ch c v c' o r : inv s tr L A [] W [] None -> W t = WOut [] [] -> settled_but W t -> pipe (chans s) L A tr -> chans s !! ch = Some c -> popped c = Some (v, c', o) -> fresh s tr t r ->
  answer_of (Some r) (Ctx v None None None) = [(ch, v)] -> try_of (Some r) (Ctx v None None None) = [] -> (forall cm, ans cm tr (Some r) (Ctx v None None None)) -> good (wake (mark_ready (set_chan s ch c') t v) o) tr.
Proof.
  intros I Hw Hs Hp Ec Ep Hf H1 H2 H3. destruct (popped_ok s tr L A W t ch c v c' o I Hw Hs Hp Ec Ep) as (W1 & I1 & Hw1 & Hp1 & Ho).
  pose proof (mark_ok _ tr _ A [] W1 [] None t _ _ r v I1 Hw1 Hf H1 H2 (H3 _)) as I2. destruct o as [sid|].
  - destruct Ho as (Nt & Ho1 & (sv & n & Ho2) & Ho3). eexists _, _, _. split; [|split].
    + eapply (mark_ok _ tr _ A [] _ [] None sid [] [] (Send ch sv, n) Nothing I2); [rewrite upd_other by done; exact Ho1| |done..]. apply fresh_mark; [done|]. exact Ho2.
    + intros x. destruct (decide (x = sid)) as [->|N]; [now rewrite upd_same|rewrite upd_other by done]. destruct (decide (x = t)) as [->|N']; [now rewrite upd_same|rewrite upd_other by done]. now apply Ho3.
    + exact Hp1.
  - eexists _, _, _. split; [exact I2|]. split; [|exact Hp1]. intros x. destruct (decide (x = t)) as [->|N]; [now rewrite upd_same|rewrite upd_other by done]. now apply Ho.
Qed.
Lemma nothing_ok s tr L A W t ch c r : inv s tr L A [] W [] None -> W t = WOut [] [] -> settled_but W t -> pipe (chans s) L A tr -> chans s !! ch = Some c -> fresh s tr t r ->
  answer_of (Some r) ctx0 = [(ch, Nothing)] -> try_of (Some r) ctx0 = [] -> (forall cm, ans cm tr (Some r) ctx0) -> good (mark_ready s t Nothing) tr.
Proof.
  intros I Hw Hs [Pi Pf] Ec Hf H1 H2 H3. pose proof (inv_give _ tr L A [] _ [] None t [] [] ch None I Hw) as I2. eexists _, _, _. split; [|split].
  - eapply (mark_ok _ tr _ A [] _ [] None t _ _ r Nothing I2); [apply upd_same|exact Hf|exact H1|exact H2|apply H3].
  - apply (settled_upd W _ t WReady); [done|apply upd_same|done|]. intros x N. now rewrite !upd_other.
  - split; [done|]. intros x. specialize (Pf x). cbn. rewrite hist_app. cbn. destruct (ch =? x); rewrite app_nil_r; exact Pf.
Qed.
Lemma do_recv_ok s tr L A W t ch n c : inv s tr L A [] W [] None -> W t = WOut [] [] -> settled_but W t -> pipe (chans s) L A tr -> fresh s tr t (Recv ch, n) -> chans s !! ch = Some c -> exists s', do_recv s t ch = Some s' /\ good s' tr.
Proof.
  intros I Hw Hs Hp Hf Ec. assert (Ha : forall v cm, src tr ch v -> ans cm tr (Some (Recv ch, n)) (Ctx v None None None)) by (intros v cm H; now exists v). assert (Pc : chan_idle c) by (destruct Hp as [Pi _]; now apply (Pi ch)). rewrite (do_recv_eq s t ch c Ec Pc). destruct (popped c) as [[[v c'] o]|] eqn:Ep.
  - eexists. split; [done|]. apply (wake_mark_ok s tr L A W t ch c v c' o (Recv ch, n)); try done. intros cm. apply Ha. left. destruct Hp as [_ Pf]. apply (queued_offered s tr L A [] W [] None ch c v I Pf Ec). now apply (popped_from c v c' o).
  - assert (Q : queue c = [] /\ senders c = []). { unfold popped in Ep. destruct (queue c), (senders c) as [|[? ?] ?]; done. } destruct Q as [Q1 Q2]. destruct (closed c) eqn:Q3.
    + eexists. split; [done|]. apply (nothing_ok s tr L A W t ch c (Recv ch, n)); try done. intros cm. apply Ha. right. split; [done|]. destruct Hp as [_ Pf]. specialize (Pf ch). rewrite Ec in Pf. now apply Pf.
    + eexists. split; [done|]. destruct Hf as (sl & Et & F1 & F2 & F3). destruct Hp as [Pi Pf]. eexists L, A, _. split; [|split].
      * refine (attach s tr L A [] W (WRecv ch) t (fun sl => with_tst sl BlockedRecv) sl (<[ch := with_receivers c (receivers c ++ [t])]> (chans s)) (timers s) (awaiters s) I Hw eq_refl Et _ _ _ _ _ _ _ _); try done.
        -- now exists n.
        -- intros x. destruct (decide (x = ch)) as [->|N].
           ++ rewrite Ec, lookup_insert. cbn. rewrite bool_decide_true by now apply elem_of_list_singleton. now rewrite app_nil_r.
           ++ rewrite lookup_insert_ne by congruence. destruct (chans s !! x); [|done]. cbn. rewrite bool_decide_false by (rewrite elem_of_list_singleton; done). now rewrite !app_nil_r.
        -- cbn. intros x [H|[v' H]]; [|done]. apply elem_of_list_singleton in H. subst x. now exists c.
        -- cbn. now rewrite app_nil_r.
        -- intros x. cbn. now rewrite app_nil_r.
      * apply (settled_upd W _ t (WRecv ch)); [done|apply upd_same|done|]. intros x N. now rewrite !upd_other.
      * destruct Pc as (K1 & K2 & K3). split; cbn.
        -- apply idle_chan; [done|]. split; [intros _; done|]. split; [cbn; rewrite Q2; done|exact K3].
        -- apply (flow_chan _ L A tr _ _ ch c _ []); [done..| |]; cbn; now rewrite app_nil_r.
Qed.
Lemma do_try_recv_ok s tr L A W t ch n c : inv s tr L A [] W [] None -> W t = WOut [] [] -> settled_but W t -> pipe (chans s) L A tr -> fresh s tr t (TryRecv ch, n) -> chans s !! ch = Some c -> exists s', do_try_recv s t ch = Some s' /\ good s' tr.
Proof.
  intros I Hw Hs Hp Hf Ec. assert (Ha : forall v cm, offered tr ch v \/ v = Nothing -> ans cm tr (Some (TryRecv ch, n)) (Ctx v None None None)) by (intros v cm H; now exists v). assert (Pc : chan_idle c) by (destruct Hp as [Pi _]; now apply (Pi ch)). rewrite (do_try_recv_eq s t ch c Ec Pc). destruct (popped c) as [[[v c'] o]|] eqn:Ep.
  - eexists. split; [done|]. apply (wake_mark_ok s tr L A W t ch c v c' o (TryRecv ch, n)); try done. intros cm. apply Ha. left. destruct Hp as [_ Pf]. apply (queued_offered s tr L A [] W [] None ch c v I Pf Ec). now apply (popped_from c v c' o).
  - eexists. split; [done|]. apply (nothing_ok s tr L A W t ch c (TryRecv ch, n)); try done. intros cm. apply Ha. now right.
Qed.
(** ** Select *)
Fixpoint reg_chans (cm : gmap nat chan) (t : nat) (arms : list arm) : gmap nat chan :=
  match arms with
  | [] => cm
  | ARecv ch :: r => reg_chans (match cm !! ch with Some c => <[ch := with_receivers c (receivers c ++ [t])]> cm | None => cm end) t r
  | ATimeout _ :: r => reg_chans cm t r
  end.
Lemma register_eq s t arms i : register s t arms i = set_timers (set_chans s (reg_chans (chans s) t arms)) (timers s ++ map (fun x => Timer (fst x) t (snd x)) (timeouts (clock s) arms i)).
Proof.
  revert s i. induction arms as [|[ch|d] arms IH]; intros s i; cbn [register reg_chans timeouts map].
  - rewrite app_nil_r. now destruct s.
  - rewrite IH. destruct (chans s !! ch); done.
  - rewrite IH. unfold set_timers. cbn. rewrite <- app_assoc. done.
Qed.
Lemma with_receivers_same c : with_receivers c (receivers c ++ []) = c.
Proof. unfold with_receivers. rewrite app_nil_r. now destruct c. Qed.
Lemma reg_chans_spec cm t arms x : NoDup (recv_chans arms) -> reg_chans cm t arms !! x = (fun c => with_receivers c (receivers c ++ (if bool_decide (x ∈ recv_chans arms) then [t] else []))) <$> cm !! x.
Proof.
  revert cm. induction arms as [|[ch|d] arms IH]; intros cm Nd; cbn [reg_chans].
  - rewrite bool_decide_false by apply not_elem_of_nil. destruct (cm !! x) as [c|]; [|done]. cbn. now rewrite with_receivers_same.
  - cbn in Nd. apply NoDup_cons in Nd as [N Nd]. rewrite IH by done. change (recv_chans (ARecv ch :: arms)) with (ch :: recv_chans arms). destruct (decide (x = ch)) as [->|Nx].
    + rewrite bool_decide_false by done. rewrite bool_decide_true by (apply elem_of_cons; now left). destruct (cm !! ch) as [c|] eqn:E; [|now rewrite E]. rewrite lookup_insert. cbn. f_equal. rewrite with_receivers_same. done.
    + assert (Q : bool_decide (x ∈ ch :: recv_chans arms) = bool_decide (x ∈ recv_chans arms)) by (apply bool_decide_ext; rewrite elem_of_cons; tauto). rewrite Q. f_equal. destruct (cm !! ch); [|done]. now rewrite lookup_insert_ne by congruence.
  - now apply IH.
Qed.
Lemma ready_arms_none s arms i : ready_arms s arms i = Some [] -> forall ch, ch ∈ recv_chans arms -> exists c, chans s !! ch = Some c /\ can_recv c = false.
Proof.
  revert i. induction arms as [|[a|d] arms IH]; intros i H ch Hc; [now apply elem_of_nil in Hc| |now apply (IH (S i))]. cbn [ready_arms] in H. destruct (chans s !! a) as [c|] eqn:E; [|done]. cbn in H. destruct (ready_arms s arms (S i)) as [l|] eqn:El; [|done]. cbn in H. destruct (can_recv c) eqn:Er; [done|]. injection H as ->. change (recv_chans (ARecv a :: arms)) with (a :: recv_chans arms) in Hc. apply elem_of_cons in Hc as [->|Hc]; [now exists c|]. now apply (IH (S i)).
Qed.
Lemma ready_arms_in s arms i l : ready_arms s arms i = Some l -> forall j, j ∈ l -> exists k ch c, j = i + k /\ arms !! k = Some (ARecv ch) /\ chans s !! ch = Some c /\ can_recv c = true.
Proof.
  revert i l. induction arms as [|[a|d] arms IH]; intros i l H j Hj; cbn [ready_arms] in H.
  - injection H as <-. now apply elem_of_nil in Hj.
  - destruct (chans s !! a) as [c|] eqn:E; [|done]. cbn in H. destruct (ready_arms s arms (S i)) as [l'|] eqn:El; [|done]. cbn in H. injection H as <-.
    assert (Q : j ∈ l' -> exists k ch c, j = i + k /\ (ARecv a :: arms) !! k = Some (ARecv ch) /\ chans s !! ch = Some c /\ can_recv c = true). { intros Q. destruct (IH (S i) l' El j Q) as (k & ch & c' & -> & H1 & H2). exists (S k), ch, c'. split; [lia|done]. }
    destruct (can_recv c) eqn:Er; [|now apply Q]. apply elem_of_cons in Hj as [->|Hj]; [|now apply Q]. exists 0, a, c. split; [lia|done].
  - destruct (IH (S i) l H j Hj) as (k & ch & c & -> & H1 & H2). exists (S k), ch, c. split; [lia|done].
Qed.
Lemma can_recv_false c : can_recv c = false -> queue c = [] /\ senders c = [] /\ closed c = false.
Proof. unfold can_recv. destruct (queue c), (senders c); done. Qed.
Lemma select_wait s tr L A W t arms n : inv s tr L A [] W [] None -> W t = WOut [] [] -> settled_but W t -> pipe (chans s) L A tr -> fresh s tr t (Select arms, n) -> NoDup (recv_chans arms) -> ready_arms s arms 0 = Some [] ->
  good (upd_task (register s t arms 0) t (fun sl => with_tst (with_sel_arms sl (Some arms)) BlockedSelect)) tr.
Proof.
  intros I Hw Hs [Pi Pf] (sl & Et & F1 & F2 & F3) Nd Hr. pose proof (ready_arms_none s arms 0 Hr) as Hn. rewrite register_eq.
  assert (Sp : forall x, reg_chans (chans s) t arms !! x = (fun c => with_receivers c (receivers c ++ (if bool_decide (x ∈ recv_chans arms) then [t] else []))) <$> chans s !! x) by (intros x; now apply reg_chans_spec).
  eexists L, A, _. split; [|split].
  - refine (attach s tr L A [] W (WSelect (clock s) arms) t (fun sl => with_tst (with_sel_arms sl (Some arms)) BlockedSelect) sl (reg_chans (chans s) t arms) _ (awaiters s) I Hw eq_refl Et _ _ _ _ _ eq_refl _ _); try done.
    + now exists n.
    + intros x. rewrite Sp. destruct (chans s !! x) as [c|]; [|done]. cbn. now rewrite app_nil_r.
    + cbn. intros x [H|[v H]]; [|done]. destruct (Hn x H) as (c & E & _). now exists c.
    + intros x. cbn. now rewrite app_nil_r.
  - apply (settled_upd W _ t (WSelect (clock s) arms)); [done|apply upd_same|done|]. intros x N. now rewrite !upd_other.
  - split; cbn.
    + intros x c' E. rewrite Sp in E. destruct (chans s !! x) as [c|] eqn:Ex; [|done]. injection E as <-. case_bool_decide as Q; [|rewrite with_receivers_same; now apply (Pi x)]. destruct (Hn x Q) as (c0 & E0 & Q0). rewrite Ex in E0. injection E0 as <-. apply can_recv_false in Q0 as (Q1 & Q2 & Q3). destruct (Pi x c Ex) as (_ & _ & K3). split; [done|]. split; [cbn; rewrite Q2; done|exact K3].
    + intros x. rewrite Sp. specialize (Pf x). destruct (chans s !! x) as [c|]; done.
Qed.
Lemma select_now s tr L A W t arms n i ch c : inv s tr L A [] W [] None -> W t = WOut [] [] -> settled_but W t -> pipe (chans s) L A tr -> fresh s tr t (Select arms, n) -> arms !! i = Some (ARecv ch) -> chans s !! ch = Some c -> can_recv c = true ->
  let '(s', v) := take_one s ch in good (set_ready (upd_task s' t (fun sl => with_tst (with_sel_arm (with_resume sl v) (Some i)) Ready)) (ready s' ++ [t])) tr.
Proof.
  intros I Hw Hs Hp (sl & Et & F1 & F2 & F3) Ea Ec Hcan. assert (Pc : chan_idle c) by (destruct Hp as [Pi _]; now apply (Pi ch)). rewrite (take_one_eq s ch c Ec Pc).
  assert (Q1 : forall v, ctx_of (with_tst (with_sel_arm (with_resume sl v) (Some i)) Ready) = Ctx v (Some i) None None) by (intros v; unfold ctx_of in *; cbn; injection F2 as _ _ -> ->; done).
  destruct (popped c) as [[[v c'] o]|] eqn:Ep.
  - assert (Hsrc : src tr ch v). { left. destruct Hp as [_ Pf]. apply (queued_offered s tr L A [] W [] None ch c v I Pf Ec). now apply (popped_from c v c' o). }
    destruct (popped_ok s tr L A W t ch c v c' o I Hw Hs Hp Ec Ep) as (W1 & I1 & Hw1 & Hp1 & Ho).
    assert (Fin : forall s' W', inv s' tr (L ++ [(t, ch, Some v)]) A [] W' [] None -> W' t = WOut [(ch, v)] [] -> settled_but W' t -> tasks s' !! t = Some sl -> chans s' = chans (set_chan s ch c') -> good (set_ready (upd_task s' t (fun sl => with_tst (with_sel_arm (with_resume sl v) (Some i)) Ready)) (ready s' ++ [t])) tr).
    { intros s' W' I' Hw' Hs' Et' Ec'. eexists _, _, _. split; [|split].
      - refine (attach_ready s' tr _ A [] W' [] None t _ _ (fun sl => with_tst (with_sel_arm (with_resume sl v) (Some i)) Ready) sl I' Hw' Et' _ _ _ _ _ _); try done; rewrite F3; try rewrite Q1; cbn; try rewrite Ea; try done. eexists _, _. split; [done|]. left. exists ch. now split.
      - apply (settled_upd W' _ t WReady); [done|apply upd_same|done|]. intros x N. now rewrite !upd_other.
      - cbn. rewrite Ec'. exact Hp1. }
    destruct o as [sid|]; [|now apply (Fin _ W1)]. destruct Ho as (Nt & Ho1 & (sv & m & Ho2) & Ho3).
    apply (Fin (mark_ready (set_chan s ch c') sid Nothing) (upd W1 sid WReady)).
    + now apply (mark_ok _ tr _ A [] _ [] None sid [] [] (Send ch sv, m) Nothing I1).
    + now rewrite upd_other by congruence.
    + intros x N. destruct (decide (x = sid)) as [->|N']; [now rewrite upd_same|rewrite upd_other by done]. now apply Ho3.
    + cbn. now rewrite lookup_alter_ne by congruence.
    + done.
  - assert (Hsrc : src tr ch Nothing). { right. split; [done|]. destruct Hp as [_ Pf]. specialize (Pf ch). rewrite Ec in Pf. apply Pf. unfold popped in Ep. unfold can_recv in Hcan. destruct (queue c), (senders c) as [|[? ?] ?]; done. }
    pose proof (inv_give _ tr L A [] _ [] None t [] [] ch None I Hw) as I2. eexists _, _, _. split; [|split].
    + refine (attach_ready s tr _ A [] _ [] None t _ _ (fun sl => with_tst (with_sel_arm (with_resume sl Nothing) (Some i)) Ready) sl I2 (upd_same _ _ _) Et _ _ _ _ _ _); try done; rewrite F3; try rewrite Q1; cbn; try rewrite Ea; try done. eexists _, _. split; [done|]. left. exists ch. now split.
    + apply (settled_upd W _ t WReady); [done|apply upd_same|done|]. intros x N. now rewrite !upd_other.
    + destruct Hp as [Pi Pf]. split; [done|]. intros x. specialize (Pf x). cbn. rewrite hist_app. cbn. destruct (ch =? x); rewrite app_nil_r; exact Pf.
Qed.
Lemma do_select_ok s tr L A W t arms n c c' s' : inv s tr L A [] W [] None -> W t = WOut [] [] -> settled_but W t -> pipe (chans s) L A tr -> fresh s tr t (Select arms, n) -> NoDup (recv_chans arms) -> do_select s c t arms = Some (s', c') -> good s' tr.
Proof.
  intros I Hw Hs Hp Hf Nd. unfold do_select. destruct (ready_arms s arms 0) as [l|] eqn:Er; [|done]. intros H. assert (Hx : l = [] /\ (s', c') = (upd_task (register s t arms 0) t (fun sl => with_tst (with_sel_arms sl (Some arms)) BlockedSelect), c) \/ exists w c1 i, l !! w = Some i /\ match arms !! i with Some (ARecv ch) => let '(s, v) := take_one s ch in Some (set_ready (upd_task s t (fun sl => with_tst (with_sel_arm (with_resume sl v) (Some i)) Ready)) (ready s ++ [t]), c1) | _ => None end = Some (s', c')).
  { destruct l as [|i1 [|i2 l]].
    - left. split; [done|]. congruence.
    - right. exists 0, c, i1. done.
    - right. destruct (choose_among c SelectWinner _) as [[w c1]|]; [|done]. cbn [mbind option_bind] in H. destruct ((i1 :: i2 :: l) !! w) as [i|] eqn:Ei; [|done]. now exists w, c1, i. }
  clear H. destruct Hx as [[-> [= -> ->]]|Hx].
  - now apply (select_wait s tr L A W t arms n).
  - destruct Hx as (w & c1 & i & Ei & H). apply elem_of_list_lookup_2 in Ei. destruct (ready_arms_in s arms 0 l Er i Ei) as (k & ch & cc & -> & Ea & Ec & Hcan). cbn in H. rewrite Ea in H. pose proof (select_now s tr L A W t arms n k ch cc I Hw Hs Hp Hf Ea Ec Hcan) as G. destruct (take_one s ch) as [s1 v]. injection H as <- <-. exact G.
Qed.
End Ops.
