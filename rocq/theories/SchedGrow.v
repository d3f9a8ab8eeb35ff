(** What never goes away in a scheduler: tasks, channels with their capacities, results; and so no
    task is polled after its end. *)
From Coq Require Import NArith List Lia.
From stdpp Require Import list gmap.
From Verif Require Import SchedModel SchedInv SchedOps SchedStep.
Open Scope nat_scope.

Section Grow.
Context {B : Type}.
Implicit Types (s : core B) (tr : list (event B)).
Definition grows s s' : Prop :=
  (forall ch c, chans s !! ch = Some c -> exists c', chans s' !! ch = Some c' /\ capacity c' = capacity c) /\
  (forall t sl, tasks s !! t = Some sl -> exists sl', tasks s' !! t = Some sl' /\ is_main sl' = is_main sl) /\
  (forall t, is_Some (results s !! t) -> is_Some (results s' !! t)) /\ next_id s <= next_id s'.
Lemma g_refl s : grows s s.
Proof. split_and!; eauto. Qed.
Lemma g_trans a b c : grows a b -> grows b c -> grows a c.
Proof.
  intros (A1 & A2 & A3 & A4) (B1 & B2 & B3 & B4). split_and!; [| |auto|lia].
  - intros ch x E. destruct (A1 ch x E) as (y & Ey & Q1). destruct (B1 ch y Ey) as (z & Ez & Q2). exists z. split; [done|congruence].
  - intros t x E. destruct (A2 t x E) as (y & Ey & Q1). destruct (B2 t y Ey) as (z & Ez & Q2). exists z. split; [done|congruence].
Qed.
Lemma g_plain s s' : tasks s' = tasks s -> chans s' = chans s -> results s' = results s -> next_id s' = next_id s -> grows s s'.
Proof. intros E1 E2 E3 E4. unfold grows. rewrite E1, E2, E3, E4. apply g_refl. Qed.
Lemma g_upd s t f : (forall sl, is_main (f sl) = is_main sl) -> grows s (upd_task s t f).
Proof.
  intros Hf. split_and!; [eauto| |eauto|done]. intros x sl E. cbn. destruct (decide (x = t)) as [->|N]; [rewrite lookup_alter, E; exists (f sl); now split|rewrite lookup_alter_ne by congruence; eauto].
Qed.
Lemma g_set_chan s ch c c' : chans s !! ch = Some c -> capacity c' = capacity c -> grows s (set_chan s ch c').
Proof.
  intros E Q. split_and!; [|eauto|eauto|done]. intros x y Ey. cbn. destruct (decide (x = ch)) as [->|N]; [rewrite lookup_insert; exists c'; split; [done|congruence]|rewrite lookup_insert_ne by congruence; eauto].
Qed.
Ltac gs := match goal with H : chans ?s !! ?ch = Some ?c |- context [set_chan ?s ?ch ?c'] => apply (g_trans s (set_chan s ch c')); [now apply (g_set_chan s ch c)|] | D : deliver (set_chan ?s ?ch ?c') _ _ _ = _, H : chans ?s !! ?ch = Some ?c |- _ => apply (g_trans s (set_chan s ch c')); [now apply (g_set_chan s ch c)|] end.
Lemma g_mark s t v : grows s (mark_ready s t v).
Proof. eapply g_trans; [apply (g_upd s t (fun sl => with_tst (with_resume sl v) Ready)); intros []; reflexivity|now apply g_plain]. Qed.
Lemma g_complete s t v i : grows s (complete_select s t v i).
Proof. eapply g_trans; [apply (g_upd s t (fun sl => with_tst (with_sel_arm (with_resume (with_sel_arms sl None) v) (Some i)) Ready)); intros []; reflexivity|now apply g_plain]. Qed.
Lemma g_chans s cm : (forall ch c, chans s !! ch = Some c -> exists c', cm !! ch = Some c' /\ capacity c' = capacity c) -> grows s (set_chans s cm).
Proof. intros H. split_and!; [done|eauto|eauto|done]. Qed.
Lemma g_cancel s t x : grows s (cancel_select s t x).
Proof.
  eapply g_trans; [|apply g_plain; reflexivity]. apply g_chans. intros ch c E. rewrite map_lookup_imap, E. cbn. eexists. split; [done|]. now case_bool_decide.
Qed.
Lemma g_refill s ch : grows s (refill s ch).
Proof.
  unfold refill. destruct (chans s !! ch) as [c|] eqn:E; [|apply g_refl]. destruct (has_room c); [|apply g_refl]. destruct (senders c) as [|[sid v] r]; [apply g_refl|]. gs. apply g_mark.
Qed.
Lemma g_deliver s t ch v s' : deliver s t ch v = Some s' -> grows s s'.
Proof.
  unfold deliver. destruct (tasks s !! t) as [sl|]; [|done]. destruct (sel_arms sl) as [arms|]; [|intros [= <-]; apply g_mark]. destruct (arm_position arms ch); [|done]. intros [= <-]. eapply g_trans; [apply g_complete|apply g_cancel].
Qed.
Lemma g_fold {X} (f : core B -> X -> core B) l : (forall s x, grows s (f s x)) -> forall s, grows s (fold_left f l s).
Proof. intros H. induction l as [|a l IH]; intros s; [apply g_refl|]. cbn. eapply g_trans; [apply H|apply IH]. Qed.
Lemma g_send s t ch v s' : do_send s t ch v = Some s' -> grows s s'.
Proof.
  unfold do_send. destruct (chans s !! ch) as [c|] eqn:E; [|done]. destruct (receivers c) as [|rid r].
  - destruct (has_room c); intros [= <-]; (gs); [apply g_mark|apply g_upd; intros []; reflexivity].
  - destruct (deliver _ rid ch v) as [s1|] eqn:D; [|done]. intros [= <-]. gs. eapply g_trans; [apply (g_deliver _ _ _ _ _ D)|apply g_mark].
Qed.
Lemma g_try_send s t ch v s' : do_try_send s t ch v = Some s' -> grows s s'.
Proof.
  unfold do_try_send. destruct (chans s !! ch) as [c|] eqn:E; [|done]. destruct (receivers c) as [|rid r].
  - destruct (has_room c); intros [= <-]; [gs|]; apply g_mark.
  - destruct (deliver _ rid ch v) as [s1|] eqn:D; [|done]. intros [= <-]. gs. eapply g_trans; [apply (g_deliver _ _ _ _ _ D)|apply g_mark].
Qed.
Lemma g_recv s t ch s' : do_recv s t ch = Some s' -> grows s s'.
Proof.
  unfold do_recv. destruct (chans s !! ch) as [c|] eqn:E; [|done]. destruct (queue c) as [|v q]; [destruct (senders c) as [|[sid sv] r]; [destruct (closed c)|]|]; intros [= <-].
  - apply g_mark.
  - gs. apply g_upd. intros []; reflexivity.
  - gs. eapply g_trans; apply g_mark.
  - gs. eapply g_trans; [apply g_mark|apply g_refill].
Qed.
Lemma g_try_recv s t ch s' : do_try_recv s t ch = Some s' -> grows s s'.
Proof.
  unfold do_try_recv. destruct (chans s !! ch) as [c|] eqn:E; [|done]. destruct (queue c) as [|v q]; [destruct (senders c) as [|[sid sv] r]|]; intros [= <-].
  - apply g_mark.
  - gs. eapply g_trans; apply g_mark.
  - gs. eapply g_trans; [apply g_mark|apply g_refill].
Qed.
Lemma g_take s ch : grows s (fst (take_one s ch)).
Proof.
  unfold take_one. destruct (chans s !! ch) as [c|] eqn:E; [|apply g_refl]. destruct (queue c) as [|v q]; [destruct (senders c) as [|[sid sv] r]|]; [apply g_refl| |].
  - gs. apply g_mark.
  - gs. apply g_refill.
Qed.
Lemma g_register t arms : forall s i, grows s (register s t arms i).
Proof.
  induction arms as [|[ch|d] arms IH]; intros s i; cbn [register]; [apply g_refl| |]; (eapply g_trans; [|apply IH]); [|now apply g_plain]. destruct (chans s !! ch) as [c|] eqn:E; [now apply (g_set_chan s ch c)|apply g_refl].
Qed.
Lemma g_select s c t arms s' c' : do_select s c t arms = Some (s', c') -> grows s s'.
Proof.
  unfold do_select. destruct (ready_arms s arms 0) as [l|]; [|done]. destruct l as [|i1 l].
  - intros [= <- _]. eapply g_trans; [apply (g_register t arms s 0)|]. apply g_upd. intros []; reflexivity.
  - destruct (match l with [] => _ | _ => _ end) as [[w c1]|]; [|done]. cbn [mbind option_bind]. destruct ((i1 :: l) !! w) as [i|]; [|done]. cbn [mbind option_bind]. destruct (arms !! i) as [[ch|d]|]; [|done..]. pose proof (g_take s ch) as G. destruct (take_one s ch) as [s1 v]. intros [= <- _]. cbn in G. eapply g_trans; [exact G|]. eapply g_trans; [apply (g_upd s1 t (fun sl => with_tst (with_sel_arm (with_resume sl v) (Some i)) Ready)); intros []; reflexivity|now apply g_plain].
Qed.
Lemma g_fire s t a : grows s (fire_timer s t a).
Proof.
  unfold fire_timer. destruct (tasks s !! t) as [sl|]; [|apply g_refl]. destruct (tst sl); try apply g_refl; (destruct a as [i|]; [|apply g_mark]); (destruct (sel_arms sl); [eapply g_trans; [apply g_complete|apply g_cancel]|apply g_complete]).
Qed.
Lemma g_advance s c s' c' : advance_timers s c = Some (s', c') -> grows s s'.
Proof.
  unfold advance_timers. destruct (earliest (timers s)) as [e|]; [|intros [= <- _]; apply g_refl]. destruct (if 1 <? _ then _ else _) as [[o c1]|]; [|done]. cbn [mbind option_bind]. intros [= <- _]. eapply g_trans; [|apply g_fold; intros; apply g_fire]. now apply g_plain.
Qed.
Lemma results_fold s t v l : results (fold_left (fun s w => mark_ready s w v) l s) !! t = results s !! t.
Proof. revert s. induction l as [|a l IH]; intros s; [done|]. cbn. now rewrite IH. Qed.
Lemma g_complete_task s t r : grows s (complete_task s t r) /\ is_Some (results (complete_task s t r) !! t).
Proof.
  unfold complete_task. split.
  - eapply g_trans; [|apply g_fold; intros; apply g_mark]. split_and!; [eauto|eauto| |done]. intros x. cbn. intros H. destruct (decide (x = t)) as [->|N]; [rewrite lookup_insert; now eexists|rewrite lookup_insert_ne by congruence; exact H].
  - rewrite results_fold. cbn. rewrite lookup_insert. now eexists.
Qed.
Lemma g_await s t x : grows s (do_await s t x).
Proof.
  unfold do_await. destruct (results s !! x); [apply g_mark|]. destruct (tasks s !! x); [|apply g_mark]. eapply g_trans; [|apply g_upd; intros []; reflexivity]. now apply g_plain.
Qed.
Lemma g_abort s x : grows s (do_abort s x).
Proof.
  unfold do_abort. destruct (results s !! x); [apply g_refl|]. destruct (tasks s !! x) as [sl|]; [|apply g_refl]. assert (M : grows s (let keep := fun t => negb (t =? x) in
    let s := set_ready s (List.filter keep (ready s)) in
    let s := set_chans s ((fun c => with_senders (with_receivers c (List.filter keep (receivers c))) (List.filter (fun x => keep (fst x)) (senders c))) <$> chans s) in
    let s := set_timers s (List.filter (fun x => keep (ttid x)) (timers s)) in
    let s := set_awaiters s (List.filter keep <$> awaiters s) in complete_task (set_tst s x Finished) x Aborted)); [|destruct (tst sl); try exact M; apply g_refl].
  cbv zeta. eapply g_trans; [|apply g_complete_task]. eapply g_trans; [|apply g_upd; intros []; reflexivity]. eapply (g_trans _ (set_chans s ((fun c => with_senders (with_receivers c (List.filter (fun t => negb (t =? x)) (receivers c))) (List.filter (fun y => negb (fst y =? x)) (senders c))) <$> chans s))); [|now apply g_plain]. apply g_chans. intros ch c E. rewrite lookup_fmap, E. cbn. eexists. now split.
Qed.
Lemma g_close s ch s' : do_close s ch = Some s' -> grows s s'.
Proof.
  unfold do_close. destruct (chans s !! ch) as [c|] eqn:E; [|done]. intros [= <-]. eapply g_trans; [|apply g_fold].
  - apply (g_set_chan s ch c); [exact E|reflexivity].
  - intros s1 x. unfold wake_closed. destruct (tasks s1 !! x) as [sl|]; [|apply g_refl]. destruct (sel_arms sl); [eapply g_trans; [apply g_complete|apply g_cancel]|apply g_mark].
Qed.
Lemma g_spawn p s b m : tasks s !! next_id s = None -> grows s (spawn p s b m).
Proof.
  intros H. split_and!; [eauto| |eauto|cbn; lia]. intros t sl E. exists sl. cbn. rewrite lookup_insert_ne by congruence. now split.
Qed.
Lemma g_add_chan s cap : chans s !! next_id s = None -> grows s (add_chan s cap).
Proof.
  intros H. split_and!; [|eauto|eauto|cbn; lia]. intros ch c E. exists c. cbn. rewrite lookup_insert_ne by congruence. now split.
Qed.
Lemma g_process p cfg s c t st s' c' : ids_ok (tasks s) (chans s) (next_id s) -> process_step p cfg s c t st = Some (s', c') -> grows s s'.
Proof.
  intros Hi. destruct (Hi (next_id s)) as [[I1 I2] _]; [lia|]. destruct st; cbn [process_step]; try done.
  - intros [= <- _]. apply g_mark.
  - destruct (do_recv s t ch) as [s1|] eqn:E; [|done]. intros [= <- _]. now apply (g_recv _ _ _ _ E).
  - destruct (do_send s t ch v) as [s1|] eqn:E; [|done]. intros [= <- _]. now apply (g_send _ _ _ _ _ E).
  - destruct (do_try_send s t ch v) as [s1|] eqn:E; [|done]. intros [= <- _]. now apply (g_try_send _ _ _ _ _ E).
  - destruct (do_try_recv s t ch) as [s1|] eqn:E; [|done]. intros [= <- _]. now apply (g_try_recv _ _ _ _ E).
  - apply g_select.
  - intros [= <- _]. eapply g_trans; [|apply g_upd; intros []; reflexivity]. now apply g_plain.
  - intros [= <- _]. eapply g_trans; [|apply g_mark]. eapply g_trans; [now apply g_add_chan|]. apply g_upd. intros []; reflexivity.
  - intros [= <- _]. eapply g_trans; [|apply g_mark]. eapply g_trans; [now apply g_spawn|]. apply g_upd. intros []; reflexivity.
  - intros [= <- _]. apply g_await.
  - intros [= <- _]. eapply g_trans; [apply g_abort|apply g_mark].
  - destruct (do_close s ch) as [s1|] eqn:E; [|done]. intros [= <- _]. eapply g_trans; [apply (g_close _ _ _ E)|apply g_mark].
  - intros [= <- _]. apply g_upd. intros []; reflexivity.
  - intros [= <- _]. eapply g_trans; [|apply g_complete_task]. eapply g_trans; [|apply g_upd; intros []; reflexivity]. destruct (tasks s !! t) as [sl|]; [|apply g_refl]. destruct (is_main sl); [now apply g_plain|apply g_refl].
Qed.

(** ** What the polls tell about the state *)
Definition made (cfg : config) s (e : event B) : Prop :=
  eids e <= next_id s /\ is_Some (tasks s !! etid e) /\
  match estep e with
  | NewChan cap => exists c, chans s !! eids e = Some c /\ capacity c = Some (default (default_capacity cfg) cap)
  | Spawn _ => exists sl, tasks s !! eids e = Some sl /\ is_main sl = false
  | Exit _ => is_Some (results s !! etid e)
  | Abort x => x < eids e -> is_Some (tasks s !! x) -> is_Some (results s !! x)
  | _ => True
  end.
Lemma made_grows cfg s s' e : grows s s' -> ids_ok (tasks s) (chans s) (next_id s) -> ids_ok (tasks s') (chans s') (next_id s') -> made cfg s e -> made cfg s' e.
Proof.
  intros (G1 & G2 & G3 & G4) I I' (M1 & M2 & M3). split; [lia|]. split. { destruct M2 as [sl E]. destruct (G2 _ _ E) as (sl' & -> & _). now eexists. }
  destruct (estep e); try done.
  - destruct M3 as (c & E & Q). destruct (G1 _ _ E) as (c' & E' & Q'). exists c'. split; [done|congruence].
  - destruct M3 as (c & E & Q). destruct (G2 _ _ E) as (c' & E' & Q'). exists c'. split; [done|congruence].
  - intros L H. apply G3, M3; [done|]. destruct (I t) as [_ K]. destruct K as [[K _]|[_ [c K]]]; [lia|done|]. exfalso. destruct (G1 _ _ K) as (c' & E & _). destruct (I' t) as [K1 K2]. destruct (decide (t < next_id s')) as [Q|Q]; [destruct (K2 Q) as [[_ Z]|[Z _]]; [congruence|]; rewrite Z in H; now destruct H|]. destruct K1 as [Z _]; [lia|]. rewrite Z in H. now destruct H.
  - now apply G3.
Qed.
(** The last poll of a finished or aborted task is behind it. *)
Definition ends (e : event B) (t : nat) : Prop := match estep e with Exit _ => etid e = t | Abort x => x = t /\ x < eids e | _ => False end.
Definition rests tr : Prop := forall a e b e', tr = a ++ e :: b -> e' ∈ b -> ends e (etid e') -> False.

Lemma good_ids s tr : good s tr -> ids_ok (tasks s) (chans s) (next_id s).
Proof. intros (L & A & W & I & _). apply (i_ids _ _ _ _ _ _ _ _ I). Qed.
Lemma poll_grows p cfg s c tr s' c' o oe : good s tr -> poll_once p cfg (s, c) = Some (s', c', o, oe) -> fair (option_list oe) ->
  grows s s' /\ match oe with None => True | Some e => made cfg s' e /\ etid e ∈ ready s /\ eids e = next_id s /\ exists sl, tasks s !! etid e = Some sl /\ ectx e = ctx_of sl /\ estep e = snd (poll p (body sl) (ctx_of sl)) end.
Proof.
  intros G H Hf. pose proof (poll_ok _ _ _ _ _ _ _ _ _ G H Hf) as G'. pose proof (good_ids _ _ G) as I. pose proof (good_ids _ _ G') as I'. unfold poll_once in H. destruct (pick_ready cfg s c) as [[o1 c1]|] eqn:Ep; [|done]. cbn [mbind option_bind] in H. pose proof (pick_spec _ _ _ _ _ Ep) as Hpk. destruct o1 as [[t s1]|].
  - destruct Hpk as (idx & Er & ->). cbn [tasks set_ready] in H. destruct (tasks s !! t) as [sl|] eqn:Et; [|done]. cbn [mbind option_bind] in H. destruct (poll p (body sl) (ctx_of sl)) as [b st] eqn:Epoll. set (s1 := upd_task _ t _) in H.
    assert (G1 : grows s s1). { eapply g_trans; [|apply g_upd; reflexivity]. now apply g_plain. }
    assert (I1 : ids_ok (tasks s1) (chans s1) (next_id s1)) by (apply ids_alter; exact I).
    destruct (process_step p cfg s1 c1 t st) as [[s2 c2]|] eqn:Eps; [|done]. cbn [mbind option_bind] in H. injection H as <- <- <- <-. pose proof (g_process _ _ _ _ _ _ _ _ I1 Eps) as G2. split; [now apply (g_trans _ s1)|].
    split; [|split; [now apply elem_of_list_lookup_2 in Er|split; [done|exists sl; split; [done|]; split; [done|]; now rewrite Epoll]]].
    pose proof G2 as (Q1 & Q2 & Q3 & Q4). split; [exact Q4|]. split. { cbn. destruct (Q2 t) with (sl := Slot b (prio sl) Nothing None (sel_arms sl) None None (tst sl) (is_main sl)) as (sl' & -> & _); [|now eexists]. cbn. rewrite lookup_alter, Et. done. }
    destruct (I (next_id s)) as [Inew _]. destruct Inew as [I5 I6]; [lia|].
    cbn [estep etid eids]. destruct st; try done; cbn [process_step] in Eps.
    + injection Eps as <- _. cbn. rewrite lookup_insert. now eexists.
    + injection Eps as <- _. cbn. assert (N : t <> next_id s) by congruence. rewrite !lookup_alter_ne by congruence. rewrite lookup_insert. now eexists.
    + injection Eps as <- _. intros L Hx. cbn. destruct (results (do_abort s1 t0) !! t0) as [r|] eqn:Ea; [now eexists|]. exfalso. unfold do_abort in Ea. destruct (results s1 !! t0) as [r|] eqn:Er1; [congruence|].
      destruct (tasks s1 !! t0) as [sl0|] eqn:Et0.
      * assert (Hfin : tst sl0 <> Finished). { intros Hfin. destruct G as (L0 & A0 & W & I0 & Hs & _). pose proof (i_tasks _ _ _ _ _ _ _ _ I0 t0) as T. pose proof (i_results _ _ _ _ _ _ _ _ I0) as [R _]. cbn in Et0. destruct (decide (t0 = t)) as [->|N0].
          { pose proof (Hf (Event t (ctx_of sl) (Abort t) (next_id s1)) ltac:(now apply elem_of_list_singleton)) as Q. now apply Q. }
          rewrite lookup_alter_ne in Et0 by congruence. rewrite Et0 in T. destruct T as [T _]. specialize (Hs t0). destruct (W t0) eqn:Ew; cbn in T, Hs; try done; try (destruct T; congruence). cbn in Er1. specialize (R t0). rewrite Ew, Er1 in R. destruct R as [_ R]. destruct (R eq_refl); done. }
        destruct (tst sl0); try done; cbv zeta in Ea; match type of Ea with results (complete_task ?a ?b ?r) !! _ = _ => destruct (proj2 (g_complete_task a b r)); congruence end.
      * clear Ea. destruct Hx as [slx Hx]. destruct (I t0) as [_ K]. destruct K as [[[y K] _]|[_ [cx K]]]; [exact L| |].
        -- cbn in Et0. apply (@is_Some_None (slot B)). rewrite <- Et0. apply lookup_alter_is_Some. exists y. exact K.
        -- destruct (Q1 t0 cx K) as (cx' & Ex & _). destruct (I' t0) as [K1 K2]. destruct (decide (t0 < next_id (mark_ready (do_abort s1 t0) t Nothing))) as [Z|Z]; [destruct (K2 Z) as [[_ Y]|[Y _]]; congruence|]. destruct K1 as [Y _]; [lia|]. congruence.
    + injection Eps as <- _. cbn. apply g_complete_task.
  - destruct Hpk as [_ ->]. destruct (timers s) as [|tm l] eqn:Etm.
    + injection H as <- <- <- <-. split; [apply g_refl|done].
    + destruct (advance_timers s c) as [[s2 c2]|] eqn:Ea; [|done]. cbn [mbind option_bind] in H. injection H as <- <- <- <-. split; [now apply (g_advance _ _ _ _ Ea)|done].
Qed.
Lemma g_wake s : grows s (wake_io s).
Proof. apply g_fold. intros s1 t. eapply g_trans; [apply (g_upd s1 t (fun sl => with_tst sl Ready)); intros []; reflexivity|now apply g_plain]. Qed.
Lemma call_grows p cfg s c tr a s' c' es : good s tr -> do_call p cfg (s, c) a = Some (s', c', es) -> fair es -> grows s s' /\ (es = [] \/ exists e, es = [e] /\ made cfg s' e /\ etid e ∈ ready s /\ eids e = next_id s).
Proof.
  intros G H Hf. pose proof (good_ids _ _ G (next_id s)) as [D _]. destruct D as [D1 D2]; [lia|]. destruct a as [b m|cap| |]; cbn [do_call fst snd] in H.
  - injection H as <- _ <-. split; [now apply g_spawn|now left].
  - injection H as <- _ <-. split; [now apply g_add_chan|now left].
  - destruct (poll_once p cfg (s, c)) as [[[[s1 c1] o1] e1]|] eqn:E; [|done]. cbn [mbind option_bind] in H. injection H as <- _ <-. destruct (poll_grows _ _ _ _ _ _ _ _ _ G E Hf) as [H1 H2]. split; [done|]. destruct e1 as [e|]; [right|now left]. exists e. now destruct H2 as (? & ? & ? & _).
  - injection H as <- _ <-. split; [apply g_wake|now left].
Qed.
Lemma exec_made p cfg cs : forall s c tr s' c' es, good s tr -> (forall e, e ∈ tr -> made cfg s e) -> rests tr -> exec p cfg (s, c) cs = Some (s', c', es) -> fair es -> grows s s' /\ (forall e, e ∈ tr ++ es -> made cfg s' e) /\ rests (tr ++ es).
Proof.
  induction cs as [|a cs IH]; intros s c tr s' c' es G M R H Hf; cbn [exec] in H.
  - injection H as <- <- <-. rewrite app_nil_r. split; [apply g_refl|done].
  - destruct (do_call p cfg (s, c) a) as [[[s1 c1] e1]|] eqn:E1; [|done]. cbn [mbind option_bind] in H. destruct (exec p cfg (s1, c1) cs) as [[[s2 c2] e2]|] eqn:E2; [|done]. cbn [mbind option_bind] in H. injection H as <- <- <-. rewrite app_assoc.
    assert (F1 : fair e1) by (intros e He; apply Hf, elem_of_app; now left). pose proof (call_ok _ _ _ _ _ _ _ _ _ G E1 F1) as G1. destruct (call_grows _ _ _ _ _ _ _ _ _ G E1 F1) as [Gr Ne].
    assert (M1 : forall e, e ∈ tr ++ e1 -> made cfg s1 e).
    { intros e He. apply elem_of_app in He as [He|He]; [apply (made_grows cfg s); [done|now apply (good_ids s tr)|now apply (good_ids s1 (tr ++ e1))|now apply M]|]. destruct Ne as [->|(e0 & -> & Q & _)]; [now apply elem_of_nil in He|]. apply elem_of_list_singleton in He. now subst. }
    assert (R1 : rests (tr ++ e1)).
    { destruct Ne as [->|(e0 & -> & Q & Qr & Qn)]; [now rewrite app_nil_r|]. intros x e y e' Et He' Hend. destruct y as [|y0 y] using rev_ind; [now apply elem_of_nil in He'|]. clear IHy. rewrite app_comm_cons, app_assoc in Et. apply app_inj_tail in Et as [Et <-]. apply elem_of_app in He' as [He'|He']; [now apply (R x e y e' Et)|]. apply elem_of_list_singleton in He'. subst e'.
      assert (He : e ∈ tr) by (rewrite Et; apply elem_of_app; right; apply elem_of_cons; now left). pose proof (M e He) as (_ & Mt & Me).
      destruct G as (L & A & W & I & Hs & _). pose proof (i_results _ _ _ _ _ _ _ _ I) as [Rs _]. pose proof (i_ready _ _ _ _ _ _ _ _ I) as [_ Rd]. apply Rd in Qr. specialize (Rs (etid e0)).
      assert (Hn : ~ is_Some (results s !! etid e0)). { rewrite Rs. destruct (W (etid e0)); done. } apply Hn. unfold ends in Hend. destruct (estep e); try done.
      - destruct Hend as [-> L0]. apply Me; [done|]. pose proof (i_tasks _ _ _ _ _ _ _ _ I (etid e0)) as T. destruct (tasks s !! etid e0); [now eexists|]. destruct T as [T _]. rewrite T in Qr. done.
      - now rewrite <- Hend. }
    destruct (IH s1 c1 (tr ++ e1) s2 c2 e2 G1 M1 R1 E2) as (Z1 & Z2); [intros e He; apply Hf, elem_of_app; now right|]. split; [now apply (g_trans _ s1)|exact Z2].
Qed.
End Grow.
