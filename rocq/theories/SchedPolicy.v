(** Which task runs next, and that under Fifo none is passed over for ever. *)
From Coq Require Import NArith List Lia.
From stdpp Require Import list gmap.
From Verif Require Import SchedModel.
Open Scope nat_scope.
Section Policy.
Context {B : Type}.
Implicit Types (s : core B) (es : list (event B)).
(** ** The ready list only grows at its end, but for the target of an abort *)
Definition adds s s' : Prop := exists new, ready s' = ready s ++ new.
Lemma adds_refl s : adds s s. Proof. exists []. now rewrite app_nil_r. Qed.
Lemma adds_eq s s' : ready s' = ready s -> adds s s'. Proof. intros E. exists []. now rewrite E, app_nil_r. Qed.
Lemma adds_trans s s1 s2 : adds s s1 -> adds s1 s2 -> adds s s2.
Proof. intros [a Ea] [b Eb]. exists (a ++ b). now rewrite Eb, Ea, app_assoc. Qed.
Lemma adds_fold {X} (f : core B -> X -> core B) l : (forall s x, adds s (f s x)) -> forall s, adds s (fold_left f l s).
Proof. intros H. induction l as [|x l IH]; intros s; cbn; [apply adds_refl|]. eapply adds_trans; [apply H|apply IH]. Qed.
Lemma adds_mark s t v : adds s (mark_ready s t v). Proof. now exists [t]. Qed.
Lemma adds_select s t v i : adds s (complete_select s t v i). Proof. now exists [t]. Qed.
Lemma adds_deliver s rid ch v s' : deliver s rid ch v = Some s' -> adds s s'.
Proof. unfold deliver. destruct (tasks s !! rid); [|done]. destruct (sel_arms _); [destruct (arm_position _ _); [|done]|]; intros [= <-]; [|apply adds_mark]. eapply adds_trans; [apply adds_select|]. now apply adds_eq. Qed.
Lemma adds_refill s ch : adds s (refill s ch).
Proof. unfold refill. destruct (chans s !! ch); [|apply adds_refl]. destruct (has_room _); [|apply adds_refl]. destruct (senders _) as [|[? ?] ?]; [apply adds_refl|]. eapply adds_trans; [|apply adds_mark]. now apply adds_eq. Qed.
Lemma adds_register s t arms i : ready (register s t arms i) = ready s.
Proof. revert s i. induction arms as [|[ch|d] arms IH]; intros s i; cbn; [done| |]; rewrite IH; [|done]. now destruct (chans s !! ch). Qed.
Lemma adds_complete s t r : adds s (complete_task s t r).
Proof. unfold complete_task. eapply adds_trans; [|apply adds_fold; intros; apply adds_mark]. now apply adds_eq. Qed.
Lemma adds_close s ch s' : do_close s ch = Some s' -> adds s s'.
Proof.
  unfold do_close. destruct (chans s !! ch); [|done]. intros [= <-]. eapply adds_trans; [|apply adds_fold]; [now apply adds_eq|]. intros s1 x. unfold wake_closed. destruct (tasks s1 !! x); [|apply adds_refl]. destruct (sel_arms _); [|apply adds_mark]. eapply adds_trans; [apply adds_select|]. now apply adds_eq.
Qed.
Lemma adds_fire s t a : adds s (fire_timer s t a).
Proof.
  unfold fire_timer. destruct (tasks s !! t) as [sl|]; [|apply adds_refl]. destruct (tst sl); try apply adds_refl; (destruct a as [i|]; [|apply adds_mark]; destruct (sel_arms sl); [eapply adds_trans; [apply adds_select|]; now apply adds_eq|apply adds_select]).
Qed.
Lemma adds_take s ch : adds s (fst (take_one s ch)).
Proof.
  unfold take_one. destruct (chans s !! ch) as [c|]; [|apply adds_refl]. destruct (queue c) as [|v q]; [destruct (senders c) as [|[? ?] ?]; cbn [fst]; [apply adds_refl|]|cbn [fst]]; (eapply adds_trans; [|apply adds_mark || apply adds_refill]; now apply adds_eq).
Qed.
(** What an abort takes out. *)
Definition kept s s' (st : step B) : Prop := exists keep new, ready s' = List.filter keep (ready s) ++ new /\ forall x, keep x = false -> st = Abort x.
Lemma filter_all {X} (l : list X) : List.filter (fun _ => true) l = l. Proof. induction l; cbn; congruence. Qed.
Lemma adds_kept s s' st : adds s s' -> kept s s' st.
Proof. intros [new E]. exists (fun _ => true), new. rewrite filter_all. done. Qed.
Lemma step_kept p cfg s c t st s' c' : process_step p cfg s c t st = Some (s', c') -> kept s s' st.
Proof.
  intros H. destruct st; cbn [process_step] in H.
  - injection H as <- _. apply adds_kept, adds_mark.
  - destruct (do_recv s t ch) as [s1|] eqn:E; [|done]. cbn in H. injection H as <- _. apply adds_kept. unfold do_recv in E. destruct (chans s !! ch) as [cc|]; [|done]. destruct (queue cc); [destruct (senders cc) as [|[? ?] ?]; [destruct (closed cc)|]|]; injection E as <-.
    + apply adds_mark.
    + now apply adds_eq.
    + eapply adds_trans; [|apply adds_mark]. eapply adds_trans; [|apply adds_mark]. now apply adds_eq.
    + eapply adds_trans; [|apply adds_refill]. eapply adds_trans; [|apply adds_mark]. now apply adds_eq.
  - destruct (do_send s t ch v) as [s1|] eqn:E; [|done]. cbn in H. injection H as <- _. apply adds_kept. unfold do_send in E. destruct (chans s !! ch) as [cc|]; [|done]. destruct (receivers cc) as [|rid r].
    + destruct (has_room cc); injection E as <-; [eapply adds_trans; [|apply adds_mark]|]; now apply adds_eq.
    + destruct (deliver _ rid ch v) as [s2|] eqn:E2; [|done]. cbn in E. injection E as <-. eapply adds_trans; [|apply adds_mark]. apply adds_deliver in E2. eapply adds_trans; [|exact E2]. now apply adds_eq.
  - destruct (do_try_send s t ch v) as [s1|] eqn:E; [|done]. cbn in H. injection H as <- _. apply adds_kept. unfold do_try_send in E. destruct (chans s !! ch) as [cc|]; [|done]. destruct (receivers cc) as [|rid r].
    + destruct (has_room cc); injection E as <-; [|apply adds_mark]. eapply adds_trans; [|apply adds_mark]; now apply adds_eq.
    + destruct (deliver _ rid ch v) as [s2|] eqn:E2; [|done]. cbn in E. injection E as <-. eapply adds_trans; [|apply adds_mark]. apply adds_deliver in E2. eapply adds_trans; [|exact E2]. now apply adds_eq.
  - destruct (do_try_recv s t ch) as [s1|] eqn:E; [|done]. cbn in H. injection H as <- _. apply adds_kept. unfold do_try_recv in E. destruct (chans s !! ch) as [cc|]; [|done]. destruct (queue cc); [destruct (senders cc) as [|[? ?] ?]|]; injection E as <-.
    + apply adds_mark.
    + eapply adds_trans; [|apply adds_mark]. eapply adds_trans; [|apply adds_mark]. now apply adds_eq.
    + eapply adds_trans; [|apply adds_refill]. eapply adds_trans; [|apply adds_mark]. now apply adds_eq.
  - apply adds_kept. unfold do_select in H. destruct (ready_arms s arms 0) as [l|]; [|done]. destruct l as [|i1 l].
    + injection H as <- _. apply adds_eq. cbn. apply adds_register.
    + destruct (match l with [] => _ | _ => _ end) as [[w c3]|]; [|done]. cbn [mbind option_bind] in H. destruct ((i1 :: l) !! w) as [i'|]; [|done]. cbn [mbind option_bind] in H. destruct (arms !! i') as [[ch|d']|]; [|done..]. pose proof (adds_take s ch) as T. destruct (take_one s ch) as [s3 v]. injection H as <- _. eapply adds_trans; [exact T|]. now exists [t].
  - injection H as <- _. apply adds_kept. now apply adds_eq.
  - injection H as <- _. apply adds_kept. eapply adds_trans; [|apply adds_mark]. now apply adds_eq.
  - injection H as <- _. apply adds_kept. eapply adds_trans; [|apply adds_mark]. now exists [next_id s].
  - done.
  - injection H as <- _. apply adds_kept. unfold do_await. destruct (results s !! t0); [apply adds_mark|]. destruct (tasks s !! t0); [now apply adds_eq|apply adds_mark].
  - injection H as <- _. unfold do_abort. destruct (results s !! t0); [apply adds_kept, adds_mark|]. destruct (tasks s !! t0) as [sl|]; [|apply adds_kept, adds_mark]. assert (Hk : kept s (mark_ready (let keep := fun x => negb (x =? t0) in let s1 := set_ready s (List.filter keep (ready s)) in let s1 := set_chans s1 ((fun c => with_senders (with_receivers c (List.filter keep (receivers c))) (List.filter (fun x => keep (fst x)) (senders c))) <$> chans s1) in let s1 := set_timers s1 (List.filter (fun x => keep (ttid x)) (timers s1)) in let s1 := set_awaiters s1 (List.filter keep <$> awaiters s1) in complete_task (set_tst s1 t0 Finished) t0 Aborted) t Nothing) (Abort t0)).
    { cbv zeta. match goal with |- kept _ (mark_ready (complete_task ?x _ _) _ _) _ => pose proof (adds_complete x t0 Aborted) as [new E] end. exists (fun x => negb (x =? t0)), (new ++ [t]). split; [|intros x Hx; apply negb_false_iff, Nat.eqb_eq in Hx; congruence]. unfold mark_ready. cbn [ready set_ready upd_task set_tasks]. rewrite E. cbn. now rewrite app_assoc. }
    destruct (tst sl); first [exact Hk|apply adds_kept, adds_mark].
  - destruct (do_close s ch) as [s1|] eqn:E; [|done]. cbn in H. injection H as <- _. apply adds_kept. eapply adds_trans; [exact (adds_close _ _ _ E)|apply adds_mark].
  - injection H as <- _. apply adds_kept. now apply adds_eq.
  - injection H as <- _. apply adds_kept. eapply adds_trans; [|apply adds_complete]. apply adds_eq. cbn. destruct (tasks s !! t) as [sl|]; [destruct (is_main sl)|]; done.
Qed.
Lemma filter_pos {X} (keep : X -> bool) l i x : l !! i = Some x -> keep x = true -> exists j, j <= i /\ List.filter keep l !! j = Some x.
Proof.
  revert i. induction l as [|y l IH]; intros i H K; [done|]. destruct i as [|i]; cbn in H.
  - injection H as ->. exists 0. cbn. rewrite K. split; [lia|done].
  - destruct (IH _ H K) as (j & Hj & E). cbn. destruct (keep y); [exists (S j); split; [lia|done]|exists j; split; [lia|done]].
Qed.
(** ** Who is next *)
Lemma poll_event p cfg s c s' c' o e : poll_once p cfg (s, c) = Some (s', c', o, Some e) -> exists c1 s1, pick_ready cfg s c = Some (Some (etid e, s1), c1) /\ kept s1 s' (estep e).
Proof.
  unfold poll_once. intros H. destruct (pick_ready cfg s c) as [[[[t s1]|] c1]|] eqn:Ep; [|cbn in H; destruct (timers s); [done|]; destruct (advance_timers s c1) as [[? ?]|]; done|done]. cbn [mbind option_bind] in H.
  destruct (tasks s1 !! t) as [sl|]; [|done]. cbn [mbind option_bind] in H. destruct (poll p (body sl) (ctx_of sl)) as [b st]. destruct (process_step p cfg _ c1 t st) as [[s2 c2]|] eqn:Eps; [|done]. cbn [mbind option_bind] in H. injection H as <- _ _ <-. exists c1, s1. split; [done|]. apply step_kept in Eps. exact Eps.
Qed.
(** Fifo and RoundRobin run the task that has been ready longest, Lifo the one made ready last. *)
Theorem C57_order p cfg s c s' c' o e : poll_once p cfg (s, c) = Some (s', c', o, Some e) ->
  match cpolicy cfg with
  | Fifo | RoundRobin => exists l, ready s = etid e :: l
  | Lifo => exists l, ready s = l ++ [etid e]
  | _ => etid e ∈ ready s
  end.
Proof.
  intros H. destruct (poll_event _ _ _ _ _ _ _ _ H) as (c1 & s1 & Ep & _). unfold pick_ready in Ep. destruct (ready s) as [|t0 l] eqn:Er; [done|]. destruct (cpolicy cfg).
  - cbn in Ep. injection Ep as <- _ _. now exists l.
  - cbn [mbind option_bind] in Ep. destruct ((t0 :: l) !! (length (t0 :: l) - 1)) as [x|] eqn:El; [|done]. cbn [mbind option_bind] in Ep. injection Ep as <- _ _. exists (take (length (t0 :: l) - 1) (t0 :: l)). rewrite <- (take_drop_middle _ _ _ El) at 1. f_equal. rewrite drop_ge; [done|]. cbn. lia.
  - cbn in Ep. injection Ep as <- _ _. now exists l.
  - destruct (choose_among c TaskPick (length (t0 :: l))) as [[i c2]|]; [|done]. cbn [mbind option_bind] in Ep. destruct ((t0 :: l) !! i) as [x|] eqn:El; [|done]. cbn [mbind option_bind] in Ep. injection Ep as <- _ _. now apply elem_of_list_lookup_2 in El.
  - cbn [mbind option_bind] in Ep. destruct ((t0 :: l) !! best_index s l 1 0 _) as [x|] eqn:El; [|done]. cbn [mbind option_bind] in Ep. injection Ep as <- _ _. now apply elem_of_list_lookup_2 in El.
Qed.
(** A task's priority, as given when it was spawned. *)
Definition prio_of s t : N := match tasks s !! t with Some sl => prio sl | None => 0%N end.
Lemma best_spec s l : forall i best q, best < i -> let b := best_index s l i best q in
  (b = best /\ forall j x, l !! j = Some x -> (prio_of s x <= q)%N) \/
  (exists j x, b = i + j /\ l !! j = Some x /\ (q < prio_of s x)%N /\ (forall k y, l !! k = Some y -> (prio_of s y <= prio_of s x)%N) /\ forall k y, k < j -> l !! k = Some y -> (prio_of s y < prio_of s x)%N).
Proof.
  induction l as [|t l IH]; intros i best q Hb; cbn; [left; split; [done|]; intros j x H; done|]. fold (prio_of s t). destruct (N.ltb_spec q (prio_of s t)) as [L|L].
  - right. destruct (IH (S i) i (prio_of s t) ltac:(lia)) as [[-> H]|(j & x & -> & Ex & Lx & H1 & H2)].
    + exists 0, t. split; [lia|]. split; [done|]. split; [done|]. split; [|lia]. intros [|k] y Hy; cbn in Hy; [injection Hy as ->; lia|now apply (H k)].
    + exists (S j), x. split; [lia|]. split; [done|]. split; [lia|]. split.
      * intros [|k] y Hy; cbn in Hy; [injection Hy as ->; lia|now apply (H1 k)].
      * intros [|k] y Hk Hy; cbn in Hy; [injection Hy as ->; lia|apply (H2 k); [lia|done]].
  - destruct (IH (S i) best q ltac:(lia)) as [[-> H]|(j & x & -> & Ex & Lx & H1 & H2)].
    + left. split; [done|]. intros [|k] y Hy; cbn in Hy; [injection Hy as ->; lia|now apply (H k)].
    + right. exists (S j), x. split; [lia|]. split; [done|]. split; [lia|]. split.
      * intros [|k] y Hy; cbn in Hy; [injection Hy as ->; lia|now apply (H1 k)].
      * intros [|k] y Hk Hy; cbn in Hy; [injection Hy as ->; lia|apply (H2 k); [lia|done]].
Qed.
(** Priority runs a task of the highest priority among the ready ones, the one longest ready if several. *)
Theorem C57_priority p cfg s c s' c' o e : cpolicy cfg = Priority -> poll_once p cfg (s, c) = Some (s', c', o, Some e) ->
  exists a b, ready s = a ++ etid e :: b /\ (forall t, t ∈ a -> (prio_of s t < prio_of s (etid e))%N) /\ (forall t, t ∈ b -> (prio_of s t <= prio_of s (etid e))%N).
Proof.
  intros Hp H. destruct (poll_event _ _ _ _ _ _ _ _ H) as (c1 & s1 & Ep & _). unfold pick_ready in Ep. rewrite Hp in Ep. destruct (ready s) as [|t0 l] eqn:Er; [done|]. fold (prio_of s t0) in Ep. cbn [mbind option_bind] in Ep. pose proof (best_spec s l 1 0 (prio_of s t0) ltac:(lia)) as Q. cbv zeta in Q. destruct ((t0 :: l) !! best_index s l 1 0 _) as [x|] eqn:El; [|done]. cbn [mbind option_bind] in Ep. injection Ep as <- _ _.
  destruct Q as [[Q K]|(j & y & Q & Ey & Lt & K1 & K2)]; rewrite Q in El.
  - cbn in El. injection El as <-. exists [], l. split; [done|]. split; [intros t Ht; now apply elem_of_nil in Ht|]. intros t Ht. apply elem_of_list_lookup in Ht as [k Hk]. now apply (K k).
  - change ((t0 :: l) !! (1 + j)) with (l !! j) in El. rewrite Ey in El. injection El as <-. exists (t0 :: take j l), (drop (S j) l). split; [now rewrite <- app_comm_cons, (take_drop_middle _ _ _ Ey)|]. split.
    + intros t Ht. apply elem_of_cons in Ht as [-> |Ht]; [done|]. apply elem_of_list_lookup in Ht as [k Hk]. apply lookup_take_Some in Hk as [Hk Hl]. now apply (K2 k).
    + intros t Ht. apply elem_of_list_lookup in Ht as [k Hk]. rewrite lookup_drop in Hk. now apply (K1 (S j + k)).
Qed.
(** Under Fifo (or RoundRobin), a task with [i] others before it in the ready list has its turn within
    [i + 1] polls, whatever the other tasks and the host do, unless one of them aborts it before. *)
Theorem C57_no_starvation p cfg cs : cpolicy cfg = Fifo \/ cpolicy cfg = RoundRobin -> forall s c s' c' es i t, ready s !! i = Some t -> exec p cfg (s, c) cs = Some (s', c', es) ->
  i < length es -> exists j e, j <= i /\ es !! j = Some e /\ (etid e = t \/ estep e = Abort t).
Proof.
  intros Hp. induction cs as [|a cs IH]; intros s c s' c' es i t Hi H Hl; cbn [exec] in H; [injection H as _ _ <-; cbn in Hl; lia|].
  destruct (do_call p cfg (s, c) a) as [[[s1 c1] e1]|] eqn:E1; [|done]. cbn [mbind option_bind] in H. destruct (exec p cfg (s1, c1) cs) as [[[s2 c2] e2]|] eqn:E2; [|done]. cbn [mbind option_bind] in H. injection H as _ _ <-.
  assert (Grow : adds s s1 -> e1 = [] -> exists j e, j <= i /\ (e1 ++ e2) !! j = Some e /\ (etid e = t \/ estep e = Abort t)).
  { intros [new E] ->. apply (IH s1 c1 _ _ _ i t) in E2; [done| |exact Hl]. rewrite E. rewrite lookup_app_l; [done|]. now apply lookup_lt_Some in Hi. }
  destruct a as [b mn|cap| |]; cbn [do_call fst snd] in E1.
  - injection E1 as <- _ <-. apply Grow; [|done]. now exists [next_id s].
  - injection E1 as <- _ <-. apply Grow; [|done]. now apply adds_eq.
  - destruct (poll_once p cfg (s, c)) as [[[[s3 c3] o3] e3]|] eqn:E3; [|done]. cbn [mbind option_bind] in E1. injection E1 as -> -> <-. destruct e3 as [e|].
    + pose proof (C57_order _ _ _ _ _ _ _ _ E3) as Ho. destruct (poll_event _ _ _ _ _ _ _ _ E3) as (c4 & s4 & Ep & Hk). assert (exists l, ready s = etid e :: l) as [l El] by (destruct Hp as [Hp|Hp]; rewrite Hp in Ho; exact Ho). clear Ho.
      assert (Es4 : ready s4 = l). { unfold pick_ready in Ep. rewrite El in Ep. destruct Hp as [Hp|Hp]; rewrite Hp in Ep; cbn in Ep; injection Ep as <- _; done. }
      rewrite El in Hi. cbn [option_list app]. destruct i as [|i]; cbn in Hi; [injection Hi as <-; exists 0, e; split; [lia|]; split; [done|now left]|].
      destruct Hk as (keep & new & Er & Ek). rewrite Es4 in Er. destruct (keep t) eqn:Et; [|exists 0, e; split; [lia|]; split; [done|right; now apply Ek]]. destruct (filter_pos keep l i t Hi Et) as (j & Hj & Ej). cbn in Hl.
      destruct (IH s1 c1 _ _ _ j t ltac:(rewrite Er; rewrite lookup_app_l; [exact Ej|now apply lookup_lt_Some in Ej]) E2 ltac:(lia)) as (k & e' & Hk & Ek' & D). exists (S k), e'. split; [lia|]. split; [done|exact D].
    + exfalso. unfold poll_once in E3. destruct (pick_ready cfg s c) as [[[[x s4]|] c4]|] eqn:Ep; [| |done].
      * cbn [mbind option_bind] in E3. destruct (tasks s4 !! x) as [sl|]; [|done]. cbn [mbind option_bind] in E3. destruct (poll p (body sl) (ctx_of sl)) as [b st]. destruct (process_step p cfg _ c4 x st) as [[? ?]|]; done.
      * unfold pick_ready in Ep. destruct (ready s) as [|t0 l]; [done|]. destruct Hp as [Hp|Hp]; rewrite Hp in Ep; done.
  - injection E1 as <- _ <-. apply Grow; [|done]. unfold wake_io. apply adds_fold. intros s0 x. now exists [x].
Qed.
End Policy.
