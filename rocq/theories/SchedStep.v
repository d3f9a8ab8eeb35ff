(** Every call keeps the scheduler's invariant. *)
From Coq Require Import NArith List Lia.
From stdpp Require Import list gmap.
From Verif Require Import SchedModel SchedInv SchedOps.
Open Scope nat_scope.

Section Step.
Context {B : Type}.
Implicit Types (s : core B) (tr : list (event B)) (W : nat -> wait).

(** ** Closing a channel *)
Lemma wake_closed_deliver s s' rid ch : deliver s rid ch Nothing = Some s' -> wake_closed s rid ch = s'.
Proof.
  unfold deliver, wake_closed. destruct (tasks s !! rid) as [sl|]; [|done]. destruct (sel_arms sl) as [arms|]; [|congruence]. destruct (arm_position arms ch) as [i|]; [|done]. cbn. congruence.
Qed.
Lemma hist_nones L ch l x : hist (L ++ map (fun rid => (rid, ch, None)) l) x = hist L x.
Proof. unfold hist. rewrite flat_map_app. replace (flat_map _ (map _ l)) with (@nil payload); [apply app_nil_r|]. induction l as [|a l IH]; [done|]. cbn. rewrite <- IH. now destruct (ch =? x). Qed.
Lemma close_fold l : forall s tr L A po W ch t, inv s tr L A po W [] (Some (ch, l)) -> is_Some (chans s !! ch) -> closed_in tr ch -> out (W t) = true -> settled_but W t -> exists W',
  let s' := fold_left (fun s rid => wake_closed s rid ch) l s in inv s' tr (L ++ map (fun rid => (rid, ch, None)) l) A po W' [] (Some (ch, [])) /\ W' t = W t /\ settled_but W' t /\ thin (chans s) (chans s') /\ chans s' !! ch = chans s !! ch /\ tasks s' !! t = tasks s !! t /\ next_id s' = next_id s.
Proof.
  induction l as [|rid l IH]; intros s tr L A po W ch t I Hc Hcl Ht Hs; cbn.
  - exists W. rewrite app_nil_r. split_and!; try done. apply thin_refl.
  - destruct (deliver_ok s tr L A po W ch rid l None I Hc (or_intror (conj eq_refl Hcl))) as (s1 & W1 & D1 & D2 & D3 & D4 & D5 & D6 & D7 & D8 & D9). rewrite (wake_closed_deliver _ _ _ _ D1).
    assert (Nt : t <> rid) by (intros ->; destruct (W rid); done).
    destruct (IH s1 tr _ A po W1 ch t D2) as (W' & E1 & E2 & E3 & E4 & E5 & E6 & E7).
    + now rewrite D7.
    + done.
    + now rewrite D4.
    + intros x N. destruct (decide (x = rid)) as [->|N']; [now rewrite D3|]. rewrite D4 by done. now apply Hs.
    + exists W'. rewrite <- app_assoc in E1. split; [exact E1|]. split; [now rewrite E2, D4|]. split; [done|]. split; [now apply (thin_trans _ (chans s1))|]. split; [congruence|]. split; [rewrite E6; now apply D8|congruence].
Qed.
Lemma do_close_ok s tr L A W t ch n c : inv s tr L A [] W [] None -> W t = WOut [] [] -> settled_but W t -> pipe (chans s) L A tr -> fresh s tr t (Close ch, n) -> closed_in tr ch -> chans s !! ch = Some c -> exists s', do_close s ch = Some s' /\ good (mark_ready s' t Nothing) tr.
Proof.
  intros I Hw Hs [Pi Pf] Hf Hcl Ec. unfold do_close. rewrite Ec. eexists. split; [done|].
  pose proof (inv_hide s tr L A [] W [] ch c (Chan (capacity c) (queue c) (senders c) [] true) I Ec eq_refl) as I1.
  destruct (close_fold (receivers c) _ tr L A [] W ch t I1) as (W' & E1 & E2 & E3 & E4 & E5 & E6 & E7); [cbn; rewrite lookup_insert; now eexists|done|now rewrite Hw|done|]. cbn in E5. rewrite lookup_insert in E5.
  apply (inv_show _ _ _ _ _ _ _ ch (Chan (capacity c) (queue c) (senders c) [] true)) in E1; [|exact E5]. eexists _, _, _. split; [|split].
  - eapply (mark_ok _ tr _ A [] _ [] None t [] [] (Close ch, n) Nothing E1); [congruence| |done..]. now apply (fresh_chans s).
  - apply (settled_upd W' _ t WReady); [done|apply upd_same|done|]. intros x N. now rewrite !upd_other.
  - apply (pipe_thin _ _ _ _ _ E4). cbn. destruct (Pi ch c Ec) as (K1 & K2 & K3). split.
    + apply idle_chan; [done|]. split; [done|]. split; [exact K2|exact K3].
    + intros x. rewrite hist_nones. specialize (Pf x). destruct (decide (x = ch)) as [->|N]; [|now rewrite lookup_insert_ne by congruence]. rewrite lookup_insert. rewrite Ec in Pf. destruct Pf as (P1 & P2 & _). now split_and!.
Qed.

(** ** Ending a task *)
Lemma await_fold l : forall s tr L A po W x v, inv s tr L A po W [] None -> NoDup l -> (forall w, w ∈ l -> W w = WOut [] [] /\ exists n, fresh s tr w (Await x, n)) -> (forall n cm, ans cm tr (Some (@Await B x, n)) (Ctx v None None None)) -> exists W',
  let s' := fold_left (fun s w => mark_ready s w v) l s in inv s' tr L A po W' [] None /\ (forall w, w ∈ l -> W' w = WReady) /\ (forall w, w ∉ l -> W' w = W w /\ tasks s' !! w = tasks s !! w) /\ chans s' = chans s /\ next_id s' = next_id s.
Proof.
  induction l as [|a l IH]; intros s tr L A po W x v I Nd Hl Ha; cbn.
  - exists W. split_and!; try done. intros w H. now apply elem_of_nil in H.
  - apply NoDup_cons in Nd as [Na Nd]. destruct (Hl a) as [Hw [n Hf]]; [apply elem_of_cons; now left|]. pose proof (mark_ok s tr L A po W [] None a [] [] (Await x, n) v I Hw Hf eq_refl eq_refl (Ha n _)) as I1.
    destruct (IH (mark_ready s a v) tr L A po (upd W a WReady) x v I1 Nd) as (W' & E1 & E2 & E3 & E4 & E5).
    + intros w H. assert (N : w <> a) by congruence. rewrite upd_other by done. destruct (Hl w) as [H1 [m H2]]; [apply elem_of_cons; now right|]. split; [done|]. exists m. now apply fresh_mark.
    + done.
    + exists W'. split; [done|]. split; [|split; [|done]].
      * intros w H. apply elem_of_cons in H as [->|H]; [|now apply E2]. destruct (E3 a Na) as [-> _]. apply upd_same.
      * intros w H. apply not_elem_of_cons in H as [N H]. destruct (E3 w H) as [-> ->]. rewrite upd_other by done. split; [done|]. cbn. now rewrite lookup_alter_ne by congruence.
Qed.
Lemma complete_ok s tr L A po W t r sl : inv s tr L A po W [] None -> gone (W t) = true \/ (exists g q, W t = WOut g q) -> isdone (W t) = false -> tasks s !! t = Some sl -> match r with Completed v => exited tr t v | Aborted => aborted tr t end ->
  exists W', inv (complete_task (set_tst s t Finished) t r) tr L A po W' [] None /\ W' t = WDone /\ (forall y, y <> t -> out (W' y) = out (W y) /\ (out (W y) = true -> W' y = W y /\ tasks (complete_task (set_tst s t Finished) t r) !! y = tasks s !! y)) /\ chans (complete_task (set_tst s t Finished) t r) = chans s.
Proof.
  intros I Ho Hd Et Hr. pose proof (i_await _ _ _ _ _ _ _ _ I) as [Aw _]. destruct (Aw t) as [Nd Ha]. pose proof (free_awaiters s tr L A po W t I) as I1. set (W1 := fun x => _) in I1.
  assert (Hw1 : W1 t = W t) by (unfold W1; destruct Ho as [Ho|(g & q & ->)]; [destruct (W t); done|done]).
  assert (Hx : forall x, apart (W1 x) <> Some t). { intros x. unfold W1. destruct (W x) as [| | | | | | | |y| |]; try done. destruct (Nat.eqb_spec y t) as [->|N]; [done|]. cbn. congruence. }
  assert (I2 : inv (set_results (upd_task (set_awaiters s (delete t (awaiters s))) t (fun sl => with_tst sl Finished)) (<[t := r]> (results s))) tr L A po (upd W1 t WDone) [] None).
  { destruct Ho as [Ho|(g & q & Ho)].
    - apply (attach_done _ tr L A po W1 t [] [] r _ sl I1); try done. right. rewrite Hw1. destruct (W t); done.
    - apply (attach_done _ tr L A po W1 t g q r _ sl I1); try done. left. congruence. }
  assert (Nt : forall w, w ∈ default [] (awaiters s !! t) -> w <> t). { intros w H ->. apply Ha in H. destruct Ho as [Ho|(g & q & Ho)]; destruct (W t); done. }
  destruct (await_fold (default [] (awaiters s !! t)) _ tr L A po _ t (result_payload r) I2 Nd) as (W' & E1 & E2 & E3 & E4 & E5).
  - intros w H. pose proof (Nt w H) as N. rewrite upd_other by done. apply Ha in H. assert (Hw : W w = WAwait t) by (destruct (W w); cbn in H; try done; congruence). split; [unfold W1; now rewrite Hw, Nat.eqb_refl|].
    pose proof (fresh_resting s tr L A po W [] None w I) as F. rewrite Hw in F. destruct F as [n F]. exists n. apply (fresh_chans s); [done|]. cbn. now rewrite lookup_alter_ne by congruence.
  - intros n cm. exists (result_payload r). split; [done|]. destruct r as [v|]; [now left|right]. split; [done|]. now left.
  - exists W'. split; [exact E1|]. destruct (E3 t) as [Q1 Q2]; [intros H; now apply Nt in H|]. split; [rewrite Q1; apply upd_same|]. split; [|exact E4].
    intros x N. destruct (decide (x ∈ default [] (awaiters s !! t))) as [H|H]; [rewrite E2 by done; apply Ha in H; destruct (W x); done|]. destruct (E3 x H) as [Q3 Q4]. rewrite Q3, upd_other by done. assert (Q5 : W1 x = W x). { unfold W1. destruct (W x) eqn:Ew; try done. destruct (Nat.eqb_spec x0 t) as [->|N']; [|done]. destruct H. apply Ha. now rewrite Ew. } rewrite Q5. split; [done|]. intros _. split; [done|]. etrans; [exact Q4|]. cbn. now rewrite lookup_alter_ne by congruence.
Qed.
Lemma exit_ok s tr L A W t v sl : inv s tr L A [] W [] None -> W t = WOut [] [] -> settled_but W t -> pipe (chans s) L A tr -> tasks s !! t = Some sl -> exited tr t v -> good (complete_task (set_tst s t Finished) t (Completed v)) tr.
Proof.
  intros I Hw Hs Hp Et He. destruct (complete_ok s tr L A [] W t (Completed v) sl I) as (W' & E1 & E2 & E3 & E4); [right; eauto|now rewrite Hw|done|done|].
  exists L, A, W'. split; [exact E1|]. split; [|rewrite E4; exact Hp]. intros x. destruct (decide (x = t)) as [->|N]; [now rewrite E2|]. destruct (E3 x N) as [-> _]. now apply Hs.
Qed.
Lemma sublist_filter_snd {X} (f : X -> bool) (l : list X) {Y} (g : X -> Y) : sublist (map g (List.filter f l)) (map g l).
Proof. induction l as [|a l IH]; [constructor|]. cbn. destruct (f a); cbn; now constructor. Qed.
Lemma do_abort_ok s tr L A W t x n : inv s tr L A [] W [] None -> W t = WOut [] [] -> settled_but W t -> pipe (chans s) L A tr -> fresh s tr t (Abort x, n) -> x <> t -> aborted tr x -> good (mark_ready (do_abort s x) t Nothing) tr.
Proof.
  intros I Hw Hs Hp Hf Nx Hab.
  assert (Fin : forall s' L' A' W', inv s' tr L' A' [] W' [] None -> W' t = WOut [] [] -> settled_but W' t -> pipe (chans s') L' A' tr -> fresh s' tr t (Abort x, n) -> good (mark_ready s' t Nothing) tr).
  { intros s' L' A' W' I' Hw' Hs' Hp' Hf'. exists L', A', (upd W' t WReady). split; [|split].
    - now apply (mark_ok s' tr L' A' [] W' [] None t [] [] (Abort x, n) Nothing).
    - apply (settled_upd W' _ t WReady); [done|apply upd_same|done|]. intros y N. now rewrite !upd_other.
    - done. }
  unfold do_abort. destruct (results s !! x) as [r|] eqn:Er; [now apply (Fin s L A W)|]. destruct (tasks s !! x) as [sl|] eqn:Ex; [|now apply (Fin s L A W)].
  assert (Hg : gone (W x) = false /\ W x <> WNone /\ out (W x) = false). { pose proof (i_results _ _ _ _ _ _ _ _ I) as [R _]. specialize (R x). rewrite Er in R. pose proof (i_tasks _ _ _ _ _ _ _ _ I x) as T. rewrite Ex in T. destruct T as [T _]. pose proof (Hs x Nx) as Ho. destruct (W x); try done. exfalso. now apply (@is_Some_None aresult), R. } destruct Hg as (Hg & Hg' & Ho).
  assert (Main : good (mark_ready (let keep := fun t0 => negb (t0 =? x) in
     let s := set_ready s (List.filter keep (ready s)) in
     let s := set_chans s ((fun c => with_senders (with_receivers c (List.filter keep (receivers c))) (List.filter (fun y => keep (fst y)) (senders c))) <$> chans s) in
     let s := set_timers s (List.filter (fun y => keep (ttid y)) (timers s)) in
     let s := set_awaiters s (List.filter keep <$> awaiters s) in complete_task (set_tst s x Finished) x Aborted) t Nothing) tr); [|destruct (tst sl); try exact Main; now apply (Fin s L A W)].
  cbv zeta. pose (cm' := (fun c => with_senders (with_receivers c (List.filter (fun y => negb (y =? x)) (receivers c))) (List.filter (fun y => negb (fst y =? x)) (senders c))) <$> chans s).
  assert (I1 : inv (Core (tasks s) (List.filter (fun y => negb (y =? x)) (ready s)) cm' (List.filter (fun y => negb (ttid y =? x)) (timers s)) (clock s) (next_id s) (main_result s) (results s) (List.filter (fun y => negb (y =? x)) <$> awaiters s)) tr L A [] (upd W x WGone) [] None).
  { apply (detach s tr L A [] W WGone [] [] None None x); try done.
    - now right.
    - intros ch. unfold cm'. rewrite lookup_fmap. destruct (chans s !! ch) as [c|]; done.
    - apply keep_timers.
    - intros tm H. now apply elem_of_nil in H.
    - intros tm H. now left.
    - intros y. rewrite lookup_fmap. now destruct (awaiters s !! y). }
  assert (Hp' : pipe cm' L A tr).
  { destruct Hp as [Pi Pf]. split.
    - intros ch c' E. unfold cm' in E. rewrite lookup_fmap in E. destruct (chans s !! ch) as [c|] eqn:Ec; [|done]. injection E as <-. destruct (Pi ch c Ec) as (K1 & K2 & K3). split; [|split; [|exact K3]]; cbn.
      + intros Q. destruct K1 as (-> & -> & ->); [|done]. intros Q'. now rewrite Q' in Q.
      + intros Q. apply K2. intros Q'. now rewrite Q' in Q.
    - intros ch. specialize (Pf ch). unfold cm'. rewrite lookup_fmap. destruct (chans s !! ch) as [c|]; [|done]. cbn. destruct Pf as (P1 & _ & P3). split; [|split; [|exact P3]].
      + etrans; [|exact P1]. apply sublist_app; [done|]. apply sublist_app; [done|]. apply (sublist_filter_snd (fun y => negb (fst y =? x)) (senders c) snd).
      + intros Hn. destruct Hab as (t' & k & m & H). now apply Hn in H. }
  set (s1 := Core (tasks s) _ cm' _ _ _ _ _ _) in I1.
  destruct (complete_ok s1 tr L A [] (upd W x WGone) x Aborted sl I1) as (W' & E1 & E2 & E3 & E4).
  - left. now rewrite upd_same.
  - now rewrite upd_same.
  - done.
  - done.
  - destruct (E3 t) as [Q1 Q2]; [congruence|]. rewrite upd_other in Q2 by congruence. rewrite Hw in Q2. destruct (Q2 eq_refl) as [Q3 Q4]. apply (Fin _ L A W' E1).
    + exact Q3.
    + intros y N. destruct (decide (y = x)) as [->|N']; [now rewrite E2|]. destruct (E3 y N') as [-> _]. rewrite upd_other by done. now apply Hs.
    + rewrite E4. exact Hp'.
    + now apply (fresh_chans s).
Qed.

(** ** A whole step *)
(** What the steps of well-behaved tasks look like: a select names each channel once, and no task
    aborts itself. *)
Definition fair_step (t : nat) (st : step B) : Prop := match st with Select arms => NoDup (recv_chans arms) | Abort x => x <> t | _ => True end.
Lemma chan_known s tr L A po W due xch t : inv s tr L A po W due xch -> forall ch, ch ∈ rpart (W t) -> is_Some (chans s !! ch).
Proof. intros I ch H. apply (i_dom _ _ _ _ _ _ _ _ I t). now left. Qed.
Lemma process_ok p cfg s c tr L A W t st e s' c' : inv s tr L A (offer_of e) W [] None -> W t = WOut [] [] -> settled_but W t -> pipe (chans s) L A tr -> e ∈ tr -> etid e = t -> estep e = st ->
  fresh s tr t (st, next_id s) -> fair_step t st -> (match st with Exit v => forall sl, tasks s !! t = Some sl -> is_main sl = true -> main_result s = Some v | _ => True end) -> process_step p cfg s c t st = Some (s', c') -> good s' tr.
Proof.
  intros I Hw Hs Hp He Ee Es Hf Hfair Hmain H.
  assert (Mark : forall s1 L1 A1 W1 v g q, inv s1 tr L1 A1 [] W1 [] None -> W1 t = WOut g q -> settled_but W1 t -> pipe (chans s1) L1 A1 tr -> fresh s1 tr t (st, next_id s) -> answer_of (Some (st, next_id s)) (Ctx v None None None) = g -> try_of (Some (st, next_id s)) (Ctx v None None None) = q -> ans (chans s1) tr (Some (st, next_id s)) (Ctx v None None None) -> good (mark_ready s1 t v) tr).
  { intros s1 L1 A1 W1 v g q I1 Hw1 Hs1 Hp1 Hf1 H1 H2 H3. exists L1, A1, (upd W1 t WReady). split; [|split].
    - now apply (mark_ok s1 tr L1 A1 [] W1 [] None t g q (st, next_id s) v).
    - apply (settled_upd W1 _ t WReady); [done|apply upd_same|done|]. intros y N. now rewrite !upd_other.
    - done. }
  destruct e as [e1 e2 e3 e4]. cbn in Ee, Es. subst e1 e3. unfold offer_of in I. cbn [estep etid] in I. destruct st; cbn [process_step] in H.
  - injection H as <- <-. now apply (Mark s L A W Nothing [] []).
  - destruct (do_recv s t ch) as [s1|] eqn:E; [|done]. injection H as <- <-. destruct (chans s !! ch) as [cc|] eqn:Ec; [|unfold do_recv in E; now rewrite Ec in E]. destruct (do_recv_ok s tr L A W t ch _ cc I Hw Hs Hp Hf Ec) as (s2 & E' & G). congruence.
  - destruct (do_send s t ch v) as [s1|] eqn:E; [|done]. injection H as <- <-. destruct (chans s !! ch) as [cc|] eqn:Ec; [|unfold do_send in E; now rewrite Ec in E]. destruct (do_send_ok s tr L A W t ch v _ cc I Hw Hs Hp Hf Ec) as (s2 & E' & G). congruence.
  - destruct (do_try_send s t ch v) as [s1|] eqn:E; [|done]. injection H as <- <-. destruct (chans s !! ch) as [cc|] eqn:Ec; [|unfold do_try_send in E; now rewrite Ec in E]. destruct (do_try_send_ok s tr L A W t ch v _ cc I Hw Hs Hp Hf Ec) as (s2 & E' & G). congruence.
  - destruct (do_try_recv s t ch) as [s1|] eqn:E; [|done]. injection H as <- <-. destruct (chans s !! ch) as [cc|] eqn:Ec; [|unfold do_try_recv in E; now rewrite Ec in E]. destruct (do_try_recv_ok s tr L A W t ch _ cc I Hw Hs Hp Hf Ec) as (s2 & E' & G). congruence.
  - now apply (do_select_ok s tr L A W t arms _ c c' s' I Hw Hs Hp Hf).
  - injection H as <- <-. destruct Hf as (sl & Et & F1 & F2 & F3). eexists L, A, _. split; [|split].
    + refine (attach s tr L A [] W (WTimer (add64 (clock s) d)) t (fun sl => with_tst sl BlockedTimer) sl (chans s) _ (awaiters s) I Hw eq_refl Et _ _ _ _ _ eq_refl _ _); try done.
      * exists d, (next_id s). exact F3.
      * intros x. destruct (chans s !! x); [|done]. cbn. now rewrite !app_nil_r.
      * cbn. intros x [Q|[v Q]]; [now apply elem_of_nil in Q|done].
      * intros x. cbn. now rewrite app_nil_r.
    + apply (settled_upd W _ t (WTimer (add64 (clock s) d))); [done|apply upd_same|done|]. intros x N. now rewrite !upd_other.
    + done.
  - injection H as <- <-. destruct Hf as (sl & Et & F1 & F2 & F3). destruct (i_ids _ _ _ _ _ _ _ _ I (next_id s)) as [D _]. destruct D as [D1 D2]; [lia|].
    pose proof (inv_add_chan s tr L A [] W (Some (default (default_capacity cfg) cap)) I) as I1. eexists L, A, _. split; [|split].
    + match goal with |- inv (mark_ready (upd_task ?s0 t ?f) t Nothing) _ _ _ _ _ _ _ => replace (mark_ready (upd_task s0 t f) t Nothing) with (set_ready (upd_task s0 t (fun sl => with_tst (with_resume (f sl) Nothing) Ready)) (ready s0 ++ [t])) end.
      * refine (attach_ready _ tr L A [] W [] None t [] [] _ sl I1 Hw Et _ _ _ _ _ _); try done; rewrite F3; try done. cbn. unfold ctx_of in *. cbn in *. injection F2 as _ -> _ ->. done.
      * unfold mark_ready, upd_task, set_ready, set_tasks. cbn. f_equal. rewrite <- alter_compose. done.
    + apply (settled_upd W _ t WReady); [done|apply upd_same|done|]. intros x N. now rewrite !upd_other.
    + cbn. destruct Hp as [Pi Pf]. split.
      * apply idle_chan; [done|]. split; [done|]. split; [done|]. cbn. lia.
      * intros x. specialize (Pf x). destruct (decide (x = next_id s)) as [->|N]; [|now rewrite lookup_insert_ne by congruence]. rewrite lookup_insert. rewrite D2 in Pf. destruct Pf as [-> ->]. done.
  - injection H as <- <-. destruct Hf as (sl & Et & F1 & F2 & F3). destruct (i_ids _ _ _ _ _ _ _ _ I (next_id s)) as [D _]. destruct D as [D1 D2]; [lia|]. assert (Nt : t <> next_id s) by congruence.
    pose proof (inv_spawn p s tr L A [] W b false I) as I1. eexists L, A, _. split; [|split].
    + match goal with |- inv (mark_ready (upd_task ?s0 t ?f) t Nothing) _ _ _ _ _ _ _ => replace (mark_ready (upd_task s0 t f) t Nothing) with (set_ready (upd_task s0 t (fun sl => with_tst (with_resume (f sl) Nothing) Ready)) (ready s0 ++ [t])) end.
      * refine (attach_ready _ tr L A [] _ [] None t [] [] _ sl I1 _ _ _ _ _ _ _ _); try done; try (rewrite F3; try done).
        -- now rewrite upd_other.
        -- cbn. now rewrite lookup_insert_ne by congruence.
        -- cbn. unfold ctx_of in *. cbn in *. injection F2 as _ -> -> _. done.
      * unfold mark_ready, upd_task, set_ready, set_tasks. cbn. f_equal. rewrite <- alter_compose. done.
    + intros x. destruct (decide (x = t)) as [->|N]; [now rewrite upd_same|rewrite upd_other by done]. destruct (decide (x = next_id s)) as [->|N']; [now rewrite upd_same|rewrite upd_other by done]. now apply Hs.
    + done.
  - done.
  - injection H as <- <-. unfold do_await. destruct (results s !! t0) as [r|] eqn:Er.
    + apply (Mark s L A W _ [] []); try done. exists (result_payload r). split; [done|]. destruct (i_results _ _ _ _ _ _ _ _ I) as (_ & R2 & R3). destruct r as [v|]; [left; now apply R2|right]. split; [done|]. left. now apply R3.
    + destruct (tasks s !! t0) as [sl0|] eqn:E0.
      * destruct Hf as (sl & Et & F1 & F2 & F3). eexists L, A, _. split; [|split].
        -- refine (attach s tr L A [] W (WAwait t0) t (fun sl => with_tst sl BlockedAwait) sl (chans s) (timers s) (<[t0 := default [] (awaiters s !! t0) ++ [t]]> (awaiters s)) I Hw eq_refl Et _ _ _ _ _ _ _ _); try done.
           ++ exists (next_id s). exact F3.
           ++ intros x. destruct (chans s !! x); [|done]. cbn. now rewrite !app_nil_r.
           ++ cbn. intros x [Q|[v Q]]; [now apply elem_of_nil in Q|done].
           ++ cbn. now rewrite app_nil_r.
           ++ intros x. cbn. destruct (decide (x = t0)) as [->|N]; [rewrite lookup_insert, bool_decide_true by done; done|]. rewrite lookup_insert_ne, bool_decide_false by congruence. now rewrite app_nil_r.
           ++ cbn. intros x [= <-]. pose proof (i_tasks _ _ _ _ _ _ _ _ I t0) as T. rewrite E0 in T. destruct T as [T _]. destruct (i_results _ _ _ _ _ _ _ _ I) as (R1 & _). specialize (R1 t0). rewrite Er in R1. destruct (W t0); try done. exfalso. now apply (@is_Some_None aresult), R1.
        -- apply (settled_upd W _ t (WAwait t0)); [done|apply upd_same|done|]. intros x N. now rewrite !upd_other.
        -- done.
      * apply (Mark s L A W _ [] []); try done. exists Nothing. split; [done|]. right. split; [done|]. right. destruct (i_ids _ _ _ _ _ _ _ _ I t0) as [_ D]. destruct (decide (next_id s <= t0)) as [Q|Q]; [now left|right]. destruct D as [[[? D] _]|[_ D]]; [lia|congruence|done].
  - injection H as <- <-. apply (do_abort_ok s tr L A W t t0 (next_id s)); try done. now exists t, e2, e4.
  - destruct (do_close s ch) as [s1|] eqn:E; [|done]. injection H as <- <-. destruct (chans s !! ch) as [cc|] eqn:Ec; [|unfold do_close in E; now rewrite Ec in E]. destruct (do_close_ok s tr L A W t ch _ cc I Hw Hs Hp Hf (ex_intro _ t (ex_intro _ e2 (ex_intro _ e4 He))) Ec) as (s2 & E' & G). rewrite E in E'. injection E' as ->. exact G.
  - injection H as <- <-. destruct Hf as (sl & Et & F1 & F2 & F3). eexists L, A, _. split; [|split].
    + refine (attach s tr L A [] W WIo t (fun sl => with_tst sl BlockedIo) sl (chans s) (timers s) (awaiters s) I Hw eq_refl Et _ _ _ _ _ _ _ _); try done.
      * exists (next_id s). exact F3.
      * intros x. destruct (chans s !! x); [|done]. cbn. now rewrite !app_nil_r.
      * cbn. intros x [Q|[v Q]]; [now apply elem_of_nil in Q|done].
      * cbn. now rewrite app_nil_r.
      * intros x. cbn. now rewrite app_nil_r.
    + apply (settled_upd W _ t WIo); [done|apply upd_same|done|]. intros x N. now rewrite !upd_other.
    + done.
  - injection H as <- <-. destruct Hf as (sl & Et & F1 & F2 & F3). rewrite Et. assert (Q : (if is_main sl then set_main s (Some v) else s) = s). { destruct (is_main sl) eqn:Em; [|done]. pose proof (Hmain sl Et Em) as Q. destruct s. cbn in *. now rewrite Q. } rewrite Q. apply (exit_ok s tr L A W t v sl); try done. now exists e2, e4.
Qed.
(** ** Timers *)
Lemma inv_due s tr L A po W tm due : inv s tr L A po W (tm :: due) None -> tpart (W (ttid tm)) = [] -> inv s tr L A po W due None.
Proof.
  intros I E. destruct I. split; try done. destruct i_timer as (T1 & T2 & T3). split; [done|]. split.
  - intros x H. apply T2. apply elem_of_cons. now right.
  - intros t a i H. apply T3 in H as H'. apply elem_of_app in H' as [H'|H']; [apply elem_of_app; now left|]. apply elem_of_cons in H' as [<-|H']; [cbn in E; rewrite E in H; now apply elem_of_nil in H|]. apply elem_of_app. now right.
Qed.
Lemma fire_ok s tr L A W tm due : inv s tr L A [] W (tm :: due) None -> settled W -> (forall x, x ∈ timers s -> fire_at x <> fire_at tm) -> exists W',
  inv (fire_timer s (ttid tm) (tarm tm)) tr L A [] W' due None /\ settled W' /\ thin (chans s) (chans (fire_timer s (ttid tm) (tarm tm))) /\ (forall x, x ∈ timers (fire_timer s (ttid tm) (tarm tm)) -> x ∈ timers s).
Proof.
  intros I Hs Ht. set (t := ttid tm). pose proof (i_timer _ _ _ _ _ _ _ _ I) as (T1 & T2 & _). specialize (T2 tm ltac:(apply elem_of_cons; now left)). fold t in T2. pose proof (i_tasks _ _ _ _ _ _ _ _ I t) as T. unfold task_ok in T. unfold fire_timer.
  assert (Noop : quiet (W t) = true -> exists sl, tasks s !! t = Some sl /\ tst sl = Ready /\ tpart (W t) = []). { intros Q. pose proof (Hs t) as Q'. destruct (W t); try done. destruct (tasks s !! t) as [sl|]; [|now destruct T]. exists sl. destruct T as [[T _] _]. done. }
  destruct T2 as [Hin|Hq]; [|destruct (Noop Hq) as (sl & -> & -> & Hq'); exists W; split; [now apply (inv_due s tr L A [] W tm)|]; split; [done|]; split; [apply thin_refl|done]].
  destruct (tasks s !! t) as [sl|] eqn:Et; [|destruct T as [T _]; rewrite T in Hin; now apply elem_of_nil in Hin]. destruct T as (Hsl & Hl & _).
  assert (Det : forall tms' cm', resting (W t) = true -> cut t None None (chans s) cm' -> (forall x, x ∈ tms' <-> x ∈ timers s /\ ttid x <> t) -> isready (W t) = false -> apart (W t) = None -> inv (Core (tasks s) (ready s) cm' tms' (clock s) (next_id s) (main_result s) (results s) (awaiters s)) tr L A [] (upd W t (WOut [] [])) due None).
  { intros tms' cm' H1 H2 H3 H4 H5. apply (detach s tr L A [] W (WOut [] []) (tm :: due) due None None t); try done.
    - now left.
    - symmetry. apply (no_ready W); [now destruct I|done].
    - intros x H. split; [apply elem_of_cons; now right|done].
    - intros x H. apply elem_of_cons in H as [->|H]; [now right|now left].
    - apply (no_await W); [now destruct I|done]. }
  assert (Hcut : forall f, (forall ch c, chans s !! ch = Some c -> f ch c = with_receivers c (List.filter (fun x => negb (x =? t)) (receivers c))) -> spart (W t) = None -> cut t None None (chans s) (map_imap (fun ch c => Some (f ch c)) (chans s))).
  { intros f Hf' Hsp ch. rewrite map_lookup_imap. destruct (chans s !! ch) as [c|] eqn:Ec; [|done]. cbn. rewrite (Hf' ch c Ec). split; [done|]. cbn. symmetry. apply keep_fst_out. intros v. destruct (i_send _ _ _ _ _ _ _ _ I ch c Ec) as [_ K]. rewrite K. congruence. }
  destruct (W t) as [| | | | | |b arms|a| | |] eqn:Hw; try (exfalso; now apply elem_of_nil in Hin).
  - destruct Hsl as (S1 & S2 & S3). rewrite S1. cbn in Hin. apply timeouts_spec in Hin as (j & d & Ej & Ea & Ef). cbn in Ej. rewrite Ej, S2. cbn in Hl. destruct Hl as [n Hl].
    eexists. split; [|split; [|split]].
    + refine (attach_ready (Core (tasks s) (ready s) (chans (cancel_select s t None)) (timers (cancel_select s t None)) (clock s) (next_id s) (main_result s) (results s) (awaiters s)) tr L A [] (upd W t (WOut [] [])) due None t [] [] (fun sl => with_tst (with_sel_arm (with_resume (with_sel_arms sl None) Nothing) (Some j)) Ready) sl _ (upd_same _ _ _) Et _ _ _ _ _ _); try done.
      * apply Det; try done.
        -- cbn. apply (Hcut (fun ch c => if bool_decide (Some ch = None) then c else with_receivers c (List.filter (fun x => negb (x =? t)) (receivers c)))); [|done]. intros ch c _. now rewrite bool_decide_false.
        -- apply keep_timers.
      * rewrite Hl. unfold ctx_of in *. cbn. now rewrite Ea.
      * now rewrite Hl.
      * rewrite Hl. unfold ctx_of in *. cbn. injection S3 as _ _ -> ->. eexists _, _. split; [done|]. right. now exists d.
    + intros x. destruct (decide (x = t)) as [->|N]; [now rewrite upd_same|]. rewrite !upd_other by done. apply Hs.
    + intros ch. cbn. rewrite map_lookup_imap. destruct (chans s !! ch) as [c|]; [|done]. cbn. rewrite bool_decide_false by done. cbn. split_and!; try done. intros Q Q'. now rewrite Q' in Q.
    + intros x H. cbn in H. now apply keep_timers in H.
  - destruct Hsl as (S1 & S2 & S3). rewrite S1. cbn in Hin. apply elem_of_list_singleton in Hin. injection Hin as Q1 Q2. rewrite Q2. cbn in Hl. destruct Hl as (d & n & Hl).
    exists (upd (upd W t (WOut [] [])) t WReady). split; [|split; [|split]].
    + apply (mark_ok s tr L A [] _ due None t [] [] (Sleep d, n) Nothing); [|apply upd_same|now exists sl|done..]. apply inv_eta, Det; try done.
      * intros ch. destruct (chans s !! ch) as [c|] eqn:Ec; [|done]. split.
        -- cbn. symmetry. apply keep_out. destruct (i_recv _ _ _ _ _ _ _ _ I ch c Ec) as [_ K]. cbn in K. rewrite K, Hw. apply not_elem_of_nil.
        -- symmetry. apply keep_fst_out. intros v. destruct (i_send _ _ _ _ _ _ _ _ I ch c Ec) as [_ K]. rewrite K, Hw. done.
      * intros x. split; [|tauto]. intros H. split; [done|]. intros Q. apply T1 in H as H'. rewrite Q, Hw in H'. cbn in H'. apply elem_of_list_singleton in H'. injection H' as H' _. apply (Ht x H). congruence.
    + intros x. destruct (decide (x = t)) as [->|N]; [now rewrite upd_same|]. rewrite !upd_other by done. apply Hs.
    + apply thin_refl.
    + done.
Qed.
Lemma fire_fold due : forall s tr L A W e, inv s tr L A [] W due None -> settled W -> (forall x, x ∈ timers s -> fire_at x <> e) -> (forall x, x ∈ due -> fire_at x = e) -> pipe (chans s) L A tr -> good (fold_left (fun s x => fire_timer s (ttid x) (tarm x)) due s) tr.
Proof.
  induction due as [|tm due IH]; intros s tr L A W e I Hs Ht Hd Hp; cbn; [now exists L, A, W|].
  assert (Q : fire_at tm = e) by (apply Hd, elem_of_cons; now left). destruct (fire_ok s tr L A W tm due I Hs) as (W' & E1 & E2 & E3 & E4); [intros x H; rewrite Q; now apply Ht|].
  apply (IH _ tr L A W' e); try done.
  - intros x H. now apply Ht, E4.
  - intros x H. apply Hd, elem_of_cons. now right.
  - now apply (pipe_thin (chans s)).
Qed.
Lemma shuffle_perm {X} n : forall c (pool : list X) l c', n = length pool -> shuffle n c pool = Some (l, c') -> Permutation l pool.
Proof.
  induction n as [|n IH]; intros c pool l c' En H; cbn in H.
  - injection H as <- _. now destruct pool.
  - destruct (choose_among c TimerTieBreak (length pool)) as [[k c1]|]; [|done]. cbn in H. destruct (pool !! k) as [x|] eqn:Ex; [|done]. cbn in H. destruct (shuffle n c1 (take k pool ++ drop (S k) pool)) as [[l1 c2]|] eqn:El; [|done]. cbn in H. injection H as <- _.
    rewrite <- delete_take_drop in El. pose proof (delete_Permutation pool k x Ex) as P. assert (Ln : n = length (delete k pool)) by (apply Permutation_length in P; cbn in P; lia). rewrite (IH _ _ _ _ Ln El). now rewrite <- P.
Qed.
Lemma advance_ok s tr c s' c' : good s tr -> advance_timers s c = Some (s', c') -> good s' tr.
Proof.
  intros (L & A & W & I & Hs & Hp). unfold advance_timers. destruct (earliest (timers s)) as [e|]; [|intros [= <- <-]; now exists L, A, W].
  set (due := List.filter (fun x => (fire_at x =? e)%N) (timers s)). set (rest := List.filter (fun x => negb (fire_at x =? e)%N) (timers s)). intros H.
  assert (Ho : exists order, Permutation order due /\ s' = fold_left (fun s x => fire_timer s (ttid x) (tarm x)) order (set_timers (set_clock s e) rest)).
  { destruct (1 <? length due).
    - destruct (shuffle (length due) c due) as [[order c1]|] eqn:E; [|done]. cbn in H. injection H as <- _. exists order. split; [|done]. now apply (shuffle_perm (length due) c due order c1).
    - cbn in H. injection H as <- _. now exists due. }
  destruct Ho as (order & P & ->).
  assert (Hd : forall x, x ∈ order <-> x ∈ timers s /\ fire_at x = e). { intros x. assert (Q : x ∈ order <-> x ∈ due) by (split; intros H'; [rewrite <- P|rewrite P]; exact H'). rewrite Q. unfold due. rewrite !elem_of_list_In, filter_In, N.eqb_eq. done. }
  assert (Hr : forall x, x ∈ rest <-> x ∈ timers s /\ fire_at x <> e). { intros x. unfold rest. rewrite !elem_of_list_In, filter_In, negb_true_iff, N.eqb_neq. done. }
  apply (fire_fold order _ tr L A W e); try done.
  - destruct I. split; try done. cbn. destruct i_timer as (T1 & T2 & T3). split; [|split].
    + intros tm H'. apply T1. now apply Hr.
    + intros tm H'. left. apply T1. now apply Hd.
    + intros t a i H'. apply T3 in H'. rewrite app_nil_r in H'. apply elem_of_app. destruct (N.eq_dec a e) as [->|N]; [right; now apply Hd|left; now apply Hr].
  - intros x H'. now apply Hr.
  - intros x H'. now apply Hd.
Qed.

(** ** Calls *)
Lemma pick_spec cfg s c o c' : pick_ready cfg s c = Some (o, c') -> match o with None => ready s = [] /\ c' = c | Some (t, s1) => exists idx, ready s !! idx = Some t /\ s1 = set_ready s (take idx (ready s) ++ drop (S idx) (ready s)) end.
Proof.
  unfold pick_ready. destruct (ready s) as [|t0 l] eqn:Er; [intros [= <- <-]; done|]. rewrite <- Er in *. destruct (match cpolicy cfg with Fifo | RoundRobin => _ | _ => _ end) as [[idx c1]|]; [|done]. cbn. destruct (ready s !! idx) as [t|] eqn:E; [|done]. cbn. intros [= <- <-]. now exists idx.
Qed.
Definition fair tr : Prop := forall e, e ∈ tr -> fair_step (etid e) (estep e).
Lemma poll_ok p cfg s c tr s' c' o oe : good s tr -> poll_once p cfg (s, c) = Some (s', c', o, oe) -> fair (option_list oe) -> good s' (tr ++ option_list oe).
Proof.
  intros G H Hfair. unfold poll_once in H. destruct (pick_ready cfg s c) as [[o1 c1]|] eqn:Ep; [|done]. cbn in H. pose proof (pick_spec _ _ _ _ _ Ep) as Hpk. destruct o1 as [[t s1]|].
  - destruct Hpk as (idx & Er & Es1). destruct G as (L & A & W & I & Hs & Hp). assert (Et1 : tasks s1 = tasks s) by (rewrite Es1; done). rewrite Et1 in H.
    destruct (tasks s !! t) as [sl|] eqn:Et; [|done]. cbn in H. destruct (poll p (body sl) (ctx_of sl)) as [b st] eqn:Epoll.
    destruct (process_step p cfg (upd_task s1 t _) c1 t st) as [[s2 c2]|] eqn:Eps; [|done]. cbn in H. injection H as <- <- <- <-. cbn [option_list] in *.
    assert (Hn : next_id (upd_task s1 t (fun sl0 => Slot b (prio sl0) Nothing None (sel_arms sl0) None None (tst sl0) (is_main sl0))) = next_id s) by (rewrite Es1; done). cbn in Hn. rewrite Hn in *. set (e := Event t (ctx_of sl) st (next_id s)) in *.
    pose proof (inv_poll s tr L A W idx t sl b st I Er Et) as I1. cbv zeta in I1. fold e in I1. rewrite <- Es1 in I1. set (s3 := upd_task s1 t (run_body b)) in *. change (upd_task s1 t _) with s3 in Eps.
    pose proof (i_ready _ _ _ _ _ _ _ _ I) as [_ Hrd]. assert (Hw : W t = WReady). { assert (Q : t ∈ ready s) by (eapply elem_of_list_lookup_2; eauto). apply Hrd in Q. destruct (W t); done. }
    pose proof (i_tasks _ _ _ _ _ _ _ _ I t) as T. rewrite Hw, Et in T. destruct T as ([T1 T2] & _).
    assert (E3 : tasks s3 !! t = Some (run_body b sl)) by (unfold s3; cbn; rewrite Et1, lookup_alter, Et; done).
    assert (Pf : tasks (note_exit s3 t st) = tasks s3 /\ chans (note_exit s3 t st) = chans s3 /\ next_id (note_exit s3 t st) = next_id s3). { unfold note_exit. destruct st; try done. destruct (tasks s3 !! t) as [sl'|]; [|done]. now destruct (is_main sl'). } destruct Pf as (P1 & P2 & P3).
    assert (Eps' : process_step p cfg (note_exit s3 t st) c1 t st = Some (s2, c2)). { unfold note_exit. destruct st; try exact Eps. rewrite E3. cbn [process_step] in *. rewrite E3 in Eps. destruct (is_main (run_body b sl)) eqn:Em; [|now rewrite E3, Em]. cbn [tasks set_main]. rewrite E3, Em. exact Eps. }
    apply (process_ok p cfg (note_exit s3 t st) c1 (tr ++ [e]) L A (upd W t (WOut [] [])) t st e s2 c2); try done.
    + apply upd_same.
    + intros x N. rewrite upd_other by done. apply Hs.
    + rewrite P2. assert (Ec : chans s3 = chans s) by (unfold s3; rewrite Es1; done). rewrite Ec. destruct Hp as [Pi Pf]. split; [done|]. intros ch. specialize (Pf ch). destruct (chans s !! ch); [|done]. destruct Pf as (F1 & F2 & F3). split; [done|]. split; [|intros Q; apply (closed_more tr); [intros x Hx; apply elem_of_app; now left|now apply F3]]. intros Q. apply F2. intros x Hx. apply Q, elem_of_app. now left.
    + apply elem_of_app. right. now apply elem_of_list_singleton.
    + exists (run_body b sl). rewrite P1, P3. split; [done|]. split; [done|]. split; [done|]. rewrite last_req_app. cbn. rewrite Nat.eqb_refl. unfold s3. cbn. now rewrite Hn.
    + specialize (Hfair e ltac:(now apply elem_of_list_singleton)). done.
    + destruct st; try done. intros sl' E' Em. rewrite P1, E3 in E'. injection E' as <-. unfold note_exit. rewrite E3, Em. done.
  - destruct Hpk as [Hr ->]. destruct (timers s) as [|tm l] eqn:Etm.
    + injection H as <- <- <- <-. cbn. now rewrite app_nil_r.
    + destruct (advance_timers s c) as [[s2 c2]|] eqn:Ea; [|done]. cbn in H. injection H as <- <- <- <-. cbn. rewrite app_nil_r. now apply (advance_ok s tr c s2 c2).
Qed.
Lemma wake_io_fold l : forall s tr L A W, inv s tr L A [] W [] None -> settled W -> NoDup l -> (forall t, t ∈ l -> W t = WIo) -> pipe (chans s) L A tr -> good (fold_left (fun s t => let s := set_tst s t Ready in set_ready s (ready s ++ [t])) l s) tr.
Proof.
  induction l as [|t l IH]; intros s tr L A W I Hs Nd Hl Hp; cbn; [now exists L, A, W|]. apply NoDup_cons in Nd as [Nt Nd].
  assert (Hw : W t = WIo) by (apply Hl, elem_of_cons; now left). pose proof (i_tasks _ _ _ _ _ _ _ _ I t) as T. rewrite Hw in T. unfold task_ok in T. destruct (tasks s !! t) as [sl|] eqn:Et; [|now destruct T]. destruct T as ((T1 & T2 & T3) & [n T4] & _).
  assert (I1 : inv s tr L A [] (upd W t (WOut [] [])) [] None).
  { apply inv_eta, (detach s tr L A [] W (WOut [] []) [] [] None None t (ready s) (chans s) (timers s) (awaiters s)); try done.
    - left. now rewrite Hw.
    - symmetry. apply (no_ready W); [now destruct I|now rewrite Hw].
    - intros ch. destruct (chans s !! ch) as [c|] eqn:Ec; [|done]. split.
      + cbn. symmetry. apply keep_out. destruct (i_recv _ _ _ _ _ _ _ _ I ch c Ec) as [_ K]. cbn in K. rewrite K, Hw. apply not_elem_of_nil.
      + symmetry. apply keep_fst_out. intros v. destruct (i_send _ _ _ _ _ _ _ _ I ch c Ec) as [_ K]. rewrite K, Hw. done.
    - intros tm. split; [|tauto]. intros H. split; [done|]. apply (no_timers W (timers s) [] _ _); [now destruct I|now rewrite Hw|done].
    - intros tm H. now left.
    - apply (no_await W); [now destruct I|now rewrite Hw]. }
  apply (IH _ tr L A (upd (upd W t (WOut [] [])) t WReady)); try done.
  - refine (attach_ready s tr L A [] _ [] None t [] [] (fun sl => with_tst sl Ready) sl I1 (upd_same _ _ _) Et _ _ _ _ _ _); try done; rewrite T4; done.
  - intros x. destruct (decide (x = t)) as [->|N]; [now rewrite upd_same|]. rewrite !upd_other by done. apply Hs.
  - intros x H. assert (N : x <> t) by congruence. rewrite !upd_other by done. apply Hl, elem_of_cons. now right.
Qed.
Lemma wake_io_ok s tr : good s tr -> good (wake_io s) tr.
Proof.
  intros (L & A & W & I & Hs & Hp). unfold wake_io. apply (wake_io_fold _ s tr L A W); try done.
  - apply keep_NoDup. apply NoDup_ListNoDup, seq_NoDup.
  - intros t H. rewrite elem_of_list_In, filter_In in H. destruct H as [_ H]. pose proof (i_tasks _ _ _ _ _ _ _ _ I t) as T. pose proof (Hs t) as Ho. unfold task_ok in T. destruct (tasks s !! t) as [sl|]; [|done]. destruct T as [T _]. destruct (tst sl) eqn:E; try done. destruct (W t); cbn in T, Ho; try done; exfalso; try congruence; destruct T; congruence.
Qed.
Lemma call_ok p cfg s c tr a s' c' es : good s tr -> do_call p cfg (s, c) a = Some (s', c', es) -> fair es -> good s' (tr ++ es).
Proof.
  intros G H Hf. destruct a as [b m|cap| |]; cbn [do_call fst snd] in H.
  - injection H as <- <- <-. rewrite app_nil_r. destruct G as (L & A & W & I & Hs & Hp). exists L, A, (upd W (next_id s) WReady). split; [now apply inv_spawn|]. split; [|done]. intros x. destruct (decide (x = next_id s)) as [->|N]; [now rewrite upd_same|]. rewrite upd_other by done. apply Hs.
  - injection H as <- <- <-. rewrite app_nil_r. destruct G as (L & A & W & I & Hs & [Pi Pf]). exists L, A, W. split; [now apply inv_add_chan|]. split; [done|]. destruct (i_ids _ _ _ _ _ _ _ _ I (next_id s)) as [D _]. destruct D as [D1 D2]; [lia|]. split; cbn.
    + apply idle_chan; [done|]. split; [done|]. split; [done|]. cbn. destruct cap; [cbn; lia|done].
    + intros x. specialize (Pf x). destruct (decide (x = next_id s)) as [->|N]; [|now rewrite lookup_insert_ne by congruence]. rewrite lookup_insert. rewrite D2 in Pf. destruct Pf as [-> ->]. done.
  - destruct (poll_once p cfg (s, c)) as [[[[s1 c1] o] oe]|] eqn:E; [|done]. cbn in H. injection H as <- <- <-. now apply (poll_ok p cfg s c tr s1 c1 o oe).
  - injection H as <- <- <-. rewrite app_nil_r. now apply wake_io_ok.
Qed.
Lemma exec_ok p cfg cs : forall s c tr s' c' es, good s tr -> exec p cfg (s, c) cs = Some (s', c', es) -> fair es -> good s' (tr ++ es).
Proof.
  induction cs as [|a cs IH]; intros s c tr s' c' es G H Hf; cbn [exec] in H.
  - injection H as <- <- <-. now rewrite app_nil_r.
  - destruct (do_call p cfg (s, c) a) as [[[s1 c1] e1]|] eqn:E1; [|done]. cbn in H. destruct (exec p cfg (s1, c1) cs) as [[[s2 c2] e2]|] eqn:E2; [|done]. cbn in H. injection H as <- <- <-. rewrite app_assoc. apply (IH s1 c1 _ s2 c2 e2); [|done|].
    + apply (call_ok p cfg s c tr a s1 c1 e1); [done..|]. intros e He. apply Hf, elem_of_app. now left.
    + intros e He. apply Hf, elem_of_app. now right.
Qed.
Lemma good_new : good (@new_core B) [].
Proof. exists [], [], (fun _ => WNone). split; [apply inv_new|]. split; [done|]. split; [done|]. intros ch. cbn. now rewrite lookup_empty. Qed.
Theorem exec_good p cfg cs c s' c' es : exec p cfg (new_core, c) cs = Some (s', c', es) -> fair es -> good s' es.
Proof. intros H Hf. apply (exec_ok p cfg cs new_core c [] s' c' es); [apply good_new|done..]. Qed.
End Step.
