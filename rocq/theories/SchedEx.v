(** Concrete schedules: every theorem about the scheduler is used on one, and the claims that do not hold
    are refuted by others. *)
From Coq Require Import NArith List Lia.
From stdpp Require Import list gmap.
From Verif Require Import SchedModel SchedInv SchedOps SchedStep SchedReplay SchedGrow SchedProps SchedTime.
Open Scope nat_scope.
(** Task bodies that follow a script: a script's number and a position in it. *)
Notation bod := (nat * nat)%type.
Definition scripted (ps : list (list (ctx -> step bod))) : program bod :=
  Program _ (fun b k => ((fst b, S (snd b)), nth (snd b) (nth (fst b) ps []) (fun _ => Exit Nothing) k)) (fun b => N.of_nat (fst b)).
Definition say (st : step bod) : ctx -> step bod := fun _ => st.

(** Two channels, 0 and 1, each for one message; a main task 2 and two others, 3 and 4; random picks. *)
Definition ps : list (list (ctx -> step bod)) :=
  [ [say (Select [ARecv 1; ARecv 0; ATimeout 50]); say (Recv 0); say (Await 3); say (Recv 1); say (Select [ARecv 0; ATimeout 6]); say (NewChan (Some 2)); fun k => match new_chan k with Some n => Send n (PVal 1) | None => Yield end; fun k => Exit (resumed_with k)];
    [say (Send 0 (PVal 7)); say (Send 0 (PVal 8)); say (Sleep 3); say (Exit (PVal 42))];
    [say (TrySend 1 (PVal 9)); say (TrySend 1 (PVal 10)); say (TryRecv 1); say (Sleep 4); say (Spawn (3, 0)); fun k => match spawned k with Some n => Abort n | None => Yield end; say (Close 1); say (Exit Nothing)];
    [say (Recv 0); say (Exit (PVal 1))] ].
Definition p := scripted ps.
Definition cfg := Config Random 4.
Definition setup : list (call bod) := [CNewChan (Some 1); CNewChan (Some 1); CSpawn (0, 0) true; CSpawn (1, 0) false; CSpawn (2, 0) false].
Definition polls n : list (call bod) := repeat CPoll n.

(** The state, the decisions and the polls after some calls. *)
Definition result p cfg c0 (cs : list (call bod)) := default (new_core, c0, []) (exec p cfg (new_core, c0) cs).
Definition fairb (es : list (event bod)) : bool := forallb (fun e => match estep e with Select arms => bool_decide (NoDup (recv_chans arms)) | Abort x => negb (x =? etid e) | _ => true end) es.
Lemma fairb_ok es : fairb es = true -> fair es.
Proof.
  intros H e He. unfold fairb in H. rewrite forallb_forall in H. specialize (H e ltac:(now apply elem_of_list_In)). unfold fair_step. destruct (estep e); try done.
  - now apply bool_decide_eq_true in H.
  - apply negb_true_iff, Nat.eqb_neq in H. done.
Qed.
Lemma ran_ok p cfg c0 cs : match exec p cfg (new_core, c0) cs with Some r => fairb (snd r) | None => false end = true ->
  exec p cfg (new_core, c0) cs = Some (result p cfg c0 cs) /\ run p cfg c0 cs (fst (fst (result p cfg c0 cs))) (snd (fst (result p cfg c0 cs))) (snd (result p cfg c0 cs)).
Proof. unfold result, run. destruct (exec p cfg (new_core, c0) cs) as [[[s c] es]|]; [|done]. cbn. intros H. split; [done|]. split; [done|]. now apply fairb_ok. Qed.
Notation calls n := (setup ++ polls n).
Definition seed : chooser := Record 5 [].
Definition res n := result p cfg seed (calls n).
Definition st n : core bod := fst (fst (res n)).
Definition ch n : chooser := snd (fst (res n)).
Definition evs n : list (event bod) := snd (res n).
Lemma ran n : match exec p cfg (new_core, seed) (calls n) with Some r => fairb (snd r) | None => false end = true -> run p cfg seed (calls n) (st n) (ch n) (evs n).
Proof. intros H. now apply (ran_ok p cfg seed (calls n)). Qed.
Lemma exec_res n : match exec p cfg (new_core, seed) (calls n) with Some r => fairb (snd r) | None => false end = true -> exec p cfg (new_core, seed) (calls n) = Some (st n, ch n, evs n).
Proof. intros H. unfold st, ch, evs. destruct (ran_ok p cfg seed (calls n) H) as [-> _]. unfold res. now destruct (result _ _ _ _) as [[? ?] ?]. Qed.
Opaque st ch evs res result.
Ltac go := vm_compute; reflexivity.
(** Splits the polls at one of them. *)
Lemma cut (es : list (event bod)) k e : es !! k = Some e -> es = take k es ++ e :: drop (S k) es.
Proof. intros H. symmetry. now apply take_drop_middle. Qed.

(** ** Replay *)
Notation tr := (into_trace (ch 40)).
Example C16_replay_ex : length tr = 20 /\ exec p cfg (new_core, Replay tr 0) (calls 40) = Some (st 40, Replay tr 20, evs 40).
Proof. split; [go|]. pose proof (C16_replay p cfg 5 (calls 40) (st 40) (ch 40) (evs 40) ltac:(apply exec_res; go)) as H.  replace (length tr) with 20 in H by go. exact H. Qed.
(** Another seed decides otherwise, and the trace is not the same. *)
Example C16_other_seed : evs 40 <> snd (result p cfg (Record 6 []) (calls 40)).
Proof. vm_compute. congruence. Qed.
Example C16_replay_run_ex : exists s' c' es' c1, run_slice p cfg 40 (st 0, ch 0) = Some (s', c', Some (Done Nothing), es') /\ exec p cfg (new_core, Replay (into_trace c') 0) setup = Some (st 0, c1, []) /\
  run_slice p cfg 40 (st 0, c1) = Some (s', Replay (into_trace c') (length (into_trace c')), Some (Done Nothing), es').
Proof.
  assert (H : (r ← run_slice p cfg 40 (st 0, ch 0); snd (fst r)) = Some (Done Nothing)) by go. destruct (run_slice p cfg 40 (st 0, ch 0)) as [[[[s' c'] o] es']|] eqn:E; [|discriminate H].
  assert (o = Some (Done Nothing)) as ->. { exact H. } clear H.
  pose proof (exec_res 0 ltac:(go)) as E0. change (calls 0) with (setup ++ []) in E0. rewrite app_nil_r in E0. destruct (C16_replay_run p cfg 5 setup 40 _ _ _ _ _ _ _ E0 E) as (c1 & H1 & H2). exists s', c', es', c1. split; [done|]. split; [exact H1|exact H2].
Qed.
Example C16_truncated_ex : exec p cfg (new_core, Replay (take 12 tr) 0) (calls 40) = None.
Proof. apply (C16_truncated p cfg 5 (calls 40) (st 40) (ch 40) (evs 40) 12); [apply exec_res; go|].  replace (length tr) with 20 by go. lia. Qed.
Example C16_divergence_ex : choose_among (Replay tr 3) TaskPick 3 = None /\ choose_among (Replay tr 3) SelectWinner 2 = None /\ choose_among (Replay tr 3) TaskPick 2 = Some (1, Replay tr 4).
Proof. split; [|split; [|go]]; apply (C16_divergence tr 3 _ _ (Choice TaskPick 2 1)); [go|right; done|go|left; done]. Qed.

(** ** Slices *)
Example C17_slices_ex : slices p cfg [3; 0; 5; 1; 31] (st 0, ch 0) = run_slice p cfg 40 (st 0, ch 0) /\ (r ← run_slice p cfg 40 (st 0, ch 0); snd (fst r)) = Some (Done Nothing).
Proof. split; [apply (C17_slices p cfg [3; 0; 5; 1; 31])|go]. Qed.
Example C17_stable_ex : exists sc, run_slice p cfg 30 (st 0, ch 0) = Some (sc, Some (Done Nothing), evs 40) /\ run_slice p cfg 1000 (st 0, ch 0) = Some (sc, Some (Done Nothing), evs 40) /\ run_slice p cfg 7 sc = Some (sc, Some (Done Nothing), []).
Proof.
  assert (H : option_map (fun r => (snd (fst r), snd r)) (run_slice p cfg 30 (st 0, ch 0)) = Some (Some (Done Nothing), evs 40)) by go. destruct (run_slice p cfg 30 (st 0, ch 0)) as [[[sc o] es]|] eqn:E; [|discriminate H].
  assert (o = Some (Done Nothing) /\ es = evs 40) as [-> ->]. { cbn in H. apply (inj Some), pair_equal_spec in H as [H1 H2]. split; assumption. } clear H.
  exists sc. split; [reflexivity|]. split; [apply (C17_stable p cfg 30 (st 0, ch 0) sc _ _ 1000 E); lia|apply (C17_stable p cfg 30 (st 0, ch 0) sc _ _ 7 E); lia].
Qed.
Example C17_agree_ex : (r ← slices p cfg [3; 40] (st 0, ch 0); snd (fst r)) = (r ← slices p cfg [17; 2; 30; 9] (st 0, ch 0); snd (fst r)).
Proof.
  assert (Ha : option_map (fun r => match snd (fst r) with Some _ => true | None => false end) (slices p cfg [3; 40] (st 0, ch 0)) = Some true) by go. assert (Hb : option_map (fun r => match snd (fst r) with Some _ => true | None => false end) (slices p cfg [17; 2; 30; 9] (st 0, ch 0)) = Some true) by go.
  destruct (slices p cfg [3; 40] (st 0, ch 0)) as [[[a [oa|]] ea]|] eqn:Ea; [|discriminate Ha..]. destruct (slices p cfg [17; 2; 30; 9] (st 0, ch 0)) as [[[b [ob|]] eb]|] eqn:Eb; [|discriminate Hb..].
  destruct (C17_agree p cfg _ _ _ _ _ _ _ _ _ Ea Eb) as (_ & K & _). cbn. now rewrite K.
Qed.

(** ** Channels *)
Example C18_once_in_order_ex : run p cfg seed (calls 40) (st 40) (ch 40) (evs 40) /\ received (evs 40) 2 = [(0, PVal 7); (0, PVal 8); (1, Nothing)] /\ received (evs 40) 4 = [(1, PVal 9)] /\ tries (evs 40) 4 = [true; false] /\
  offers (evs 40) = [(4, 1, PVal 9, true); (3, 0, PVal 7, false); (3, 0, PVal 8, false); (4, 1, PVal 10, true); (2, 6, PVal 1, false)].
Proof. split; [apply ran; go|]. split; [go|]. split; [go|]. split; go. Qed.
Example C18_capacity_ex : run p cfg seed (calls 3) (st 3) (ch 3) (evs 3) /\ option_map (fun c => (capacity c, queue c, senders c)) (chans (st 3) !! 0) = Some (Some 1, [PVal 7], [(3, PVal 8)]).
Proof. split; [apply ran; go|go]. Qed.
Example C18_from_channel_ex : exists a e b, evs 40 = a ++ e :: b /\ last_req a (etid e) = Some (Recv 0, 5) /\ resumed_with (ectx e) = PVal 8 /\ offered (evs 40) 0 (PVal 8).
Proof.
  exists (take 9 (evs 40)), (Event 2 (Ctx (PVal 8) None None None) (Await 3) 5), (drop 10 (evs 40)). assert (H1 : evs 40 = take 9 (evs 40) ++ Event 2 (Ctx (PVal 8) None None None) (Await 3) 5 :: drop 10 (evs 40)) by (apply (cut (evs 40) 9); go).
  assert (H2 : last_req (take 9 (evs 40)) 2 = Some (Recv 0, 5)) by go. split; [exact H1|]. split; [exact H2|]. split; [reflexivity|]. assert (R : run p cfg seed (calls 40) (st 40) (ch 40) (evs 40)) by (apply ran; go). destruct (C18_from_channel_partial p cfg _ _ _ _ _ _ _ _ _ _ R H1 H2) as [K|[K _]]; [exact K|discriminate].
Qed.

(** ** Waiting, and what is reported *)
Example C19_ready_ex : run p cfg seed (calls 5) (st 5) (ch 5) (evs 5) /\ ready (st 5) = [2; 4] /\ option_map tst (tasks (st 5) !! 3) = Some BlockedSend.
Proof. split; [apply ran; go|]. split; go. Qed.
Example C19_waiting_ex : exists sl, tasks (st 5) !! 3 = Some sl /\ waiting (st 5) (evs 5) 3 sl /\ tst sl = BlockedSend.
Proof.
  assert (H : option_map tst (tasks (st 5) !! 3) = Some BlockedSend) by go. destruct (tasks (st 5) !! 3) as [sl|] eqn:E; [|discriminate H]. exists sl. split; [reflexivity|]. split; [apply (C19_waiting_partial p cfg seed (calls 5) _ (ch 5)); [apply ran; go|exact E]|]. now injection H.
Qed.
Example C19_registered_ex : run p cfg seed (calls 16) (st 16) (ch 16) (evs 16) /\ option_map receivers (chans (st 13) !! 1) = Some [2] /\ timers (st 13) = [Timer 4 4 None] /\ (2 ∈ default [] (awaiters (st 10) !! 3)).
Proof. split; [apply ran; go|]. split; [go|]. split; [go|]. vm_compute. apply elem_of_list_singleton. done. Qed.
Example C19_outcome_ex : exists s' c', poll_once p cfg (st 40, ch 40) = Some (s', c', Some (Done Nothing), None) /\ forall t sl, tasks (st 40) !! t = Some sl -> tst sl = Finished.
Proof.
  assert (H : option_map (fun r => (snd (fst r), snd r)) (poll_once p cfg (st 40, ch 40)) = Some (Some (Done Nothing), None)) by go. destruct (poll_once p cfg (st 40, ch 40)) as [[[[s' c'] o] oe]|] eqn:E; [|discriminate H].
  assert (o = Some (Done Nothing) /\ oe = None) as [-> ->]. { cbn in H. apply (inj Some), pair_equal_spec in H as [H1 H2]. split; assumption. } clear H.
  exists s', c'. split; [reflexivity|]. assert (R : run p cfg seed (calls 40) (st 40) (ch 40) (evs 40)) by (apply ran; go). pose proof (C19_outcome_partial p cfg _ _ _ _ _ _ _ _ _ R E) as [_ K]. cbn in K. apply K.
Qed.
(** Two tasks each waiting for the other's message, a third for one of them. *)
Definition dp := scripted [ [say (Recv 0); say (Send 1 (PVal 1))]; [say (Select [ARecv 1]); say (Send 0 (PVal 2))]; [say (Await 2)] ].
Definition dcalls : list (call bod) := [CNewChan None; CNewChan (Some 1); CSpawn (0, 0) true; CSpawn (1, 0) false; CSpawn (2, 0) false] ++ polls 3.
Definition dres := result dp (Config Fifo 1) seed dcalls.
Example C19_deadlock_ex : exists s' c', poll_once dp (Config Fifo 1) (fst dres) = Some (s', c', Some Deadlock, None) /\ run dp (Config Fifo 1) seed dcalls (fst (fst dres)) (snd (fst dres)) (snd dres) /\ map estep (snd dres) = [Recv 0; Select [ARecv 1]; Await 2].
Proof.
  assert (H : option_map (fun r => (snd (fst r), snd r)) (poll_once dp (Config Fifo 1) (fst dres)) = Some (Some Deadlock, None)) by go. destruct (poll_once dp (Config Fifo 1) (fst dres)) as [[[[s' c'] o] oe]|] eqn:E; [|discriminate H].
  assert (o = Some Deadlock /\ oe = None) as [-> ->]. { cbn in H. apply (inj Some), pair_equal_spec in H as [H1 H2]. split; assumption. } clear H.
  exists s', c'. split; [reflexivity|]. split; [|go]. apply (ran_ok dp (Config Fifo 1) seed dcalls). go.
Qed.
Example C19_no_panic_ex : is_Some (poll_once p cfg (st 2, ch 2)) /\ ready (st 2) = [2; 4; 3].
Proof.
  split; [|go]. apply (C19_no_panic_partial p cfg 5%N [] (calls 2) _ _ (evs 2)); [apply ran; go|]. intros t sl Et Q.
  assert (R : run p cfg seed (calls 2) (st 2) (ch 2) (evs 2)) by (apply ran; go). assert (K : t ∈ ready (st 2)) by exact (proj2 (proj2 (C19_ready_partial p cfg _ _ _ _ _ R) t) (ex_intro _ sl (conj Et Q))). replace (ready (st 2)) with [2; 4; 3] in K by go.
  assert (H : forall x, x ∈ [2; 4; 3] -> match tasks (st 2) !! x with Some sl => match snd (poll p (body sl) (ctx_of sl)) with Select arms => arms = [ARecv 1; ARecv 0; ATimeout 50] | TrySend c _ | Send c _ => c < 2 | _ => False end | None => False end). { intros x Hx. rewrite !elem_of_cons, elem_of_nil in Hx. destruct Hx as [-> |[-> |[-> |[]]]]; vm_compute; (reflexivity || lia). }
  specialize (H t K). rewrite Et in H. assert (C : forall c, c < 2 -> is_Some (chans (st 2) !! c)). { intros c Hc. destruct c as [|[|c]]; [| |lia]; vm_compute; now eexists. }
  clear Et Q K R. revert H C. unfold knows. generalize (chans (st 2)). intros m. generalize (snd (poll p (body sl) (ctx_of sl))). intros x H C. destruct x; try (exfalso; exact H); [now apply C..|]. subst. intros c Hc. rewrite !elem_of_cons, elem_of_nil in Hc. destruct Hc as [[= ->]|[[= ->]|[Hc|[]]]]; [apply C; lia..|discriminate].
Qed.

(** ** Select *)
Example C20_one_arm_ex : exists a e b arms n, evs 40 = a ++ e :: b /\ last_req a (etid e) = Some (Select arms, n) /\ selected (ectx e) = Some 1 /\ arms !! 1 = Some (ARecv 0) /\ offered (evs 40) 0 (resumed_with (ectx e)).
Proof.
  set (e := Event 2 (Ctx (PVal 7) (Some 1) None None) (Recv 0) 5 : event bod). assert (H1 : evs 40 = take 7 (evs 40) ++ e :: drop 8 (evs 40)) by (apply (cut (evs 40) 7); go). assert (H2 : last_req (take 7 (evs 40)) (etid e) = Some (Select [ARecv 1; ARecv 0; ATimeout 50], 5)) by go.
  exists (take 7 (evs 40)), e, (drop 8 (evs 40)), [ARecv 1; ARecv 0; ATimeout 50], 5. split; [exact H1|]. split; [exact H2|]. split; [reflexivity|]. split; [reflexivity|]. assert (R : run p cfg seed (calls 40) (st 40) (ch 40) (evs 40)) by (apply ran; go).
  destruct (C20_one_arm_partial p cfg _ _ _ _ _ _ _ _ _ _ R H1 H2) as (i & [= <-] & [(c & [= <-] & [K|[K _]])|(d & K & _)]); [exact K|discriminate|discriminate].
Qed.
(** A timeout: arm 1 again, but nothing is delivered. *)
Example C20_timeout_ex : option_map (fun e => (last_req (take 17 (evs 40)) (etid e), ectx e)) (evs 40 !! 17) = Some (Some (Select [ARecv 0; ATimeout 6], 6), Ctx Nothing (Some 1) None None).
Proof. go. Qed.
Example C20_only_selects_ex : exists arms n, last_req (take 7 (evs 40)) 2 = Some (Select arms, n).
Proof.
  set (e := Event 2 (Ctx (PVal 7) (Some 1) None None) (Recv 0) 5 : event bod). assert (H1 : evs 40 = take 7 (evs 40) ++ e :: drop 8 (evs 40)) by (apply (cut (evs 40) 7); go). assert (R : run p cfg seed (calls 40) (st 40) (ch 40) (evs 40)) by (apply ran; go). apply (C20_only_selects_partial p cfg _ _ _ _ _ _ e _ R H1). cbn. now eexists.
Qed.
(** After seven polls the main task has been answered on channel 0: channel 1 and the timer have forgotten it. *)
Example C20_deregistered_ex : run p cfg seed (calls 7) (st 7) (ch 7) (evs 7) /\ option_map tst (tasks (st 7) !! 2) = Some Ready /\ option_map receivers (chans (st 7) !! 1) = Some [].
Proof. split; [apply ran; go|]. split; go. Qed.

(** ** Await *)
Example C21_result_ex : exists a e b, evs 40 = a ++ e :: b /\ last_req a (etid e) = Some (Await 3, 5) /\ resumed_with (ectx e) = PVal 42 /\ exited (evs 40) 3 (PVal 42).
Proof.
  set (e := Event 2 (Ctx (PVal 42) None None None) (Recv 1) 5 : event bod). assert (H1 : evs 40 = take 11 (evs 40) ++ e :: drop 12 (evs 40)) by (apply (cut (evs 40) 11); go). assert (H2 : last_req (take 11 (evs 40)) (etid e) = Some (Await 3, 5)) by go.
  exists (take 11 (evs 40)), e, (drop 12 (evs 40)). split; [exact H1|]. split; [exact H2|]. split; [reflexivity|]. assert (R : run p cfg seed (calls 40) (st 40) (ch 40) (evs 40)) by (apply ran; go).
  destruct (C21_result_partial p cfg _ _ _ _ _ _ _ _ _ _ R H1 H2 ltac:(lia)) as [K|[K _]]; [vm_compute; now eexists|exact K|discriminate].
Qed.
Example C21_ended_ex : exists a e b, evs 40 = a ++ e :: b /\ estep e = Abort 5 /\ 5 < eids e /\ length b = 6 /\ (forall e', e' ∈ b -> etid e' <> 5) /\ results (st 40) !! 5 = Some Aborted.
Proof.
  set (e := Event 4 (Ctx Nothing None None (Some 5)) (Abort 5) 6 : event bod). assert (H1 : evs 40 = take 13 (evs 40) ++ e :: drop 14 (evs 40)) by (apply (cut (evs 40) 13); go). exists (take 13 (evs 40)), e, (drop 14 (evs 40)).
  split; [exact H1|]. split; [reflexivity|]. split; [cbn; lia|]. split; [go|]. split; [|go]. intros e' He'. assert (R : run p cfg seed (calls 40) (st 40) (ch 40) (evs 40)) by (apply ran; go). apply (C21_ended_partial p cfg _ _ _ _ _ _ _ _ _ R H1 He'). cbn. lia.
Qed.
Example C21_exit_once_ex : forall v, exited (evs 40) 3 v -> v = PVal 42.
Proof.
  intros v H. apply (C21_exit_once_partial p cfg seed (calls 40) (st 40) (ch 40) (evs 40) 3 v (PVal 42)); [apply ran; go|exact H|]. exists (Ctx Nothing None None None), 5. apply elem_of_list_lookup. exists 10. go.
Qed.
Example C21_results_ex : results (st 40) !! 3 = Some (Completed (PVal 42)) /\ exited (evs 40) 3 (PVal 42).
Proof. split; [go|]. pose proof (C21_results_partial p cfg seed (calls 40) (st 40) (ch 40) (evs 40) 3 ltac:(apply ran; go)) as H. replace (results (st 40) !! 3) with (Some (Completed (PVal 42))) in H by go. exact H. Qed.

(** ** Time *)
Example C56_advance_ex : exists s' c', poll_once p cfg (st 10, ch 10) = Some (s', c', None, None) /\ clock (st 10) = 0%N /\ clock s' = 3%N /\ ready s' = [3] /\ timers (st 10) = [Timer 4 4 None; Timer 3 3 None] /\ timers s' = [Timer 4 4 None].
Proof.
  assert (H : option_map (fun r => (snd (fst r), snd r, clock (fst (fst (fst r))), ready (fst (fst (fst r))), timers (fst (fst (fst r))))) (poll_once p cfg (st 10, ch 10)) = Some (None, None, 3%N, [3], [Timer 4 4 None])) by go. destruct (poll_once p cfg (st 10, ch 10)) as [[[[s' c'] o] oe]|]; [|discriminate H]. cbn in H. injection H as -> -> H1 H2 H3. exists s', c'. split; [reflexivity|]. split; [go|]. split; [exact H1|]. split; [exact H2|]. split; [go|exact H3].
Qed.
Example C56_request_ex : exists s' c' e, poll_once p cfg (st 18, ch 18) = Some (s', c', None, Some e) /\ estep e = Select [ARecv 0; ATimeout 6] /\ clock (st 18) = 4%N /\ timers s' = [Timer 10 2 (Some 1)].
Proof.
  assert (H : option_map (fun r => (snd (fst r), option_map estep (snd r), timers (fst (fst (fst r))))) (poll_once p cfg (st 18, ch 18)) = Some (None, Some (Select [ARecv 0; ATimeout 6]), [Timer 10 2 (Some 1)])) by go. destruct (poll_once p cfg (st 18, ch 18)) as [[[[s' c'] o] oe]|]; [|discriminate]. cbn in H. destruct oe as [e|]; [|discriminate]. cbn in H. injection H as -> H2 H3. exists s', c', e. split; [reflexivity|]. split; [exact H2|]. split; [go|exact H3].
Qed.
Example C56_forward_ex : total (evs 40) = 63%N /\ clock (st 12) = 3%N /\ clock (st 40) = 10%N.
Proof. split; [go|]. split; go. Qed.

(** ** What does not hold *)
(** A select naming channel 0 twice: answered once, it stays registered there, and the next message of
    channel 0 is delivered to the task while it waits for channel 1. *)
Definition qp := scripted [ [say (Select [ARecv 0; ARecv 0]); say (Recv 1); fun k => Exit (resumed_with k)]; [say (Send 0 (PVal 1)); say (Send 0 (PVal 2)); say (Exit Nothing)] ].
Definition qcalls : list (call bod) := [CNewChan (Some 1); CNewChan (Some 1); CSpawn (0, 0) true; CSpawn (1, 0) false] ++ polls 9.
Lemma result_ok p cfg c0 cs : match exec p cfg (new_core, c0) cs with Some _ => true | None => false end = true -> exec p cfg (new_core, c0) cs = Some (fst (fst (result p cfg c0 cs)), snd (fst (result p cfg c0 cs)), snd (result p cfg c0 cs)).
Proof. Transparent result. unfold result. Opaque result. destruct (exec p cfg (new_core, c0) cs) as [[[s c] es]|]; done. Qed.
Theorem C18_from_channel_refuted : exists (p : program bod) cfg c0 cs s c es a e b n,
  exec p cfg (new_core, c0) cs = Some (s, c, es) /\ es = a ++ e :: b /\ last_req a (etid e) = Some (Recv 1, n) /\ resumed_with (ectx e) = PVal 2 /\ (forall v, ~ offered es 1 v) /\ ~ closed_in es 1 /\ offered es 0 (PVal 2).
Proof.
  pose proof (result_ok qp (Config Fifo 1) seed qcalls ltac:(go)) as H. assert (E : snd (result qp (Config Fifo 1) seed qcalls) = [Event 2 ctx0 (Select [ARecv 0; ARecv 0]) 4; Event 3 ctx0 (Send 0 (PVal 1)) 4; Event 2 (Ctx (PVal 1) (Some 0) None None) (Recv 1) 4; Event 3 ctx0 (Send 0 (PVal 2)) 4; Event 2 (Ctx (PVal 2) None None None) (Exit (PVal 2)) 4; Event 3 ctx0 (Exit Nothing) 4]) by go. rewrite E in H.
  eexists qp, (Config Fifo 1), seed, qcalls, _, _, _, [_; _; _; _], _, [_], 4. split; [exact H|]. split; [reflexivity|]. split; [reflexivity|]. split; [reflexivity|]. split; [|split].
  - intros v (t & b & K). apply elem_of_list_In in K. cbn in K. intuition congruence.
  - intros (t & k & n & K). apply elem_of_list_In in K. cbn in K. intuition congruence.
  - exists 3, false. apply elem_of_list_In. cbn. tauto.
Qed.
(** If it waits in another select by then, the scheduler panics, although every channel named exists. *)
Definition qp2 := scripted [ [say (Select [ARecv 0; ARecv 0]); say (Select [ARecv 1]); fun k => Exit (resumed_with k)]; [say (Send 0 (PVal 1)); say (Send 0 (PVal 2)); say (Exit Nothing)] ].
Definition qcalls2 : list (call bod) := [CNewChan (Some 1); CNewChan (Some 1); CSpawn (0, 0) true; CSpawn (1, 0) false] ++ polls 3.
Theorem C19_no_panic_refuted : exists (p : program bod) cfg cs s c es, exec p cfg (new_core, Record 5 []) cs = Some (s, c, es) /\ (forall t sl, tasks s !! t = Some sl -> tst sl = Ready -> knows s (snd (poll p (body sl) (ctx_of sl)))) /\ poll_once p cfg (s, c) = None.
Proof.
  pose proof (result_ok qp2 (Config Fifo 1) seed qcalls2 ltac:(go)) as H. exists qp2, (Config Fifo 1), qcalls2. eexists _, _, _. split; [exact H|]. split; [|go].
  assert (C : is_Some (chans (fst (fst (result qp2 (Config Fifo 1) seed qcalls2))) !! 0)) by (vm_compute; now eexists).
  assert (T : map (fun x => (fst x, snd (poll qp2 (body (snd x)) (ctx_of (snd x))), tst (snd x))) (map_to_list (tasks (fst (fst (result qp2 (Config Fifo 1) seed qcalls2))))) = [(3, Send 0 (PVal 2), Ready); (2, Exit Nothing, BlockedSelect)]) by go.
  intros t sl Et Q. apply elem_of_map_to_list, elem_of_list_In in Et. apply (in_map (fun x => (fst x, snd (poll qp2 (body (snd x)) (ctx_of (snd x))), tst (snd x)))) in Et. rewrite T in Et. cbn [fst snd] in Et. rewrite Q in Et. destruct Et as [Et|[Et|[]]]; [|apply (f_equal snd) in Et; cbn [snd] in Et; discriminate]. apply (f_equal (fun x => snd (fst x))) in Et. cbn [fst snd] in Et. rewrite <- Et. exact C.
Qed.
(** While the answered task waits for its turn, the stale registration can make it ready a second time;
    it is then polled even after it has exited. *)
Definition qp3 := scripted [ [say (Select [ARecv 0; ARecv 0]); fun k => Exit (resumed_with k); say (Exit (PVal 77))]; [say (Send 0 (PVal 1)); say (Send 0 (PVal 2)); say (Exit Nothing)] ].
Definition qcalls3 n : list (call bod) := [CNewChan (Some 1); CSpawn (1, 0) false; CSpawn (0, 0) true] ++ polls n.
Theorem C19_ready_refuted : exists (p : program bod) cfg c0 cs s c es, exec p cfg (new_core, c0) cs = Some (s, c, es) /\ ready s = [2; 2; 1].
Proof. pose proof (result_ok qp3 (Config Lifo 1) seed (qcalls3 3) ltac:(go)) as H. exists qp3, (Config Lifo 1), seed, (qcalls3 3). eexists _, _, _. split; [exact H|]. go. Qed.
Theorem C21_exit_once_refuted : exists (p : program bod) cfg c0 cs s c es x v w, exec p cfg (new_core, c0) cs = Some (s, c, es) /\ exited es x v /\ exited es x w /\ v <> w.
Proof.
  pose proof (result_ok qp3 (Config Lifo 1) seed (qcalls3 9) ltac:(go)) as H. exists qp3, (Config Lifo 1), seed, (qcalls3 9). eexists _, _, _, 2, (PVal 2), (PVal 77). split; [exact H|].
  split; [exists (Ctx (PVal 2) (Some 0) None None), 3; apply elem_of_list_lookup; exists 4; go|]. split; [exists ctx0, 3; apply elem_of_list_lookup; exists 5; go|done].
Qed.
(** A task that aborts itself goes on all the same; the result recorded is the later one. *)
Definition ap := scripted [ [say (Abort 0); say (Exit (PVal 5))] ].
Theorem C21_ended_refuted : exists (p : program bod) cfg c0 cs s c es a e b e', exec p cfg (new_core, c0) cs = Some (s, c, es) /\ es = a ++ e :: b /\ e' ∈ b /\ estep e = Abort 0 /\ 0 < eids e /\ etid e' = 0 /\ results s !! 0 = Some (Completed (PVal 5)).
Proof.
  set (cs := CSpawn (0, 0) true :: polls 4 : list (call bod)). pose proof (result_ok ap (Config Fifo 1) seed cs ltac:(go)) as H. assert (E : snd (result ap (Config Fifo 1) seed cs) = [Event 0 ctx0 (Abort 0) 1; Event 0 ctx0 (Exit (PVal 5)) 1]) by go. rewrite E in H.
  eexists ap, (Config Fifo 1), seed, cs, _, _, _, [], _, _, _. split; [exact H|]. split; [reflexivity|]. split; [apply elem_of_list_singleton; reflexivity|]. split; [reflexivity|]. split; [cbn; lia|]. split; [reflexivity|]. go.
Qed.
(** With delays beyond 2^64 in all, time goes backwards (a debug build panics instead). *)
Definition tp := scripted [ [say (Sleep 10); say (Sleep (2 ^ 64 - 1)); say (Exit (PVal 5))] ].
Theorem C56_forward_refuted : exists (p : program bod) cfg c0 cs cs' s c es s' c' es', exec p cfg (new_core, c0) cs = Some (s, c, es) /\ exec p cfg (s, c) cs' = Some (s', c', es') /\ (clock s' < clock s)%N.
Proof.
  set (cs := CSpawn (0, 0) true :: polls 2 : list (call bod)). pose proof (result_ok tp (Config Fifo 1) seed cs ltac:(go)) as H. set (r := result tp (Config Fifo 1) seed cs) in *. assert (E : option_map (fun r => clock (fst (fst r))) (exec tp (Config Fifo 1) (fst (fst r), snd (fst r)) (polls 2)) = Some 9%N) by go.
  destruct (exec tp (Config Fifo 1) (fst (fst r), snd (fst r)) (polls 2)) as [[[s' c'] es']|] eqn:E2; [|discriminate]. exists tp, (Config Fifo 1), seed, cs, (polls 2), (fst (fst r)), (snd (fst r)), (snd r), s', c', es'. split; [exact H|]. split; [exact E2|]. cbn in E. apply (inj Some) in E. rewrite E. replace (clock (fst (fst r))) with 10%N by go. reflexivity.
Qed.
