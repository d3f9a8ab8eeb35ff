(** Replaying a recorded schedule, and running in slices. *)
From Coq Require Import NArith List Lia.
From stdpp Require Import list gmap.
From Verif Require Import SchedModel.
Open Scope nat_scope.

Section Sim.
Context {B : Type}.
Implicit Types (s : core B).
(** A change of the source of decisions that keeps every decision of a run. [P] is what the run's end
    tells about its decisions, [le] the order in which choosers come up. *)
Variable (g : chooser -> chooser) (P : chooser -> Prop) (le : chooser -> chooser -> Prop).
Hypothesis le_refl : forall c, le c c.
Hypothesis le_trans : forall a b c, le a b -> le b c -> le a c.
Hypothesis P_le : forall a b, le a b -> P b -> P a.
Hypothesis choose_le : forall c k n i c', choose_among c k n = Some (i, c') -> le c c'.
Hypothesis choose_g : forall c k n i c', choose_among c k n = Some (i, c') -> P c' -> choose_among (g c) k n = Some (i, g c').

Lemma select_sim s c t arms s' c' : do_select s c t arms = Some (s', c') -> le c c' /\ (P c' -> do_select s (g c) t arms = Some (s', g c')).
Proof.
  unfold do_select. destruct (ready_arms s arms 0) as [l|]; [|done]. destruct l as [|i1 [|i2 l]].
  - intros [= <- <-]. split; [apply le_refl|done].
  - cbn [mbind option_bind lookup list_lookup]. destruct (arms !! i1) as [[ch|d]|]; [|done..]. destruct (take_one s ch) as [s1 v]. intros [= <- <-]. split; [apply le_refl|done].
  - destruct (choose_among c SelectWinner _) as [[w c1]|] eqn:E; [|done]. cbn [mbind option_bind]. destruct ((i1 :: i2 :: l) !! w) as [i|] eqn:Ei; [|done]. cbn [mbind option_bind]. destruct (arms !! i) as [[ch|d]|] eqn:Ea; [|done..]. destruct (take_one s ch) as [s1 v] eqn:Et. intros [= <- <-]. split; [now apply (choose_le _ _ _ _ _ E)|]. intros Hp. rewrite (choose_g _ _ _ _ _ E Hp). cbn [mbind option_bind]. now rewrite Ei; cbn [mbind option_bind]; rewrite Ea, Et.
Qed.
Lemma shuffle_sim {X} n : forall c (pool l : list X) c', shuffle n c pool = Some (l, c') -> le c c' /\ (P c' -> shuffle n (g c) pool = Some (l, g c')).
Proof.
  induction n as [|n IH]; intros c pool l c'; cbn [shuffle].
  - intros [= <- <-]. split; [apply le_refl|done].
  - destruct (choose_among c TimerTieBreak (length pool)) as [[k c1]|] eqn:E; [|done]. cbn [mbind option_bind]. destruct (pool !! k) as [x|] eqn:Ex; [|done]. cbn [mbind option_bind]. destruct (shuffle n c1 _) as [[l1 c2]|] eqn:El; [|done]. cbn [mbind option_bind]. intros [= <- <-]. destruct (IH _ _ _ _ El) as [H1 H2]. pose proof (choose_le _ _ _ _ _ E) as H3. split; [now apply (le_trans _ c1)|]. intros Hp. rewrite (choose_g _ _ _ _ _ E (P_le _ _ H1 Hp)). cbn [mbind option_bind]. rewrite Ex. cbn [mbind option_bind]. now rewrite (H2 Hp).
Qed.
Lemma advance_sim s c s' c' : advance_timers s c = Some (s', c') -> le c c' /\ (P c' -> advance_timers s (g c) = Some (s', g c')).
Proof.
  unfold advance_timers. destruct (earliest (timers s)) as [e|]; [|intros [= <- <-]; split; [apply le_refl|done]]. destruct (1 <? _).
  - destruct (shuffle _ c _) as [[o c1]|] eqn:E; [|done]. cbn [mbind option_bind]. intros [= <- <-]. destruct (shuffle_sim _ _ _ _ _ E) as [H1 H2]. split; [done|]. intros Hp. now rewrite (H2 Hp).
  - cbn [mbind option_bind]. intros [= <- <-]. split; [apply le_refl|done].
Qed.
Lemma process_sim p cfg s c t st s' c' : process_step p cfg s c t st = Some (s', c') -> le c c' /\ (P c' -> process_step p cfg s (g c) t st = Some (s', g c')).
Proof.
  destruct st; cbn [process_step]; try (intros [= <- <-]; split; [apply le_refl|done]); try done; try (match goal with |- context [mbind _ ?x] => destruct x; [|done]; cbn [mbind option_bind]; intros [= <- <-]; split; [apply le_refl|done] end). apply select_sim.
Qed.
Lemma pick_sim cfg s c o c' : pick_ready cfg s c = Some (o, c') -> le c c' /\ (P c' -> pick_ready cfg s (g c) = Some (o, g c')).
Proof.
  unfold pick_ready. destruct (ready s) as [|t0 l] eqn:Er; [intros [= <- <-]; split; [apply le_refl|done]|]. rewrite <- Er. destruct (cpolicy cfg); try (cbn [mbind option_bind]; match goal with |- context [ready s !! ?i] => destruct (ready s !! i); [|done] end; cbn [mbind option_bind]; intros [= <- <-]; split; [apply le_refl|done]).
  destruct (choose_among c TaskPick _) as [[i c1]|] eqn:E; [|done]. cbn [mbind option_bind]. destruct (ready s !! i) as [t|] eqn:Ei; [|done]. cbn [mbind option_bind]. intros [= <- <-]. split; [now apply (choose_le _ _ _ _ _ E)|]. intros Hp. rewrite (choose_g _ _ _ _ _ E Hp). cbn [mbind option_bind]. now rewrite Ei.
Qed.
Lemma poll_sim p cfg s c s' c' o e : poll_once p cfg (s, c) = Some (s', c', o, e) -> le c c' /\ (P c' -> poll_once p cfg (s, g c) = Some (s', g c', o, e)).
Proof.
  unfold poll_once. destruct (pick_ready cfg s c) as [[pk c1]|] eqn:E; [|done]. cbn [mbind option_bind]. destruct (pick_sim _ _ _ _ _ E) as [H1 H2]. destruct pk as [[t s1]|].
  - destruct (tasks s1 !! t) as [sl|] eqn:Et; [|done]. cbn [mbind option_bind]. destruct (poll p (body sl) (ctx_of sl)) as [b st] eqn:Ep. destruct (process_step p cfg _ c1 t st) as [[s2 c2]|] eqn:E2; [|done]. cbn [mbind option_bind]. intros [= <- <- <- <-]. destruct (process_sim _ _ _ _ _ _ _ _ E2) as [H3 H4]. split; [now apply (le_trans _ c1)|]. intros Hp. rewrite (H2 (P_le _ _ H3 Hp)). cbn [mbind option_bind]. rewrite Et. cbn [mbind option_bind]. rewrite Ep, (H4 Hp). done.
  - destruct (timers s) as [|tm l].
    + intros [= <- <- <- <-]. split; [done|]. intros Hp. now rewrite (H2 Hp).
    + destruct (advance_timers s c1) as [[s2 c2]|] eqn:E2; [|done]. cbn [mbind option_bind]. intros [= <- <- <- <-]. destruct (advance_sim _ _ _ _ E2) as [H3 H4]. split; [now apply (le_trans _ c1)|]. intros Hp. rewrite (H2 (P_le _ _ H3 Hp)). cbn [mbind option_bind]. now rewrite (H4 Hp).
Qed.
Lemma slice_sim p cfg n : forall s c s' c' o es, run_slice p cfg n (s, c) = Some (s', c', o, es) -> le c c' /\ (P c' -> run_slice p cfg n (s, g c) = Some (s', g c', o, es)).
Proof.
  induction n as [|n IH]; intros s c s' c' o es; cbn [run_slice].
  - intros [= <- <- <- <-]. split; [apply le_refl|done].
  - destruct (poll_once p cfg (s, c)) as [[[[s1 c1] o1] e1]|] eqn:E; [|done]. cbn [mbind option_bind]. destruct (poll_sim _ _ _ _ _ _ _ _ E) as [H1 H2]. destruct o1 as [o1|].
    + intros [= <- <- <- <-]. split; [done|]. intros Hp. now rewrite (H2 Hp).
    + destruct (run_slice p cfg n (s1, c1)) as [[[[s2 c2] o2] es2]|] eqn:E2; [|done]. cbn [mbind option_bind]. intros [= <- <- <- <-]. destruct (IH _ _ _ _ _ _ E2) as [H3 H4]. split; [now apply (le_trans _ c1)|]. intros Hp. rewrite (H2 (P_le _ _ H3 Hp)). cbn [mbind option_bind]. now rewrite (H4 Hp).
Qed.
Lemma call_sim p cfg s c a s' c' es : do_call p cfg (s, c) a = Some (s', c', es) -> le c c' /\ (P c' -> do_call p cfg (s, g c) a = Some (s', g c', es)).
Proof.
  destruct a; cbn [do_call fst snd]; try (intros [= <- <- <-]; split; [apply le_refl|done]). destruct (poll_once p cfg (s, c)) as [[[[s1 c1] o1] e1]|] eqn:E; [|done]. cbn [mbind option_bind]. destruct (poll_sim _ _ _ _ _ _ _ _ E) as [H1 H2]. intros [= <- <- <-]. split; [done|]. intros Hp. now rewrite (H2 Hp).
Qed.
Lemma exec_sim p cfg cs : forall s c s' c' es, exec p cfg (s, c) cs = Some (s', c', es) -> le c c' /\ (P c' -> exec p cfg (s, g c) cs = Some (s', g c', es)).
Proof.
  induction cs as [|a cs IH]; intros s c s' c' es; cbn [exec].
  - intros [= <- <- <-]. split; [apply le_refl|done].
  - destruct (do_call p cfg (s, c) a) as [[[s1 c1] e1]|] eqn:E; [|done]. cbn [mbind option_bind]. destruct (call_sim _ _ _ _ _ _ _ _ E) as [H1 H2]. destruct (exec p cfg (s1, c1) cs) as [[[s2 c2] es2]|] eqn:E2; [|done]. cbn [mbind option_bind]. intros [= <- <- <-]. destruct (IH _ _ _ _ _ E2) as [H3 H4]. split; [now apply (le_trans _ c1)|]. intros Hp. rewrite (H2 (P_le _ _ H3 Hp)). cbn [mbind option_bind]. now rewrite (H4 Hp).
Qed.
End Sim.

(** ** From recording to replaying *)
Definition recording (c : chooser) : Prop := match c with Record _ _ => True | Replay _ _ => False end.
Definition le_rec (a b : chooser) : Prop := into_trace a `prefix_of` into_trace b /\ (recording b -> recording a).
Definition as_replay (tr : list choice) (c : chooser) : chooser := Replay tr (length (into_trace c)).
Definition recorded (tr : list choice) (c : chooser) : Prop := recording c /\ into_trace c `prefix_of` tr.
Lemma le_rec_choose c k n i c' : choose_among c k n = Some (i, c') -> le_rec c c'.
Proof.
  unfold choose_among. destruct c as [rng l|tr pos].
  - destruct (rng_below rng n) as [j rng']. intros [= <- <-]. split; [cbn; now apply prefix_app_r|done].
  - destruct (tr !! pos) as [cp|]; [|done]. destruct (_ && _); [|done]. intros [= <- <-]. done.
Qed.
Lemma kind_eqb_refl k : kind_eqb k k = true. Proof. now destruct k. Qed.
Lemma as_replay_choose tr c k n i c' : choose_among c k n = Some (i, c') -> recorded tr c' -> choose_among (as_replay tr c) k n = Some (i, as_replay tr c').
Proof.
  destruct c as [rng l|tr' pos]; cbn [choose_among].
  - destruct (rng_below rng n) as [j rng']. intros [= <- <-] [_ [x ->]]. unfold as_replay. cbn [into_trace choose_among]. rewrite <- app_assoc. cbn [app]. rewrite list_lookup_middle by done. cbn. rewrite kind_eqb_refl, Nat.eqb_refl. cbn. rewrite app_length. cbn. do 3 f_equal. lia.
  - destruct (tr' !! pos) as [cp|]; [|done]. destruct (_ && _); [|done]. now intros [= <- <-] [? _].
Qed.
Lemma le_rec_refl c : le_rec c c. Proof. split; done. Qed.
Lemma le_rec_trans a b c : le_rec a b -> le_rec b c -> le_rec a c.
Proof. intros [H1 H2] [H3 H4]. split; [etrans; eassumption|tauto]. Qed.
Lemma recorded_le tr a b : le_rec a b -> recorded tr b -> recorded tr a.
Proof. intros [H1 H2] [H3 H4]. split; [tauto|etrans; eassumption]. Qed.
(** A longer trace serves as well. *)
Definition longer (x : list choice) (c : chooser) : chooser := match c with Record r l => Record r l | Replay tr pos => Replay (tr ++ x) pos end.
Lemma longer_choose x c k n i c' : choose_among c k n = Some (i, c') -> True -> choose_among (longer x c) k n = Some (i, longer x c').
Proof.
  destruct c as [rng l|tr pos]; cbn.
  - destruct (rng_below rng n) as [j rng']. now intros [= <- <-].
  - destruct (tr !! pos) as [cp|] eqn:E; [|done]. rewrite (lookup_app_l_Some _ _ _ _ E). destruct (_ && _); [|done]. now intros [= <- <-].
Qed.
(** A replay stays within its trace. *)
Definition le_pos (a b : chooser) : Prop := match a, b with Replay t i, Replay t' j => t' = t /\ i <= j /\ (i <= length t -> j <= length t) | Record _ _, Record _ _ => True | _, _ => False end.
Lemma le_pos_choose c k n i c' : choose_among c k n = Some (i, c') -> le_pos c c'.
Proof.
  destruct c as [rng l|tr pos]; cbn.
  - destruct (rng_below rng n) as [j rng']. now intros [= <- <-].
  - destruct (tr !! pos) as [cp|] eqn:E; [|done]. destruct (_ && _); [|done]. intros [= <- <-]. apply lookup_lt_Some in E. cbn. split; [done|]. lia.
Qed.
Lemma le_pos_refl c : le_pos c c. Proof. destruct c; cbn; [done|]. split; [done|]. lia. Qed.
Lemma le_pos_trans a b c : le_pos a b -> le_pos b c -> le_pos a c.
Proof. destruct a, b, c; cbn; try done. intros (-> & H1 & H2) (-> & H3 & H4). split; [done|]. lia. Qed.

(** ** C16 *)
(** Whatever the host does with a seeded scheduler — any tasks, policy, configuration and calls —
    doing the same with the trace recorded gives the same state (task slots, results, channels, timers,
    clock) and the same polls, and uses up the trace. *)
Theorem C16_replay {B} (p : program B) cfg seed cs s c es : exec p cfg (new_core, Record seed []) cs = Some (s, c, es) ->
  exec p cfg (new_core, Replay (into_trace c) 0) cs = Some (s, Replay (into_trace c) (length (into_trace c)), es).
Proof.
  intros H. destruct (exec_sim (as_replay (into_trace c)) (recorded (into_trace c)) le_rec le_rec_refl le_rec_trans (recorded_le _) le_rec_choose (as_replay_choose _) p cfg cs _ _ _ _ _ H) as [[_ H1] H2].
  apply H2. split; [|done]. destruct (exec_sim id (fun _ => True) le_pos le_pos_refl le_pos_trans (fun _ _ _ _ => I) le_pos_choose (fun _ _ _ _ _ H _ => H) p cfg cs _ _ _ _ _ H) as [H3 _]. now destruct c.
Qed.
(** The same for a driving loop that runs until an outcome, which is then the same too. *)
Theorem C16_replay_run {B} (p : program B) cfg seed cs n s c es s' c' o es' : exec p cfg (new_core, Record seed []) cs = Some (s, c, es) -> run_slice p cfg n (s, c) = Some (s', c', o, es') ->
  exists c1, exec p cfg (new_core, Replay (into_trace c') 0) cs = Some (s, c1, es) /\ run_slice p cfg n (s, c1) = Some (s', Replay (into_trace c') (length (into_trace c')), o, es').
Proof.
  intros H K. destruct (slice_sim (as_replay (into_trace c')) (recorded (into_trace c')) le_rec le_rec_refl le_rec_trans (recorded_le _) le_rec_choose (as_replay_choose _) p cfg n _ _ _ _ _ _ K) as [Hle K2].
  assert (Hc : recorded (into_trace c') c').
  { split; [|done]. destruct (exec_sim id (fun _ => True) le_pos le_pos_refl le_pos_trans (fun _ _ _ _ => I) le_pos_choose (fun _ _ _ _ _ H _ => H) p cfg cs _ _ _ _ _ H) as [H3 _]. destruct (slice_sim id (fun _ => True) le_pos le_pos_refl le_pos_trans (fun _ _ _ _ => I) le_pos_choose (fun _ _ _ _ _ H _ => H) p cfg n _ _ _ _ _ _ K) as [K3 _]. now destruct c, c'. }
  destruct (exec_sim (as_replay (into_trace c')) (recorded (into_trace c')) le_rec le_rec_refl le_rec_trans (recorded_le _) le_rec_choose (as_replay_choose _) p cfg cs _ _ _ _ _ H) as [_ H2].
  exists (as_replay (into_trace c') c). split; [apply H2; now apply (recorded_le _ _ c')|now apply K2].
Qed.
(** A trace that ends too early does not get through: the replay panics instead of going its own way. *)
Theorem C16_truncated {B} (p : program B) cfg seed cs s c es k : exec p cfg (new_core, Record seed []) cs = Some (s, c, es) -> k < length (into_trace c) -> exec p cfg (new_core, Replay (take k (into_trace c)) 0) cs = None.
Proof.
  intros H Hk. pose proof (C16_replay _ _ _ _ _ _ _ H) as H1. destruct (exec p cfg (new_core, Replay (take k (into_trace c)) 0) cs) as [[[s2 c2] es2]|] eqn:E; [|done]. exfalso.
  destruct (exec_sim (longer (drop k (into_trace c))) (fun _ => True) le_pos le_pos_refl le_pos_trans (fun _ _ _ _ => I) le_pos_choose (longer_choose _) p cfg cs _ _ _ _ _ E) as [H2 H3]. specialize (H3 I). cbn [longer] in H3. rewrite take_drop in H3. rewrite H1 in H3. injection H3 as _ H3 _. destruct c2 as [|tr pos]; [done|]. cbn in H2, H3. destruct H2 as (-> & _ & H2). injection H3 as _ H3. rewrite take_length in H2. lia.
Qed.
(** Decisions that are not those of the trace stop the replay. *)
Theorem C16_divergence tr pos k n cp : tr !! pos = Some cp -> ckind cp <> k \/ options cp <> n -> choose_among (Replay tr pos) k n = None.
Proof.
  intros E H. cbn. rewrite E. destruct (kind_eqb (ckind cp) k && (options cp =? n)) eqn:Q; [|done]. apply andb_prop in Q as [Q1 Q2]. apply Nat.eqb_eq in Q2. destruct H as [H|H]; [|done]. destruct H. destruct (ckind cp), k; done.
Qed.

(** ** C17 *)
(** Slices of the given sizes, until an outcome. *)
Fixpoint slices {B} (p : program B) (cfg : config) (ns : list nat) (sc : core B * chooser) : option (core B * chooser * option outcome * list (event B)) :=
  match ns with
  | [] => Some (sc, None, [])
  | n :: ns => '(sc, o, e1) ← run_slice p cfg n sc; match o with Some _ => Some (sc, o, e1) | None => '(sc, o, e2) ← slices p cfg ns sc; Some (sc, o, e1 ++ e2) end
  end.
Lemma slice_plus {B} (p : program B) cfg n m : forall sc, run_slice p cfg (n + m) sc = '(sc, o, e1) ← run_slice p cfg n sc; match o with Some _ => Some (sc, o, e1) | None => '(sc, o, e2) ← run_slice p cfg m sc; Some (sc, o, e1 ++ e2) end.
Proof.
  induction n as [|n IH]; intros sc; cbn [run_slice Nat.add mbind option_bind].
  - destruct (run_slice p cfg m sc) as [[[sc1 o1] e1]|]; done.
  - destruct (poll_once p cfg sc) as [[[sc1 o1] e1]|]; [|done]. cbn [mbind option_bind]. destruct o1; [done|]. rewrite IH. destruct (run_slice p cfg n sc1) as [[[sc2 o2] e2]|]; [|done]. cbn [mbind option_bind]. destruct o2; [done|]. destruct (run_slice p cfg m sc2) as [[[sc3 o3] e3]|]; [|done]. cbn [mbind option_bind]. now rewrite app_assoc.
Qed.
(** Any slicing is the same as one slice of the total length: same state, decisions, polls, outcome —
    and the same panic, should there be one. *)
Theorem C17_slices {B} (p : program B) cfg ns sc : slices p cfg ns sc = run_slice p cfg (sum_list ns) sc.
Proof.
  revert sc. induction ns as [|n ns IH]; intros sc; [done|]. change (sum_list (n :: ns)) with (n + sum_list ns). rewrite slice_plus. cbn [slices]. destruct (run_slice p cfg n sc) as [[[sc1 o1] e1]|]; [|done]. cbn [mbind option_bind]. destruct o1; [done|]. now rewrite IH.
Qed.
Lemma poll_outcome {B} (p : program B) cfg s c s' c' o e : poll_once p cfg (s, c) = Some (s', c', Some o, e) -> s' = s /\ c' = c /\ e = None /\ ready s = [] /\ timers s = [].
Proof.
  unfold poll_once, pick_ready. destruct (ready s) as [|t0 l] eqn:Er.
  - cbn [mbind option_bind]. destruct (timers s) eqn:Et; [intros [= <- <- <- <-]; done|]. destruct (advance_timers s c) as [[? ?]|]; done.
  - match goal with |- context [mbind _ (mbind ?f ?x)] => destruct (mbind f x) as [[[[t s1]|] c1]|] eqn:E end; [| |done].
    + cbn [mbind option_bind]. destruct (tasks s1 !! t); [|done]. cbn [mbind option_bind]. destruct (poll p _ _). destruct (process_step _ _ _ _ _ _) as [[? ?]|]; done.
    + exfalso. destruct (match cpolicy cfg with Fifo | RoundRobin => _ | _ => _ end) as [[i c2]|]; [|done]. cbn [mbind option_bind] in E. destruct ((t0 :: l) !! i); done.
Qed.
(** Once an outcome is reported, driving on changes nothing and reports it again. *)
Theorem C17_stable {B} (p : program B) cfg n sc sc' o es m : run_slice p cfg n sc = Some (sc', Some o, es) -> (n <= m -> run_slice p cfg m sc = Some (sc', Some o, es)) /\ (0 < m -> run_slice p cfg m sc' = Some (sc', Some o, [])).
Proof.
  intros H. split.
  - intros Hm. replace m with (n + (m - n)) by lia. rewrite slice_plus, H. done.
  - intros Hm. destruct m as [|m]; [lia|]. cbn [run_slice]. assert (Q : poll_once p cfg sc' = Some (sc', Some o, None)).
    { clear Hm. revert sc H. revert es. induction n as [|n IH]; intros es sc H; cbn [run_slice] in H; [done|]. destruct (poll_once p cfg sc) as [[[sc1 o1] e1]|] eqn:E; [|done]. cbn [mbind option_bind] in H. destruct o1 as [o1|].
      - injection H as -> -> <-. destruct sc as [s c], sc' as [s' c']. pose proof (poll_outcome _ _ _ _ _ _ _ _ E) as (-> & -> & -> & _). exact E.
      - destruct (run_slice p cfg n sc1) as [[[sc2 o2] e2]|] eqn:E2; [|done]. cbn [mbind option_bind] in H. injection H as -> -> <-. now apply (IH e2 sc1). }
    rewrite Q. done.
Qed.
(** So two drivers that both came to an outcome agree, however they sliced. *)
Theorem C17_agree {B} (p : program B) cfg ns ms sc a oa ea b ob eb : slices p cfg ns sc = Some (a, Some oa, ea) -> slices p cfg ms sc = Some (b, Some ob, eb) -> a = b /\ oa = ob /\ ea = eb.
Proof.
  rewrite !C17_slices. intros H K. destruct (Nat.le_ge_cases (sum_list ns) (sum_list ms)) as [L|L].
  - destruct (C17_stable _ _ _ _ _ _ _ (sum_list ms) H) as [Q _]. rewrite (Q L) in K. injection K as -> -> ->. done.
  - destruct (C17_stable _ _ _ _ _ _ _ (sum_list ns) K) as [Q _]. rewrite (Q L) in H. injection H as -> -> ->. done.
Qed.
