(** Model of the task scheduler: crates/logicaffeine_runtime/src/scheduler.rs, channel.rs, task.rs,
    seed.rs and the part of config.rs it uses. Task bodies are an arbitrary deterministic state
    machine. Payload variants the scheduler never looks at are one constructor. *)
From Coq Require Import NArith List.
From stdpp Require Import list gmap.
Open Scope nat_scope.

(** payload.rs 19–113. *)
Inductive payload := Nothing | PBool (b : bool) | PVal (n : N).

(** task.rs 19–24. Channel and task numbers are [u64] drawn from one counter. *)
Inductive arm := ARecv (ch : nat) | ATimeout (d : N).
(** task.rs 27–76; [B] is the type of task bodies. [SpawnDesc] is only for the work-stealing driver. *)
Inductive step (B : Type) :=
  | Yield | Recv (ch : nat) | Send (ch : nat) (v : payload) | TrySend (ch : nat) (v : payload) | TryRecv (ch : nat)
  | Select (arms : list arm) | Sleep (d : N) | NewChan (cap : option nat) | Spawn (b : B) | SpawnDesc
  | Await (t : nat) | Abort (t : nat) | Close (ch : nat) | IoPending | Exit (v : payload).
Arguments Yield {B}. Arguments Recv {B}. Arguments Send {B}. Arguments TrySend {B}. Arguments TryRecv {B}. Arguments Select {B}. Arguments Sleep {B}. Arguments NewChan {B}. Arguments Spawn {B}. Arguments SpawnDesc {B}. Arguments Await {B}. Arguments Abort {B}. Arguments Close {B}. Arguments IoPending {B}. Arguments Exit {B}.
(** task.rs 79–89. *)
Record ctx := Ctx { resumed_with : payload; selected : option nat; new_chan : option nat; spawned : option nat }.
(** task.rs 93–101. *)
Record program (B : Type) := Program { poll : B -> ctx -> B * step B; priority : B -> N }.
Arguments poll {B}. Arguments priority {B}.

(** ** seed.rs *)
Definition two64 : N := 2 ^ 64.
(** seed.rs 32–38. *)
Definition rng_next (st : N) : N * N :=
  let st := ((st + 11400714819323198485) mod two64)%N in
  let z := (N.lxor st (N.shiftr st 30) * 13787848793156543929 mod two64)%N in
  let z := (N.lxor z (N.shiftr z 27) * 10723151780598845931 mod two64)%N in
  (N.lxor z (N.shiftr z 31), st).
(** seed.rs 41–46. *)
Definition rng_below (st : N) (n : nat) : nat * N := if n <=? 1 then (0, st) else let '(z, st) := rng_next st in (N.to_nat (z mod N.of_nat n), st).
(** seed.rs 51–62. *)
Inductive kind := TaskPick | SelectWinner | ChanWaiterWake | TimerTieBreak | WorkerPlacement.
Definition kind_eqb (a b : kind) : bool := match a, b with TaskPick, TaskPick | SelectWinner, SelectWinner | ChanWaiterWake, ChanWaiterWake | TimerTieBreak, TimerTieBreak | WorkerPlacement, WorkerPlacement => true | _, _ => false end.
(** seed.rs 68–75. *)
Record choice := Choice { ckind : kind; options : nat; chosen : nat }.
(** seed.rs 92–101; the seed kept for the trace's header is left out. *)
Inductive chooser := Record (rng : N) (choices : list choice) | Replay (trace : list choice) (pos : nat).
(** seed.rs 124–153; [None] is the panic on divergence. *)
Definition choose_among (c : chooser) (k : kind) (n : nat) : option (nat * chooser) :=
  match c with
  | Record rng choices => let '(i, rng) := rng_below rng n in Some (i, Record rng (choices ++ [Choice k n i]))
  | Replay trace pos =>
      match trace !! pos with
      | None => None
      | Some cp => if kind_eqb (ckind cp) k && (options cp =? n) then Some (chosen cp, Replay trace (S pos)) else None
      end
  end.
(** seed.rs 156–161. *)
Definition into_trace (c : chooser) : list choice := match c with Record _ choices => choices | Replay trace _ => trace end.

(** ** channel.rs *)
(** channel.rs 17–29. *)
Record chan := Chan { capacity : option nat; queue : list payload; senders : list (nat * payload); receivers : list nat; closed : bool }.
(** channel.rs 32–40. *)
Definition empty_chan (cap : option nat) : chan := Chan cap [] [] [] false.
(** channel.rs 43–48. *)
Definition has_room (c : chan) : bool := match capacity c with None => true | Some n => length (queue c) <? n end.
(** channel.rs 52–54. *)
Definition can_recv (c : chan) : bool := match queue c, senders c with [], [] => closed c | _, _ => true end.
Definition with_queue (c : chan) (q : list payload) : chan := Chan (capacity c) q (senders c) (receivers c) (closed c).
Definition with_senders (c : chan) (l : list (nat * payload)) : chan := Chan (capacity c) (queue c) l (receivers c) (closed c).
Definition with_receivers (c : chan) (l : list nat) : chan := Chan (capacity c) (queue c) (senders c) l (closed c).

(** ** scheduler.rs *)
(** scheduler.rs 20–30. *)
Inductive outcome := Done (v : payload) | Deadlock | WaitingForIo.
(** scheduler.rs 32–41. *)
Inductive tstate := Ready | BlockedRecv | BlockedSend | BlockedSelect | BlockedTimer | BlockedAwait | BlockedIo | Finished.
(** scheduler.rs 111–123. *)
Inductive aresult := Completed (v : payload) | Aborted.
Definition result_payload (r : aresult) : payload := match r with Completed v => v | Aborted => Nothing end.
(** scheduler.rs 125–137. *)
Record slot (B : Type) := Slot { body : B; prio : N; resume : payload; sel_arm : option nat; sel_arms : option (list arm); res_chan : option nat; res_task : option nat; tst : tstate; is_main : bool }.
Arguments Slot {B}. Arguments body {B}. Arguments prio {B}. Arguments resume {B}. Arguments sel_arm {B}. Arguments sel_arms {B}. Arguments res_chan {B}. Arguments res_task {B}. Arguments tst {B}. Arguments is_main {B}.
(** scheduler.rs 139–144. *)
Record timer := Timer { fire_at : N; ttid : nat; tarm : option nat }.
(** config.rs 13–25, 51–64: the knobs the scheduler uses. *)
Inductive policy := Fifo | Lifo | RoundRobin | Random | Priority.
Record config := Config { cpolicy : policy; default_capacity : nat }.
(** scheduler.rs 160–172, without the configuration and the chooser. *)
Record core (B : Type) := Core { tasks : gmap nat (slot B); ready : list nat; chans : gmap nat chan; timers : list timer; clock : N; next_id : nat; main_result : option payload; results : gmap nat aresult; awaiters : gmap nat (list nat) }.
Arguments Core {B}. Arguments tasks {B}. Arguments ready {B}. Arguments chans {B}. Arguments timers {B}. Arguments clock {B}. Arguments next_id {B}. Arguments main_result {B}. Arguments results {B}. Arguments awaiters {B}.

Section Scheduler.
Context {B : Type}.
Implicit Types (s : core B).
Definition set_tasks s x : core B := Core x (ready s) (chans s) (timers s) (clock s) (next_id s) (main_result s) (results s) (awaiters s).
Definition set_ready s x : core B := Core (tasks s) x (chans s) (timers s) (clock s) (next_id s) (main_result s) (results s) (awaiters s).
Definition set_chans s x : core B := Core (tasks s) (ready s) x (timers s) (clock s) (next_id s) (main_result s) (results s) (awaiters s).
Definition set_timers s x : core B := Core (tasks s) (ready s) (chans s) x (clock s) (next_id s) (main_result s) (results s) (awaiters s).
Definition set_clock s x : core B := Core (tasks s) (ready s) (chans s) (timers s) x (next_id s) (main_result s) (results s) (awaiters s).
Definition set_next s x : core B := Core (tasks s) (ready s) (chans s) (timers s) (clock s) x (main_result s) (results s) (awaiters s).
Definition set_main s x : core B := Core (tasks s) (ready s) (chans s) (timers s) (clock s) (next_id s) x (results s) (awaiters s).
Definition set_results s x : core B := Core (tasks s) (ready s) (chans s) (timers s) (clock s) (next_id s) (main_result s) x (awaiters s).
Definition set_awaiters s x : core B := Core (tasks s) (ready s) (chans s) (timers s) (clock s) (next_id s) (main_result s) (results s) x.
Definition set_chan s ch c : core B := set_chans s (<[ch := c]> (chans s)).

(** scheduler.rs 176–190. *)
Definition new_core : core B := Core ∅ [] ∅ [] 0 0 None ∅ ∅.
(** scheduler.rs 192–203. *)
Definition add_chan s (cap : option nat) : core B := set_next (set_chan s (next_id s) (empty_chan cap)) (S (next_id s)).
(** scheduler.rs 212–246. *)
Definition spawn (p : program B) s (b : B) (main : bool) : core B :=
  let id := next_id s in
  let s := set_tasks s (<[id := Slot b (priority p b) Nothing None None None None Ready main]> (tasks s)) in
  set_ready (set_next s (S id)) (ready s ++ [id]).

Definition with_tst (sl : slot B) x : slot B := Slot (body sl) (prio sl) (resume sl) (sel_arm sl) (sel_arms sl) (res_chan sl) (res_task sl) x (is_main sl).
Definition with_resume (sl : slot B) v : slot B := Slot (body sl) (prio sl) v (sel_arm sl) (sel_arms sl) (res_chan sl) (res_task sl) (tst sl) (is_main sl).
Definition with_sel_arm (sl : slot B) x : slot B := Slot (body sl) (prio sl) (resume sl) x (sel_arms sl) (res_chan sl) (res_task sl) (tst sl) (is_main sl).
Definition with_sel_arms (sl : slot B) x : slot B := Slot (body sl) (prio sl) (resume sl) (sel_arm sl) x (res_chan sl) (res_task sl) (tst sl) (is_main sl).
Definition with_res_chan (sl : slot B) x : slot B := Slot (body sl) (prio sl) (resume sl) (sel_arm sl) (sel_arms sl) x (res_task sl) (tst sl) (is_main sl).
Definition with_res_task (sl : slot B) x : slot B := Slot (body sl) (prio sl) (resume sl) (sel_arm sl) (sel_arms sl) (res_chan sl) x (tst sl) (is_main sl).
Definition upd_task s t (f : slot B -> slot B) : core B := set_tasks s (alter f t (tasks s)).
Definition set_tst s t x : core B := upd_task s t (fun sl => with_tst sl x).

(** scheduler.rs 508–513. *)
Definition mark_ready s t (v : payload) : core B :=
  let s := upd_task s t (fun sl => with_tst (with_resume sl v) Ready) in set_ready s (ready s ++ [t]).
(** scheduler.rs 620–628. *)
Definition cancel_select s rid (except : option nat) : core B :=
  let s := set_chans s (map_imap (fun cid c => Some (if bool_decide (Some cid = except) then c else with_receivers c (List.filter (fun t => negb (t =? rid)) (receivers c)))) (chans s)) in
  set_timers s (List.filter (fun tm => negb (ttid tm =? rid)) (timers s)).
(** The arm of a select that receives from a channel, 603–606. *)
Fixpoint arm_position (arms : list arm) (ch : nat) : option nat :=
  match arms with
  | [] => None
  | ARecv c :: r => if c =? ch then Some 0 else S <$> arm_position r ch
  | ATimeout _ :: r => S <$> arm_position r ch
  end.
(** A select completes: 607–613, 656–662, 737–743. *)
Definition complete_select s t (v : payload) (i : nat) : core B :=
  let s := upd_task s t (fun sl => with_tst (with_sel_arm (with_resume (with_sel_arms sl None) v) (Some i)) Ready) in set_ready s (ready s ++ [t]).
(** scheduler.rs 600–618; [None] is the panic when the channel is not among the arms. *)
Definition deliver s rid ch (v : payload) : option (core B) :=
  match tasks s !! rid with
  | None => None
  | Some sl =>
      match sel_arms sl with
      | Some arms => match arm_position arms ch with None => None | Some i => Some (cancel_select (complete_select s rid v i) rid (Some ch)) end
      | None => Some (mark_ready s rid v)
      end
  end.
(** scheduler.rs 585–598. *)
Definition refill s ch : core B :=
  match chans s !! ch with
  | None => s
  | Some c =>
      if has_room c then
        match senders c with
        | [] => s
        | (sid, v) :: r => mark_ready (set_chan s ch (with_queue (with_senders c r) (queue c ++ [v]))) sid Nothing
        end
      else s
  end.
(** scheduler.rs 515–529. *)
Definition do_send s t ch (v : payload) : option (core B) :=
  match chans s !! ch with
  | None => None
  | Some c =>
      match receivers c with
      | rid :: r => s1 ← deliver (set_chan s ch (with_receivers c r)) rid ch v; Some (mark_ready s1 t Nothing)
      | [] => if has_room c then Some (mark_ready (set_chan s ch (with_queue c (queue c ++ [v]))) t Nothing)
              else Some (set_tst (set_chan s ch (with_senders c (senders c ++ [(t, v)]))) t BlockedSend)
      end
  end.
(** scheduler.rs 531–550. *)
Definition do_recv s t ch : option (core B) :=
  match chans s !! ch with
  | None => None
  | Some c =>
      match queue c with
      | v :: q => Some (refill (mark_ready (set_chan s ch (with_queue c q)) t v) ch)
      | [] =>
          match senders c with
          | (sid, v) :: r => Some (mark_ready (mark_ready (set_chan s ch (with_senders c r)) t v) sid Nothing)
          | [] => if closed c then Some (mark_ready s t Nothing)
                  else Some (set_tst (set_chan s ch (with_receivers c (receivers c ++ [t]))) t BlockedRecv)
          end
      end
  end.
(** scheduler.rs 552–566. *)
Definition do_try_send s t ch (v : payload) : option (core B) :=
  match chans s !! ch with
  | None => None
  | Some c =>
      match receivers c with
      | rid :: r => s1 ← deliver (set_chan s ch (with_receivers c r)) rid ch v; Some (mark_ready s1 t (PBool true))
      | [] => if has_room c then Some (mark_ready (set_chan s ch (with_queue c (queue c ++ [v]))) t (PBool true))
              else Some (mark_ready s t (PBool false))
      end
  end.
(** scheduler.rs 568–583. *)
Definition do_try_recv s t ch : option (core B) :=
  match chans s !! ch with
  | None => None
  | Some c =>
      match queue c with
      | v :: q => Some (refill (mark_ready (set_chan s ch (with_queue c q)) t v) ch)
      | [] =>
          match senders c with
          | (sid, v) :: r => Some (mark_ready (mark_ready (set_chan s ch (with_senders c r)) t v) sid Nothing)
          | [] => Some (mark_ready s t Nothing)
          end
      end
  end.
(** scheduler.rs 676–686. *)
Definition take_one s ch : core B * payload :=
  match chans s !! ch with
  | None => (s, Nothing)
  | Some c =>
      match queue c with
      | v :: q => (refill (set_chan s ch (with_queue c q)) ch, v)
      | [] => match senders c with (sid, v) :: r => (mark_ready (set_chan s ch (with_senders c r)) sid Nothing, v) | [] => (s, Nothing) end
      end
  end.
(** The arms that can complete at once, 631–638; [None] is the panic on an unknown channel. *)
Fixpoint ready_arms s (arms : list arm) (i : nat) : option (list nat) :=
  match arms with
  | [] => Some []
  | ARecv ch :: r => c ← chans s !! ch; l ← ready_arms s r (S i); Some (if can_recv c then i :: l else l)
  | ATimeout _ :: r => ready_arms s r (S i)
  end.
(** [u64] addition as in a release build. *)
Definition add64 (a b : N) : N := ((a + b) mod two64)%N.
(** scheduler.rs 662–671. *)
Fixpoint register s t (arms : list arm) (i : nat) : core B :=
  match arms with
  | [] => s
  | ARecv ch :: r => register (match chans s !! ch with Some c => set_chan s ch (with_receivers c (receivers c ++ [t])) | None => s end) t r (S i)
  | ATimeout d :: r => register (set_timers s (timers s ++ [Timer (add64 (clock s) d) t (Some i)])) t r (S i)
  end.
(** scheduler.rs 630–674. *)
Definition do_select s (c : chooser) t (arms : list arm) : option (core B * chooser) :=
  match ready_arms s arms 0 with
  | None => None
  | Some [] => Some (upd_task (register s t arms 0) t (fun sl => with_tst (with_sel_arms sl (Some arms)) BlockedSelect), c)
  | Some l =>
      '(w, c) ← (match l with [_] => Some (0, c) | _ => choose_among c SelectWinner (length l) end);
      i ← l !! w;
      match arms !! i with
      | Some (ARecv ch) =>
          let '(s, v) := take_one s ch in
          let s := upd_task s t (fun sl => with_tst (with_sel_arm (with_resume sl v) (Some i)) Ready) in
          Some (set_ready s (ready s ++ [t]), c)
      | _ => None
      end
  end.
(** scheduler.rs 726–750. *)
Definition fire_timer s (t : nat) (a : option nat) : core B :=
  match tasks s !! t with
  | None => s
  | Some sl =>
      match tst sl with
      | BlockedTimer | BlockedSelect =>
          match a with
          | Some i => let s' := complete_select s t Nothing i in match sel_arms sl with Some _ => cancel_select s' t None | None => s' end
          | None => mark_ready s t Nothing
          end
      | _ => s
      end
  end.
(** 706–717: the seeded order among timers due at the same tick; [n] is the number of timers. *)
Fixpoint shuffle {A} (n : nat) (c : chooser) (pool : list A) : option (list A * chooser) :=
  match n with
  | O => Some ([], c)
  | S n => '(k, c) ← choose_among c TimerTieBreak (length pool); x ← pool !! k; '(l, c) ← shuffle n c (take k pool ++ drop (S k) pool); Some (x :: l, c)
  end.
Definition earliest (l : list timer) : option N := match l with [] => None | t :: r => Some (fold_left (fun m x => N.min m (fire_at x)) r (fire_at t)) end.
(** scheduler.rs 688–724. *)
Definition advance_timers s (c : chooser) : option (core B * chooser) :=
  match earliest (timers s) with
  | None => Some (s, c)
  | Some e =>
      let due := List.filter (fun x => (fire_at x =? e)%N) (timers s) in
      let s := set_timers (set_clock s e) (List.filter (fun x => negb (fire_at x =? e)%N) (timers s)) in
      '(order, c) ← (if 1 <? length due then shuffle (length due) c due else Some (due, c));
      Some (fold_left (fun s x => fire_timer s (ttid x) (tarm x)) order s, c)
  end.
(** scheduler.rs 752–759. *)
Definition complete_task s t (r : aresult) : core B :=
  let waiters := default [] (awaiters s !! t) in
  let s := set_results (set_awaiters s (delete t (awaiters s))) (<[t := r]> (results s)) in
  fold_left (fun s w => mark_ready s w (result_payload r)) waiters s.
(** scheduler.rs 761–772. *)
Definition do_await s t target : core B :=
  match results s !! target with
  | Some r => mark_ready s t (result_payload r)
  | None =>
      match tasks s !! target with
      | None => mark_ready s t Nothing
      | Some _ => set_tst (set_awaiters s (<[target := default [] (awaiters s !! target) ++ [t]]> (awaiters s))) t BlockedAwait
      end
  end.
(** scheduler.rs 774–795. *)
Definition do_abort s target : core B :=
  match results s !! target, tasks s !! target with
  | Some _, _ | _, None => s
  | None, Some sl =>
      match tst sl with
      | Finished => s
      | _ =>
          let keep := fun t => negb (t =? target) in
          let s := set_ready s (List.filter keep (ready s)) in
          let s := set_chans s ((fun c => with_senders (with_receivers c (List.filter keep (receivers c))) (List.filter (fun x => keep (fst x)) (senders c))) <$> chans s) in
          let s := set_timers s (List.filter (fun x => keep (ttid x)) (timers s)) in
          let s := set_awaiters s (List.filter keep <$> awaiters s) in
          complete_task (set_tst s target Finished) target Aborted
      end
  end.
(** scheduler.rs 808–826. *)
Definition wake_closed s rid ch : core B :=
  match tasks s !! rid with
  | None => s
  | Some sl =>
      match sel_arms sl with
      | Some arms => cancel_select (complete_select s rid Nothing (default 0 (arm_position arms ch))) rid (Some ch)
      | None => mark_ready s rid Nothing
      end
  end.
(** scheduler.rs 797–806. *)
Definition do_close s ch : option (core B) :=
  match chans s !! ch with
  | None => None
  | Some c => Some (fold_left (fun s rid => wake_closed s rid ch) (receivers c) (set_chan s ch (Chan (capacity c) (queue c) (senders c) [] true)))
  end.

(** scheduler.rs 455–506; [None] is a panic. *)
Definition process_step (p : program B) (cfg : config) s (c : chooser) (t : nat) (st : step B) : option (core B * chooser) :=
  match st with
  | Yield => Some (mark_ready s t Nothing, c)
  | Await x => Some (do_await s t x, c)
  | Abort x => Some (mark_ready (do_abort s x) t Nothing, c)
  | Close ch => s ← do_close s ch; Some (mark_ready s t Nothing, c)
  | Exit v =>
      let s := match tasks s !! t with Some sl => if is_main sl then set_main s (Some v) else s | None => s end in
      Some (complete_task (set_tst s t Finished) t (Completed v), c)
  | Spawn b => let id := next_id s in Some (mark_ready (upd_task (spawn p s b false) t (fun sl => with_res_task sl (Some id))) t Nothing, c)
  | SpawnDesc => None
  | NewChan cap => let id := next_id s in Some (mark_ready (upd_task (add_chan s (Some (default (default_capacity cfg) cap))) t (fun sl => with_res_chan sl (Some id))) t Nothing, c)
  | Send ch v => s ← do_send s t ch v; Some (s, c)
  | TrySend ch v => s ← do_try_send s t ch v; Some (s, c)
  | Recv ch => s ← do_recv s t ch; Some (s, c)
  | TryRecv ch => s ← do_try_recv s t ch; Some (s, c)
  | Sleep d => Some (set_tst (set_timers s (timers s ++ [Timer (add64 (clock s) d) t None])) t BlockedTimer, c)
  | Select arms => do_select s c t arms
  | IoPending => Some (set_tst s t BlockedIo, c)
  end.
(** The index of the first task of the highest priority, 440–450. *)
Fixpoint best_index s (l : list nat) (i best : nat) (best_pri : N) : nat :=
  match l with
  | [] => best
  | t :: l => let q := match tasks s !! t with Some sl => prio sl | None => 0%N end in if (best_pri <? q)%N then best_index s l (S i) i q else best_index s l (S i) best best_pri
  end.
(** scheduler.rs 431–453. *)
Definition pick_ready (cfg : config) s (c : chooser) : option (option (nat * core B) * chooser) :=
  match ready s with
  | [] => Some (None, c)
  | t0 :: l =>
      '(idx, c) ← (match cpolicy cfg with
        | Fifo | RoundRobin => Some (0, c)
        | Lifo => Some (length (ready s) - 1, c)
        | Random => choose_among c TaskPick (length (ready s))
        | Priority => Some (best_index s l 1 0 (match tasks s !! t0 with Some sl => prio sl | None => 0%N end), c)
        end);
      t ← ready s !! idx; Some (Some (t, set_ready s (take idx (ready s) ++ drop (S idx) (ready s))), c)
  end.
(** What a task's next poll is given, 282–287. *)
Definition ctx_of (sl : slot B) : ctx := Ctx (resume sl) (sel_arm sl) (res_chan sl) (res_task sl).
(** A poll, as the outside sees it: the task, what it was given, what it asked for. [eids] is how many
    task and channel numbers had been handed out by then. *)
Record event := Event { etid : nat; ectx : ctx; estep : step B; eids : nat }.
(** scheduler.rs 277–312. The poll, if one happened, is reported beside the outcome. *)
Definition poll_once (p : program B) (cfg : config) (sc : core B * chooser) : option (core B * chooser * option outcome * option event) :=
  let '(s, c) := sc in
  '(pick, c) ← pick_ready cfg s c;
  match pick with
  | Some (t, s) =>
      sl ← tasks s !! t;
      let k := ctx_of sl in
      let '(b, st) := poll p (body sl) k in
      let s := upd_task s t (fun sl => Slot b (prio sl) Nothing None (sel_arms sl) None None (tst sl) (is_main sl)) in
      sc ← process_step p cfg s c t st;
      Some (sc, None, Some (Event t k st (next_id s)))
  | None =>
      match timers s with
      | _ :: _ => sc ← advance_timers s c; Some (sc, None, None)
      | [] =>
          let all_done := forallb (fun x => match tst (snd x) with Finished => true | _ => false end) (map_to_list (tasks s)) in
          let any_io := existsb (fun x => match tst (snd x) with BlockedIo => true | _ => false end) (map_to_list (tasks s)) in
          Some (s, c, Some (if all_done then Done (default Nothing (main_result s)) else if any_io then WaitingForIo else Deadlock), None)
      end
  end.
(** scheduler.rs 317–324: at most [n] steps; the polls made are collected. *)
Fixpoint run_slice (p : program B) (cfg : config) (n : nat) (sc : core B * chooser) : option (core B * chooser * option outcome * list event) :=
  match n with
  | O => Some (sc, None, [])
  | S n =>
      '(sc, o, e) ← poll_once p cfg sc;
      match o with
      | Some _ => Some (sc, o, option_list e)
      | None => '(sc, o, es) ← run_slice p cfg n sc; Some (sc, o, option_list e ++ es)
      end
  end.
(** scheduler.rs 330–344: tasks in ascending order of their numbers. *)
Definition wake_io s : core B :=
  let ids := List.filter (fun t => match tasks s !! t with Some sl => match tst sl with BlockedIo => true | _ => false end | None => false end) (seq 0 (next_id s)) in
  fold_left (fun s t => let s := set_tst s t Ready in set_ready s (ready s ++ [t])) ids s.

(** ** The public interface *)
(** scheduler.rs 195–222, 258–344. [run] is any number of [Poll]s. *)
Inductive call := CSpawn (b : B) (main : bool) | CNewChan (cap : option nat) | CPoll | CWakeIo.
Definition do_call (p : program B) (cfg : config) (sc : core B * chooser) (a : call) : option (core B * chooser * list event) :=
  match a with
  | CSpawn b m => Some (spawn p (fst sc) b m, snd sc, [])
  | CNewChan cap => Some (add_chan (fst sc) cap, snd sc, [])
  | CPoll => '(sc, _, e) ← poll_once p cfg sc; Some (sc, option_list e)
  | CWakeIo => Some (wake_io (fst sc), snd sc, [])
  end.
Fixpoint exec (p : program B) (cfg : config) (sc : core B * chooser) (cs : list call) : option (core B * chooser * list event) :=
  match cs with
  | [] => Some (sc, [])
  | a :: cs => '(sc, e) ← do_call p cfg sc a; '(sc, es) ← exec p cfg sc cs; Some (sc, e ++ es)
  end.
End Scheduler.
Arguments call : clear implicits. Arguments event : clear implicits. Arguments Event {B}. Arguments etid {B}. Arguments ectx {B}. Arguments estep {B}. Arguments eids {B}.
