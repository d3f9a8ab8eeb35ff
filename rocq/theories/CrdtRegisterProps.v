(** C05, C06, C11: registers and the delta buffer; the register part of C12.

    [state_at], [hist_of] and [known_by] are as in CrdtCounterProps.v. *)
From stdpp Require Import gmap.
From Verif Require Import CrdtModel Replication ReplicationCount CrdtClockProofs CrdtRegisterProofs.

Ltac decided := apply (bool_decide_unpack _); vm_compute; exact I.

(** ** C05: last-writer-wins register *)

Theorem C05_lww_merge_laws_partial : forall (T : Type) (a b c : lww T),
  lww_merge a (lww_merge b c) = lww_merge (lww_merge a b) c /\
  lww_merge a a = a /\
  (lww_merge a b = a \/ lww_merge a b = b) /\
  lww_ts (lww_merge a b) = N.max (lww_ts a) (lww_ts b) /\
  (lww_ts a <> lww_ts b -> lww_merge a b = lww_merge b a).
Proof.
  intros T a b c. destruct (lww_merge_greatest a b).
  auto 10 using lww_merge_assoc, lww_merge_idemp, lww_merge_comm.
Qed.

(** The register is not commutative when timestamps tie, and two replicas which
    then exchange their states swap their values, however often they do it. *)
Theorem C05_lww_commutative_refuted :
  exists a b : lww N, lww_merge a b <> lww_merge b a.
Proof. exists (lww_new 1%N 5%N), (lww_new 2%N 5%N). discriminate. Qed.

Theorem C05_lww_converges_refuted :
  exists evs : list (event (N * N)),
    known_by evs 1%N = known_by evs 2%N /\
    lww_value (state_at (lww_init 0%N) lww_apply lww_join evs 1%N).2 <>
    lww_value (state_at (lww_init 0%N) lww_apply lww_join evs 2%N).2.
Proof.
  exists [EOp 1%N (10, 5)%N; EOp 2%N (20, 5)%N; ESend 1%N; ESend 2%N; ERecv 1%N 1; ERecv 2%N 0].
  split; [decided|vm_compute; discriminate].
Qed.

(** A write stamped by a clock that went backwards is lost on the other replicas. *)
Theorem C05_lww_backward_clock_refuted :
  exists evs : list (event (N * N)),
    known_by evs 1%N = known_by evs 2%N /\
    (forall i j x y, hist_of evs !! i = Some x -> hist_of evs !! j = Some y ->
       (op_op x).2 = (op_op y).2 -> i = j) /\
    lww_value (state_at (lww_init 0%N) lww_apply lww_join evs 1%N).2 <>
    lww_value (state_at (lww_init 0%N) lww_apply lww_join evs 2%N).2.
Proof.
  exists [EOp 1%N (10, 5)%N; ESend 1%N; EOp 1%N (20, 3)%N; ESend 1%N; ERecv 2%N 0; ERecv 2%N 1].
  split; [decided|]. split; [|vm_compute; discriminate].
  intros i j x y. destruct i as [|[|i]]; destruct j as [|[|j]];
    intros Hx Hy E; vm_compute in Hx; try discriminate Hx; vm_compute in Hy; try discriminate Hy;
    try reflexivity; injection Hx as <-; injection Hy as <-; discriminate E.
Qed.

(** What does hold: if no two writes carry the same timestamp and every write is
    stamped later than everything its author had seen, each replica holds the write
    with the greatest timestamp it knows; hence replicas with the same knowledge agree. *)
Theorem C05_lww_holds_latest_partial :
  forall (T : Type) (v0 : T) (evs : list (event (T * N))) (r : N),
  let h := hist_of evs in
  (forall i j x y, h !! i = Some x -> h !! j = Some y -> (op_op x).2 = (op_op y).2 -> i = j) ->
  (forall i x, h !! i = Some x -> (0 < (op_op x).2)%N) ->
  (forall i x j y, h !! i = Some x -> j ∈ op_past x -> h !! j = Some y -> ((op_op y).2 < (op_op x).2)%N) ->
  let s := (state_at (lww_init v0) lww_apply lww_join evs r).2 in
  (known_by evs r = ∅ /\ lww_value s = v0 /\ lww_ts s = 0%N) \/
  (exists i x, i ∈ known_by evs r /\ h !! i = Some x /\ lww_value s = (op_op x).1 /\ lww_ts s = (op_op x).2 /\
     forall j y, j ∈ known_by evs r -> h !! j = Some y -> ((op_op y).2 <= (op_op x).2)%N).
Proof.
  intros T v0 evs r h A B C s.
  destruct (lww_latest v0 evs r (conj A (conj B C))) as [[E F]|(i & x & Hi & Hx & E & M)].
  - left. unfold s. rewrite F. auto.
  - right. exists i, x. unfold s. rewrite E. auto.
Qed.

Theorem C05_lww_converges_partial :
  forall (T : Type) (v0 : T) (evs : list (event (T * N))) (r r' : N),
  let h := hist_of evs in
  (forall i j x y, h !! i = Some x -> h !! j = Some y -> (op_op x).2 = (op_op y).2 -> i = j) ->
  (forall i x, h !! i = Some x -> (0 < (op_op x).2)%N) ->
  (forall i x j y, h !! i = Some x -> j ∈ op_past x -> h !! j = Some y -> ((op_op y).2 < (op_op x).2)%N) ->
  known_by evs r = known_by evs r' ->
  lww_value (state_at (lww_init v0) lww_apply lww_join evs r).2 =
  lww_value (state_at (lww_init v0) lww_apply lww_join evs r').2.
Proof.
  intros T v0 evs r r' h A B C E.
  assert (G : good_stamps h) by (split; auto).
  pose proof (lww_latest v0 evs r G) as P. pose proof (lww_latest v0 evs r' G) as Q.
  rewrite E in P. now rewrite (latest_unique v0 h _ _ _ G P Q).
Qed.

(** Three writes by three replicas, the second after seeing the first. *)
Example C05_example_run : list (event (N * N)) :=
  [EOp 1 (10, 5); ESend 1; ERecv 2 0; EOp 2 (20, 6); EOp 3 (30, 9); ESend 3; ESend 2;
   ERecv 1 1; ERecv 1 2; ERecv 3 2]%N.
Example C05_example :
  (forall i j x y, hist_of C05_example_run !! i = Some x -> hist_of C05_example_run !! j = Some y ->
     (op_op x).2 = (op_op y).2 -> i = j) /\
  (forall i x j y, hist_of C05_example_run !! i = Some x -> j ∈ op_past x ->
     hist_of C05_example_run !! j = Some y -> ((op_op y).2 < (op_op x).2)%N) /\
  known_by C05_example_run 1%N = known_by C05_example_run 3%N /\
  lww_value (state_at (lww_init 0%N) lww_apply lww_join C05_example_run 1%N).2 = 30%N.
Proof.
  split; [|split; [|split; [decided|vm_compute; reflexivity]]].
  - intros i j x y. destruct i as [|[|[|i]]]; destruct j as [|[|[|j]]];
      intros Hx Hy E; vm_compute in Hx; try discriminate Hx; vm_compute in Hy; try discriminate Hy;
    try reflexivity; injection Hx as <-; injection Hy as <-; discriminate E.
  - intros i x j y. destruct i as [|[|[|i]]]; destruct j as [|[|[|j]]];
      intros Hx Hj Hy; vm_compute in Hx; try discriminate Hx; vm_compute in Hy; try discriminate Hy;
      injection Hx as <-; injection Hy as <-; try reflexivity; exfalso; revert Hj; vm_compute; discriminate.
Qed.

(** ** C06: multi-value register *)

(** A write (value and clock) is in the merge exactly when one side holds it and
    no held write has a different clock dominating it. *)
Theorem C06_mv_merge_keeps_maximal :
  forall (T : Type) `{EqDecision T} (s t : mvreg T) (e : T * vclock),
  e ∈ mv_values (mv_merge s t) <->
  (e ∈ mv_values s \/ e ∈ mv_values t) /\
  (forall f, f ∈ mv_values s \/ f ∈ mv_values t ->
     (forall q, vc_get e.2 q <= vc_get f.2 q)%N -> f.2 = e.2).
Proof.
  intros T ? s t e. rewrite mv_merge_spec. split; intros [A B]; (split; [exact A|]); intros f Hf D;
    apply (B f Hf); now apply vc_dominates_spec.
Qed.

(** In every run, the values read are exactly those of the known writes that no
    known write has overwritten. *)
Theorem C06_mv_reads_unoverwritten_writes :
  forall (T : Type) `{EqDecision T} (evs : list (event T)) (r : N) (v : T),
  v ∈ mv_read (state_at mv_new mv_set mv_merge evs r) <->
  exists i x, i ∈ known_by evs r /\ hist_of evs !! i = Some x /\ op_op x = v /\
    (forall j y, j ∈ known_by evs r -> hist_of evs !! j = Some y -> i ∉ op_past y).
Proof. intros. apply mv_read_known. Qed.

(** A local write replaces everything. *)
Theorem C06_mv_set_overwrites :
  forall (T : Type) `{EqDecision T} (evs : list (event T)) (r : N) (v : T),
  mv_read (state_at mv_new mv_set mv_merge (evs ++ [EOp r v]) r) = [v].
Proof.
  intros T ? evs r v. unfold state_at, cexec. rewrite fold_left_app. simpl.
  unfold upd. now rewrite decide_True by reflexivity.
Qed.

(** Replicas with the same knowledge hold the same writes. *)
Theorem C06_mv_converges :
  forall (T : Type) `{EqDecision T} (evs : list (event T)) (r r' : N),
  known_by evs r = known_by evs r' ->
  mv_values (state_at mv_new mv_set mv_merge evs r) ≡ₚ mv_values (state_at mv_new mv_set mv_merge evs r').
Proof.
  intros T ? evs r r' E. apply (mv_inv_det (hist_of evs) (known_by evs r)); [apply mv_run|rewrite E; apply mv_run].
Qed.

(** Order and repetition of merges do not matter. *)
Theorem C06_mv_merge_laws :
  forall (T : Type) `{EqDecision T} (evs : list (event T)) (p q r : N),
  let st := state_at mv_new mv_set mv_merge evs in
  mv_values (mv_merge (st p) (st q)) ≡ₚ mv_values (mv_merge (st q) (st p)) /\
  mv_values (mv_merge (st p) (mv_merge (st q) (st r))) ≡ₚ mv_values (mv_merge (mv_merge (st p) (st q)) (st r)) /\
  mv_values (mv_merge (st p) (st p)) ≡ₚ mv_values (st p) /\
  mv_values (mv_merge (mv_merge (st p) (st q)) (st q)) ≡ₚ mv_values (mv_merge (st p) (st q)).
Proof.
  intros T ? evs p q r st. pose proof (ginv_exec evs) as [W C _ _].
  assert (I : forall a, mv_inv (hist_of evs) (known_by evs a) (st a)) by (intros; apply mv_run).
  assert (CC : forall a, closed (hist_of evs) (known_by evs a)) by exact C.
  assert (M : forall K L s t, closed (hist_of evs) K -> closed (hist_of evs) L ->
    mv_inv (hist_of evs) K s -> mv_inv (hist_of evs) L t -> mv_inv (hist_of evs) (K ∪ L) (mv_merge s t))
    by (intros; now apply mv_inv_merge).
  repeat split.
  - apply (mv_inv_det (hist_of evs) (known_by evs p ∪ known_by evs q)); [auto|].
    rewrite (union_comm_L (known_by evs p)). auto.
  - apply (mv_inv_det (hist_of evs) (known_by evs p ∪ (known_by evs q ∪ known_by evs r))).
    + auto using closed_union.
    + rewrite (union_assoc_L (known_by evs p)). auto using closed_union.
  - apply (mv_inv_det (hist_of evs) (known_by evs p)); [|auto].
    rewrite <- (union_idemp_L (known_by evs p)) at 1. auto.
  - apply (mv_inv_det (hist_of evs) (known_by evs p ∪ known_by evs q)); [|auto].
    rewrite <- (union_idemp_L (known_by evs q)), (union_assoc_L (known_by evs p)). auto using closed_union.
Qed.

(** Two concurrent writes are both kept; a third, made after seeing both, replaces them. *)
Example C06_example_run : list (event N) :=
  [EOp 1 10; EOp 2 20; ESend 1; ESend 2; ERecv 3 0; ERecv 3 1]%N.
Example C06_example :
  mv_read (state_at mv_new mv_set mv_merge C06_example_run 3%N) = [10; 20]%N /\
  mv_read (state_at mv_new mv_set mv_merge (C06_example_run ++ [EOp 3 30; ESend 3; ERecv 1 2])%N 1%N) = [30]%N /\
  known_by (C06_example_run ++ [ERecv 1%N 1; ERecv 2%N 0]) 1%N = known_by (C06_example_run ++ [ERecv 1%N 1; ERecv 2%N 0]) 2%N.
Proof. repeat split; decided. Qed.

(** ** C11: delta buffer *)

(** A peer version that is concurrent with an evicted delta is answered, without
    that delta: replica 1's delta is evicted by a second push, and the peer at a
    version knowing only replica 2 gets a list that misses it. *)
Theorem C11_buffer_answers_completely_refuted :
  exists (max_size : nat) (ps : list (vclock * N)) (v : vclock) (l : list N),
    (forall i j p q, i < j -> ps !! i = Some p -> ps !! j = Some q -> vc_dominates q.1 p.1 = true) /\
    db_since (db_pushes max_size ps) v = Some l /\
    exists p, p ∈ ps /\ vc_dominates v p.1 = false /\ p.2 ∉ l.
Proof.
  exists 1, [({[1%N := 1%N]}, 100%N); ({[1%N := 2%N]}, 200%N)], {[2%N := 7%N]}, [200%N]. split.
  - intros i j p q. destruct i as [|[|i]]; destruct j as [|[|j]];
      intros Hlt Hx Hy; try lia; cbn in Hx, Hy; try rewrite lookup_nil in Hx; try rewrite lookup_nil in Hy; simplify_eq;
      vm_compute; reflexivity.
  - split; [vm_compute; reflexivity|].
    exists ({[1%N := 1%N]}, 100%N). split; [left|]. split; [vm_compute; reflexivity|].
    simpl. set_solver.
Qed.

(** What does hold: if versions are pushed in causal order, and the peer's version
    is comparable with each of them, an answer is exactly the uncovered deltas. *)
Theorem C11_buffer_answers_completely_partial :
  forall (D : Type) (max_size : nat) (ps : list (vclock * D)) (v : vclock) (l : list D),
  (forall i j p q, i < j -> ps !! i = Some p -> ps !! j = Some q -> vc_dominates q.1 p.1 = true) ->
  (forall p, p ∈ ps -> vc_dominates v p.1 = true \/ vc_dominates p.1 v = true) ->
  db_since (db_pushes max_size ps) v = Some l ->
  l = (filter (fun e => negb (vc_dominates v e.1)) ps).*2.
Proof. intros D max_size ps v l A B. exact (db_since_complete max_size ps v l A B). Qed.

(** The buffer keeps the newest pushes in order, never more than its size. *)
Theorem C11_buffer_bounded :
  forall (D : Type) (max_size : nat) (ps : list (vclock * D)),
  exists k, db_deltas (db_pushes max_size ps) = drop k ps /\
    length (db_deltas (db_pushes max_size ps)) <= Nat.max 1 max_size /\
    (length ps <= max_size -> k = 0).
Proof.
  intros D max_size ps. destruct (db_pushes_state max_size ps) as (k & Hk & E1 & _ & E3 & E4).
  exists (length ps - length (db_deltas (db_pushes max_size ps))).
  assert (L : length (db_deltas (db_pushes max_size ps)) = length ps - k) by (rewrite E1, drop_length; lia).
  rewrite L. replace (length ps - (length ps - k)) with k by lia. repeat split; [exact E1|lia|].
  intros Hle.
  assert (G : forall ps : list (vclock * D), length ps <= max_size -> db_deltas (db_pushes max_size ps) = ps).
  { clear. intros ps. unfold db_pushes. induction ps as [|p ps IH] using rev_ind; intros Hl; [reflexivity|].
    rewrite app_length in Hl. simpl in Hl. specialize (IH ltac:(lia)). rewrite fold_left_app. simpl.
    assert (M : db_max (fold_left (fun b p => db_push b p.1 p.2) ps (@db_new D max_size)) = max_size)
      by (destruct (db_pushes_state max_size ps) as (? & _ & _ & M & _); exact M).
    set (b := fold_left _ ps _) in *. unfold db_push. rewrite M, IH. destruct (Nat.leb_spec max_size (length ps)); [lia|].
    simpl. rewrite IH. now destruct p. }
  rewrite (G ps Hle) in L. lia.
Qed.

(** A buffer of two holds the last two of three pushes; a peer at the second
    version gets the third, a peer at the start is refused. *)
Example C11_example :
  let ps := [({[1 := 1]}, 100); ({[1 := 2]}, 200); ({[1 := 2; 2 := 1]}, 300)]%N : list (vclock * N) in
  db_since (db_pushes 2 ps) {[1%N := 2%N]} = Some [300%N] /\
  db_since (db_pushes 2 ps) ∅ = None /\
  forallb (fun p => vc_dominates {[1%N := 2%N]} p.1 || vc_dominates p.1 {[1%N := 2%N]}) ps = true.
Proof. repeat split; decided. Qed.

(** ** C12, registers *)

Theorem C12_mv_delta_equals_merge :
  forall (T : Type) `{EqDecision T} (evs : list (event T)) (sender peer : N),
  let s := state_at mv_new mv_set mv_merge evs sender in
  let p := state_at mv_new mv_set mv_merge evs peer in
  mv_read (match mv_delta_since s (mv_version p) with Some d => mv_apply_delta p d | None => p end)
  ≡ₚ mv_read (mv_merge p s).
Proof. intros. apply mv_delta_equiv. Qed.

Example C12_mv_example :
  let st := state_at (mv_new (T := N)) mv_set mv_merge [EOp 1 10; EOp 2 20; ESend 1; ERecv 2 0]%N in
  mv_delta_since (st 2%N) (mv_version (st 1%N)) <> None /\
  mv_delta_since (st 1%N) (mv_version (st 2%N)) = None /\
  length (mv_read (mv_merge (st 1%N) (st 2%N))) = 2.
Proof. repeat split; vm_compute; (reflexivity || discriminate). Qed.
