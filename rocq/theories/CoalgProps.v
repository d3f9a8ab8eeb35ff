(** Property C114: finite transition systems are well-founded exactly when they admit a countdown measure. *)
From Coq Require Import List Arith Bool Lia Relations.
From Verif Require Import CoalgModel CoalgProofs.
Import ListNotations.

(** One step between states of the system. *)
Definition step (y : system) (s t : nat) : Prop := s < n_states y /\ t < n_states y /\ In t (nth s (successors y) []).
(** One successor list per state; and all successors are states. *)
Definition well_shaped (y : system) : Prop := length (successors y) = n_states y.
Definition closed (y : system) : Prop := forall l t, In l (successors y) -> In t l -> t < n_states y.
(** A walk of [k] steps from [s]. *)
Inductive walks (y : system) : nat -> nat -> Prop :=
| w_zero s : walks y 0 s
| w_step k s t : step y s t -> walks y k t -> walks y (S k) s.

Lemma walks_walk y k : forall s, walks y k s <-> walk y k s.
Proof.
  induction k as [|k IH]; intros s; cbn.
  - split; [easy|constructor].
  - split.
    + intros H. inversion H as [|? ? t He Hw]; subst. exists t. split; [exact He|now apply IH].
    + intros (t & He & Hw). econstructor; [exact He|now apply IH].
Qed.

(** The acyclicity test: [true] means every forward trajectory ends, [false] means there is a cycle. *)
Theorem C114_well_founded (y : system) : well_shaped y ->
  (is_well_founded y = true <-> forall s, Acc (fun t s => step y s t) s) /\
  (is_well_founded y = false <-> exists s, s < n_states y /\ clos_trans nat (step y) s s) /\
  (is_well_founded y = true <-> ~ exists f : nat -> nat, forall i, step y (f i) (f (S i))).
Proof.
  intros Hs. pose proof (well_founded_true y Hs) as H1. pose proof (well_founded_false y Hs) as H2.
  assert (Hx : (forall s, Acc (fun t s => step y s t) s) -> ~ exists s, s < n_states y /\ clos_trans nat (step y) s s).
  { intros Ha (s & _ & Hc). exact (acc_no_cycle y s (Ha s) Hc). }
  assert (Hinf : (exists s, s < n_states y /\ clos_trans nat (step y) s s) -> exists f : nat -> nat, forall i, step y (f i) (f (S i))).
  { intros (s & _ & Hc).
    assert (Hl : exists l, chain y (s :: l ++ [s])).
    { assert (G : forall a b, clos_trans_1n nat (step y) a b -> exists l, chain y (a :: l ++ [b])).
      { induction 1 as [a b He|a c b He Hr (l & IH)]; [exists []; cbn; easy|]. exists (c :: l). cbn. split; [exact He|exact IH]. }
      apply G. now apply clos_trans_t1n. }
    destruct Hl as (l & Hl). set (k := S (length l)).
    exists (fun i => nth (i mod k) (s :: l) 0). intros i.
    assert (Hstep : forall l a, chain y (a :: l) -> forall j, j < length l -> step y (nth j (a :: l) 0) (nth (S j) (a :: l) 0)).
    { clear. induction l as [|b l IH]; intros a [H1 H2] j Hj; [cbn in Hj; lia|]. destruct j as [|j]; [exact H1|].
      cbn in Hj. apply (IH b H2 j). lia. }
    assert (Hk : k <> 0) by (unfold k; lia). pose proof (Nat.mod_upper_bound i k Hk) as Hm.
    specialize (Hstep _ _ Hl (i mod k)). rewrite app_length in Hstep. cbn [length] in Hstep.
    assert (Hj : i mod k < length l + 1) by (unfold k in *; lia). specialize (Hstep Hj).
    assert (E1 : nth (i mod k) (s :: l ++ [s]) 0 = nth (i mod k) (s :: l) 0).
    { rewrite app_comm_cons, app_nth1; [reflexivity|]. exact Hm. }
    assert (E2 : nth (S (i mod k)) (s :: l ++ [s]) 0 = nth (S i mod k) (s :: l) 0).
    { destruct (Nat.eq_dec (S (i mod k)) k) as [E|E].
      - assert (Es : S i mod k = 0).
        { rewrite <- Nat.add_1_r, Nat.add_mod by exact Hk. destruct (Nat.eq_dec k 1) as [->|Hk1]; [apply Nat.mod_1_r|].
          rewrite (Nat.mod_small 1) by lia. rewrite Nat.add_1_r, E. now apply Nat.mod_same. }
        rewrite Es, E. unfold k. cbn. now rewrite app_nth2, Nat.sub_diag by lia.
      - assert (Es : S i mod k = S (i mod k)).
        { rewrite <- Nat.add_1_r, Nat.add_mod by exact Hk. rewrite (Nat.mod_small 1) by lia. rewrite Nat.add_1_r. apply Nat.mod_small. lia. }
        rewrite Es, app_comm_cons, app_nth1; [reflexivity|]. change (S (i mod k) < k). lia. }
    cbn [app] in Hstep. rewrite E1, E2 in Hstep. exact Hstep. }
  assert (Hacc : (forall s, Acc (fun t s => step y s t) s) -> ~ exists f : nat -> nat, forall i, step y (f i) (f (S i))).
  { intros Ha (f & Hf). assert (G : forall s, Acc (fun t s => step y s t) s -> forall i, f i <> s).
    { intros s Hacc. induction Hacc as [s _ IH]. intros i E. apply (IH (f (S i))) with (i := S i); [|reflexivity]. rewrite <- E. apply Hf. }
    exact (G (f 0) (Ha _) 0 eq_refl). }
  destruct (is_well_founded y).
  - split; [split; auto|]. split; [split; [easy|]|].
    + intros Hc. exfalso. exact (Hx (H1 eq_refl) Hc).
    + split; [|auto]. intros _. apply Hacc, H1, eq_refl.
  - split; [split; [easy|]|].
    + intros Ha. exfalso. exact (Hx Ha (H2 eq_refl)).
    + split; [split; auto|]. split; [easy|]. intros Hn. exfalso. apply Hn, Hinf, H2, eq_refl.
Qed.

(** The measure check. *)
Theorem C114_countdown (y : system) (m : list nat) : well_shaped y ->
  is_countdown_morphism y m = true <->
  length m = n_states y /\ closed y /\ forall s t, step y s t -> nth t m 0 < nth s m 0.
Proof.
  intros Hs. unfold is_countdown_morphism, well_shaped in *.
  destruct (Nat.eqb_spec (length m) (n_states y)) as [El|El]; cbn [negb]; [|split; [easy|]; intros (E & _); contradiction].
  rewrite forallb_forall. split.
  - intros H. assert (G : forall s t, s < n_states y -> In t (nth s (successors y) []) -> t < n_states y /\ nth t m 0 < nth s m 0).
    { intros s t Hlt Hin. specialize (H (s, nth s (successors y) [])). cbn [fst snd] in H. rewrite forallb_forall in H.
      assert (Hp : In (s, nth s (successors y) []) (combine (seq 0 (length (successors y))) (successors y))).
      { replace (s, nth s (successors y) []) with (nth s (combine (seq 0 (length (successors y))) (successors y)) (0, [])).
        - apply nth_In. rewrite combine_length, seq_length. lia.
        - rewrite combine_nth by (now rewrite seq_length). now rewrite seq_nth by lia. }
      specialize (H Hp t Hin). apply andb_true_iff in H as [H1 H2]. apply Nat.ltb_lt in H1, H2. now rewrite <- El. }
    split; [exact El|]. split.
    + intros l t Hl Ht. apply (In_nth _ _ []) in Hl as (s & Hlt & <-). apply (G s t); [lia|exact Ht].
    + intros s t (H1 & _ & H2). now apply G.
  - intros (_ & Hc & Hd) [s l] Hp. cbn [fst snd]. apply forallb_forall. intros t Ht.
    apply (In_nth _ _ (0, [])) in Hp as (i & Hi & E). rewrite combine_length, seq_length in Hi.
    rewrite combine_nth in E by (now rewrite seq_length). rewrite seq_nth in E by lia. injection E as <- <-. cbn [plus].
    assert (Hlt : t < n_states y) by (eapply Hc; [|exact Ht]; apply nth_In; lia).
    apply andb_true_iff. split; apply Nat.ltb_lt; [now rewrite El|]. apply Hd. split; [lia|]. split; [exact Hlt|exact Ht].
Qed.

(** The canonical measure exists exactly for well-founded systems and is the length of the longest walk. *)
Theorem C114_canonical (y : system) : well_shaped y ->
  (canonical_countdown_morphism y = None <-> is_well_founded y = false) /\
  forall m, canonical_countdown_morphism y = Some m ->
    length m = n_states y /\
    forall s, s < n_states y -> walks y (nth s m 0) s /\ forall k, walks y k s -> k <= nth s m 0.
Proof.
  intros Hs. unfold canonical_countdown_morphism. destruct (is_well_founded y) eqn:Ew; cbn [negb].
  - pose proof (well_founded_true y Hs Ew) as Hwf.
    destruct (ranks_spec y Hwf (seq 0 (n_states y)) (fun _ => 0) (fun _ => false)) as (rank & done & E & H1 & _ & H2); [easy|intros s; now rewrite in_seq0|].
    rewrite E. split; [easy|]. intros m [= <-]. split; [now rewrite map_length, seq_length|]. intros s Hlt.
    rewrite (nth_indep _ 0 (rank 0)) by (now rewrite map_length, seq_length). rewrite map_nth, seq_nth by exact Hlt. cbn [plus].
    destruct (H1 s Hlt) as [[W1 W2] _]; [apply H2; now apply in_seq0|]. split; [now apply walks_walk|]. intros k Hk. apply W2. now apply walks_walk.
  - split; easy.
Qed.

(** The theorem of the module: well-founded iff some measure passes the check; the canonical measure passes and
    is below every other one. *)
Theorem C114_duality (y : system) : well_shaped y -> closed y ->
  (is_well_founded y = true <-> exists m, is_countdown_morphism y m = true) /\
  forall m, canonical_countdown_morphism y = Some m ->
    is_countdown_morphism y m = true /\
    forall m' s, is_countdown_morphism y m' = true -> s < n_states y -> nth s m 0 <= nth s m' 0.
Proof.
  intros Hs Hc.
  assert (Hcan : forall m, canonical_countdown_morphism y = Some m -> is_countdown_morphism y m = true).
  { intros m E. apply C114_countdown; [exact Hs|]. destruct (C114_canonical y Hs) as [_ H]. destruct (H m E) as [Hl Hw].
    split; [exact Hl|]. split; [exact Hc|]. intros s t He. destruct (Hw t) as [W1 _]; [now destruct He as (_ & ? & _)|].
    destruct (Hw s) as [_ W2]; [now destruct He|]. assert (S (nth t m 0) <= nth s m 0); [|lia]. apply W2. now apply w_step with t. }
  split.
  - split.
    + intros Ew. destruct (canonical_countdown_morphism y) as [m|] eqn:E; [exists m; now apply Hcan|].
      apply (C114_canonical y Hs) in E. congruence.
    + intros (m & Hm). apply C114_countdown in Hm as (_ & _ & Hd); [|exact Hs]. destruct (is_well_founded y) eqn:Ew; [reflexivity|exfalso].
      apply (C114_well_founded y Hs) in Ew as (s & _ & Hcy).
      assert (G : forall a b, clos_trans nat (step y) a b -> nth b m 0 < nth a m 0).
      { induction 1 as [a b He|a b c _ IH1 _ IH2]; [now apply Hd|lia]. }
      specialize (G s s Hcy). lia.
  - intros m E. split; [now apply Hcan|]. intros m' s Hm' Hlt. apply C114_countdown in Hm' as (_ & _ & Hd); [|exact Hs].
    destruct (C114_canonical y Hs) as [_ H]. destruct (H m E) as [_ Hw]. destruct (Hw s Hlt) as [W _].
    assert (G : forall k s, walks y k s -> k <= nth s m' 0).
    { induction 1 as [|k a b He _ IH]; [lia|]. specialize (Hd a b He). lia. }
    now apply G.
Qed.

(** The path system counts down from its length. *)
Theorem C114_path (n : nat) : canonical_countdown_morphism (path n) = Some (rev (seq 0 n)).
Proof.
  assert (Hn : n_states (path n) = n) by reflexivity.
  assert (Hs : well_shaped (path n)) by (unfold well_shaped, path; cbn; now rewrite map_length, seq_length).
  assert (He : forall s t, step (path n) s t <-> t = s + 1 /\ t < n).
  { intros s t. unfold step. rewrite Hn. unfold path. cbn [successors]. split.
    - intros (H1 & H2 & H3). rewrite (nth_indep _ [] ((fun s => if s + 1 <? n then [s + 1] else []) 0)) in H3 by (now rewrite map_length, seq_length).
      rewrite (map_nth (fun s => if s + 1 <? n then [s + 1] else [])), seq_nth in H3 by exact H1. cbn [plus] in H3.
      destruct (s + 1 <? n); [|destruct H3]. destruct H3 as [<-|[]]. easy.
    - intros (-> & H2). split; [lia|]. split; [exact H2|].
      rewrite (nth_indep _ [] ((fun s => if s + 1 <? n then [s + 1] else []) 0)) by (rewrite map_length, seq_length; lia).
      rewrite (map_nth (fun s => if s + 1 <? n then [s + 1] else [])), seq_nth by lia. cbn [plus]. apply Nat.ltb_lt in H2. rewrite H2. now left. }
  assert (Hw : forall k s, walks (path n) k s -> k = 0 \/ s + k < n).
  { induction 1 as [|k s t H _ IH]; [now left|]. apply He in H. lia. }
  assert (Hw' : forall k s, s + k < n -> walks (path n) k s).
  { induction k as [|k IH]; intros s H; [constructor|]. apply w_step with (s + 1); [apply He; lia|]. apply IH. lia. }
  destruct (canonical_countdown_morphism (path n)) as [m|] eqn:E.
  - f_equal. destruct (C114_canonical (path n) Hs) as [_ H]. destruct (H m E) as [Hl Hm]. rewrite Hn in *.
    apply nth_ext with (d := 0) (d' := 0); [now rewrite rev_length, seq_length|]. intros s Hlt. rewrite Hl in Hlt.
    destruct (Hm s Hlt) as [W1 W2]. rewrite rev_nth, seq_length, seq_nth by (rewrite ?seq_length; lia). cbn [plus].
    specialize (W2 (n - S s)). apply Hw in W1. assert (n - S s <= nth s m 0) by (apply W2, Hw'; lia). lia.
  - exfalso. apply (C114_canonical (path n) Hs) in E. apply (C114_well_founded (path n) Hs) in E as (s & _ & Hc).
    assert (G : forall a b, clos_trans nat (step (path n)) a b -> a < b).
    { induction 1 as [a b H|a b c _ IH1 _ IH2]; [apply He in H; lia|lia]. }
    specialize (G s s Hc). lia.
Qed.

(** Outside the state range the two sides disagree: the acyclicity test skips a dangling successor and a canonical
    measure is returned, but no measure passes the check. *)
Theorem C114_dangling_refuted : exists y, well_shaped y /\ is_well_founded y = true /\
  (exists m, canonical_countdown_morphism y = Some m) /\ forall m, is_countdown_morphism y m = false.
Proof.
  exists (Sys 1 [[1]]). split; [reflexivity|]. split; [reflexivity|]. split; [eexists; reflexivity|].
  intros [|a [|b m]]; reflexivity.
Qed.

Example C114_example :
  canonical_countdown_morphism (Sys 5 [[1; 2]; [3]; [3; 1]; []; [0; 3]]) = Some [3; 1; 2; 0; 4] /\
  is_countdown_morphism (Sys 3 [[1]; [2]; []]) [9; 4; 0] = true /\ is_countdown_morphism (Sys 3 [[1]; [2]; []]) [9; 4; 4] = false /\
  is_well_founded (Sys 4 [[1]; [2]; [1; 3]; []]) = false /\ canonical_countdown_morphism (path 4) = Some [3; 2; 1; 0].
Proof. repeat split; reflexivity. Qed.
