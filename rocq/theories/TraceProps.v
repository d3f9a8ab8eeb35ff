(** C115: commutation posets and schedules of shared-memory operations. *)
From Coq Require Import List Arith NArith ZArith Bool Lia Permutation Relations.
From Verif Require Import TraceModel TraceProofs.
Import ListNotations.

(** Order required by the edges, directly or through other steps. *)
Notation must es := (clos_trans nat (fun a b => In (a, b) es)).
Definition no_cycle (es : list (nat * nat)) : Prop := forall i, ~ must es i i.
(** [l] runs every step below [n] once and respects every edge. *)
Definition schedule (n : nat) (es : list (nat * nat)) (l : list nat) : Prop :=
  Permutation l (seq 0 n) /\ forall a b, a <= b < n -> ~ In (nth b l 0, nth a l 0) es.

Lemma new_transitive n es : in_range n es -> transitive (poset_new n es).
Proof. intros Hr a b c H1 H2. rewrite poset_new_spec in * by exact Hr. eapply t_trans; eassumption. Qed.
Lemma new_acyclic n es : in_range n es -> acyclic (poset_new n es) <-> no_cycle es.
Proof.
  intros Hr. split.
  - intros H i Hi. rewrite <- (poset_new_spec n) in Hi by exact Hr. pose proof (poset_new_range n es i i Hr Hi) as [Hlt _].
    rewrite (H i Hlt) in Hi. discriminate.
  - intros H i _. destruct (prec (poset_new n es) i i) eqn:E; [|reflexivity]. rewrite poset_new_spec in E by exact Hr. now apply H in E.
Qed.

(** The order relation built from the edges is exactly their transitive closure. *)
Theorem C115_precedes n es i j : in_range n es -> precedes (poset_new n es) i j = true <-> must es i j.
Proof. apply poset_new_spec. Qed.

Lemma valid_acyclic p : forall l m, valid p m l -> forall x, In x l -> prec p x x = false.
Proof.
  induction l as [|j l IH]; intros m Hv x Hx; [destruct Hx|]. destruct Hv as [Hj Hv]. destruct Hx as [<-|Hx]; [|now apply (IH _ Hv)].
  apply in_enabled in Hj as (H1 & H2 & H3). destruct (prec p j j) eqn:E; [|reflexivity]. rewrite (H3 j H1 E) in H2. discriminate.
Qed.
Lemma extension_acyclic p l : In l (linear_extensions p) -> acyclic p.
Proof.
  intros H. apply le_rec_in in H as (s & -> & Hl & Hv). destruct (valid_props p s 0 Hv) as (H1 & H2 & _). intros i Hi.
  apply (valid_acyclic p s 0 Hv). assert (P : Permutation s (seq 0 (size p))).
  { apply NoDup_Permutation_bis; [exact H1|rewrite seq_length; lia|]. intros x Hx. apply in_seq. destruct (H2 x Hx). lia. }
  apply (Permutation_in _ (Permutation_sym P)), in_seq. lia.
Qed.
Lemma fop_nth {A} (R : A -> A -> Prop) d l : ForallOrdPairs R l <-> forall a b, a < b < length l -> R (nth a l d) (nth b l d).
Proof.
  split.
  - induction 1 as [|x l H _ IH]; intros a b Hab; cbn in Hab; [lia|]. destruct b as [|b]; [lia|]. destruct a as [|a]; cbn.
    + rewrite Forall_forall in H. apply H, nth_In. lia.
    + apply IH. lia.
  - induction l as [|x l IH]; intros H; constructor.
    + apply Forall_forall. intros y Hy. apply (In_nth _ _ d) in Hy as (b & Hb & <-). apply (H 0 (S b)). cbn. lia.
    + apply IH. intros a b Hab. apply (H (S a) (S b)). cbn. lia.
Qed.
Lemma schedule_order n es l : in_range n es -> schedule n es l -> forall x y, must es x y ->
  forall a b, a < n -> b < n -> nth a l 0 = x -> nth b l 0 = y -> a < b.
Proof.
  intros Hr [Hp He] x y H. induction H as [x y H|x y z H1 IH1 H2 IH2]; intros a b Ha Hb Ea Eb.
  - destruct (lt_dec a b) as [|Hn]; [assumption|]. exfalso. apply (He b a); [lia|]. now rewrite Ea, Eb.
  - assert (Hy : y < n). { rewrite <- (poset_new_spec n) in H1 by exact Hr. apply (poset_new_range n es x y Hr H1). }
    assert (Hin : In y l) by (apply (Permutation_in _ (Permutation_sym Hp)), in_seq; lia).
    apply (In_nth _ _ 0) in Hin as (c & Hc & Ec). rewrite (Permutation_length Hp), seq_length in Hc.
    specialize (IH1 a c Ha Hc Ea Ec). specialize (IH2 c b Hc Hb Ec Eb). lia.
Qed.
Lemma schedule_acyclic n es l : in_range n es -> schedule n es l -> no_cycle es.
Proof.
  intros Hr Hs i Hi. assert (Hlt : i < n). { pose proof Hi as Hi'. rewrite <- (poset_new_spec n) in Hi' by exact Hr. apply (poset_new_range n es i i Hr Hi'). }
  pose proof Hs as [Hp _]. assert (Hin : In i l) by (apply (Permutation_in _ (Permutation_sym Hp)), in_seq; lia).
  apply (In_nth _ _ 0) in Hin as (c & Hc & Ec). rewrite (Permutation_length Hp), seq_length in Hc.
  pose proof (schedule_order n es l Hr Hs i i Hi c c Hc Hc Ec Ec). lia.
Qed.
Lemma schedule_spec n es l : in_range n es -> schedule n es l <-> In l (linear_extensions (poset_new n es)).
Proof.
  intros Hr. split.
  - intros Hs. apply extensions_spec; [apply new_acyclic; [exact Hr|now apply (schedule_acyclic n es l)]|].
    pose proof Hs as [Hp He]. split; [exact Hp|]. apply (fop_nth _ 0). intros a b Hab.
    rewrite (Permutation_length Hp), seq_length in Hab. destruct (prec (poset_new n es) (nth b l 0) (nth a l 0)) eqn:E; [|reflexivity].
    rewrite poset_new_spec in E by exact Hr. pose proof (schedule_order n es l Hr Hs _ _ E b a ltac:(lia) ltac:(lia) eq_refl eq_refl). lia.
  - intros H. pose proof (extension_acyclic _ _ H) as Ha. apply extensions_spec in H as [Hp Hb]; [|exact Ha]. split; [exact Hp|].
    intros a b Hab Hin. assert (Hpr : prec (poset_new n es) (nth b l 0) (nth a l 0) = true) by (apply poset_new_spec; [exact Hr|now apply t_step]).
    destruct (Nat.eq_dec a b) as [->|Hne].
    + rewrite Ha in Hpr; [discriminate|]. apply (Hr _ _ Hin).
    + unfold before_ok in Hb. rewrite (fop_nth _ 0) in Hb. rewrite (Hb a b) in Hpr; [discriminate|]. rewrite (Permutation_length Hp). cbn [size poset_new]. rewrite seq_length. lia.
Qed.
(** [linear_extensions] lists exactly the schedules that respect the edges, each once; there is none exactly when
    the edges have a cycle. *)
Theorem C115_extensions n es : in_range n es ->
  (forall l, In l (linear_extensions (poset_new n es)) <-> schedule n es l) /\
  NoDup (linear_extensions (poset_new n es)) /\
  (linear_extensions (poset_new n es) = [] <-> ~ no_cycle es).
Proof.
  intros Hr. split; [intros l; symmetry; now apply schedule_spec|]. split; [apply le_rec_nodup|]. split.
  - intros E Hc. apply (new_acyclic n) in Hc; [|exact Hr].
    destruct (greedy_spec _ (new_transitive n es Hr) Hc n 0 []) as (l & _ & Hl & Hv & _); [constructor| |cbn; lia|].
    { intros x. rewrite has_zero. cbn [In]. intuition discriminate. }
    assert (In l (linear_extensions (poset_new n es))) as H; [|now rewrite E in H]. apply le_rec_in. exists l. easy.
  - intros Hc. destruct (linear_extensions (poset_new n es)) as [|l L] eqn:E; [reflexivity|]. exfalso. apply Hc.
    apply (schedule_acyclic n es l Hr), schedule_spec; [exact Hr|]. rewrite E. now left.
Qed.
(** [canonical_extension] succeeds exactly when there is no cycle, and then gives the lexicographically first schedule. *)
Theorem C115_canonical n es : in_range n es ->
  (canonical_extension (poset_new n es) = None <-> ~ no_cycle es) /\
  forall l, canonical_extension (poset_new n es) = Some l -> schedule n es l /\ forall l', schedule n es l' -> lex l l'.
Proof.
  intros Hr. unfold canonical_extension. rewrite canonical_greedy. cbn [app].
  assert (Hv : forall k m l, greedy (poset_new n es) k m = Some l -> length l = k /\ valid (poset_new n es) m l).
  { induction k as [|k IH]; intros m l; cbn [greedy]; [intros [= <-]; easy|]. destruct (enabled _ m) as [|x r] eqn:E; [discriminate|].
    destruct (greedy _ k (add m x)) as [s|] eqn:Es; [|discriminate]. intros [= <-]. destruct (IH _ _ Es) as [H1 H2]. split; [cbn [length]; lia|]. split; [rewrite E; now left|exact H2]. }
  assert (Hext : forall l, greedy (poset_new n es) n 0 = Some l -> schedule n es l).
  { intros l H. destruct (Hv _ _ _ H) as [H1 H2]. apply schedule_spec; [exact Hr|]. apply le_rec_in. exists l. easy. }
  assert (Hg : no_cycle es -> exists l, greedy (poset_new n es) n 0 = Some l /\ forall l', schedule n es l' -> lex l l').
  { intros Hc. apply (new_acyclic n) in Hc; [|exact Hr].
    destruct (greedy_spec _ (new_transitive n es Hr) Hc n 0 []) as (l & E & Hl & Hv' & Hlex); [constructor| |cbn; lia|].
    { intros x. rewrite has_zero. cbn [In]. intuition discriminate. }
    exists l. split; [exact E|]. intros l' Hs. apply schedule_spec in Hs; [|exact Hr]. apply le_rec_in in Hs as (s & -> & S1 & S2). now apply Hlex. }
  change (size (poset_new n es)) with n. destruct (greedy (poset_new n es) n 0) as [l|] eqn:E.
  - specialize (Hext l eq_refl). split.
    + split; [discriminate|]. intros H. exfalso. apply H. now apply (schedule_acyclic n es l).
    + intros ? [= <-]. split; [exact Hext|]. destruct Hg as (l2 & [= <-] & H); [now apply (schedule_acyclic n es l)|exact H].
  - split; [|discriminate]. split; [|reflexivity]. intros _ Hc. destruct (Hg Hc) as (? & [=] & _).
Qed.
(** Any schedule turns into any other by exchanging neighbouring steps that the order leaves unrelated. *)
Theorem C115_connected n es l l' : in_range n es -> schedule n es l -> schedule n es l' ->
  clos_refl_trans (list nat) (fun s t => exists a x y b, s = a ++ x :: y :: b /\ t = a ++ y :: x :: b /\ x <> y /\ ~ must es x y /\ ~ must es y x) l l'.
Proof.
  intros Hr H H'. pose proof (schedule_acyclic _ _ _ Hr H) as Hc. apply (new_acyclic n) in Hc; [|exact Hr].
  apply schedule_spec in H, H'; try exact Hr. apply extensions_spec in H as [P1 B1]; [|exact Hc]. apply extensions_spec in H' as [P2 B2]; [|exact Hc].
  assert (C : clos_refl_trans (list nat) (commute (poset_new n es)) l l').
  { apply extensions_connected; auto; [now rewrite P1|]. apply Permutation_NoDup with (seq 0 n); [now symmetry|apply seq_NoDup]. }
  clear -C Hr. induction C as [s t Hs|s|s t u _ IH1 _ IH2]; [|apply rt_refl|eapply rt_trans; eassumption]. apply rt_step.
  destruct Hs as [a x y b H]. exists a, x, y, b. split; [reflexivity|]. split; [reflexivity|]. unfold independent in H. rewrite !andb_true_iff, !negb_true_iff in H.
  destruct H as [[H1 H2] H3]. apply Nat.eqb_neq in H1. rewrite <- !(poset_new_spec n es) by exact Hr. rewrite H2, H3. repeat split; congruence.
Qed.
(** The cubes fill in for every order, and the Euler characteristic is 1 whenever there is no cycle. *)
Theorem C115_cubes n es : in_range n es ->
  satisfies_cube_condition (poset_new n es) = true /\ (no_cycle es -> euler_characteristic (poset_new n es) = 1%Z).
Proof.
  intros Hr. split; [apply cube_condition|]. intros Hc. apply euler_one; [now apply new_transitive|now apply new_acyclic].
Qed.
(** With a cycle it is not 1. *)
Theorem C115_cyclic_euler_refuted : exists n es, in_range n es /\ euler_characteristic (poset_new n es) <> 1%Z.
Proof. exists 2, [(0, 1); (1, 0)]. split; [|vm_compute; discriminate]. intros a b [[= <- <-]|[[= <- <-]|[]]]; lia. Qed.

(** [permutations] lists every ordering exactly once. *)
Lemma perm_head k arr i l : length arr = i + k -> In l (perm_rec k arr i) -> firstn i l = firstn i arr.
Proof.
  intros Hl H. rewrite <- (firstn_skipn i arr) in H. assert (Hf : length (firstn i arr) = i) by (rewrite firstn_length; lia).
  rewrite <- Hf in H at 3. apply perm_rec_in in H as (s' & _ & ->); [|rewrite skipn_length; lia].
  rewrite firstn_app, Hf, Nat.sub_diag. cbn. rewrite app_nil_r. rewrite firstn_all2 by lia. reflexivity.
Qed.
Lemma nth_firstn_lt {A} (d : A) : forall l i j, j < i -> nth j (firstn i l) d = nth j l d.
Proof. induction l as [|a l IH]; intros [|i] [|j] H; cbn; try lia; auto. apply IH. lia. Qed.
Lemma perm_nodup : forall k arr i, length arr = i + k -> NoDup arr -> NoDup (perm_rec k arr i).
Proof.
  induction k as [|k IH]; intros arr i Hl Hn; cbn [perm_rec]; [constructor; [easy|constructor]|].
  assert (Hsl : forall j, length (swap arr i j) = i + 1 + k) by (intros j; unfold swap; rewrite !set_nth_length; lia).
  assert (Hh : forall j l, j < length arr -> i <= j -> In l (perm_rec k (swap arr i j) (i + 1)) -> nth i l 0 = nth j arr 0).
  { intros j l Hj Hij H. apply perm_head in H; [|apply Hsl]. assert (E : nth i (firstn (i + 1) l) 0 = nth i (firstn (i + 1) (swap arr i j)) 0) by now rewrite H.
    rewrite !nth_firstn_lt in E by lia. rewrite E. unfold swap. rewrite !nth_set_nth, !set_nth_length. destruct (Nat.eqb_spec i j) as [->|].
    - destruct (Nat.ltb_spec j (length arr)); [reflexivity|lia].
    - cbn [andb]. rewrite Nat.eqb_refl. destruct (Nat.ltb_spec i (length arr)); [reflexivity|lia]. }
  assert (Hb : forall j, j < length arr -> i <= j -> NoDup (perm_rec k (swap arr i j) (i + 1))).
  { intros j Hj Hij. apply IH; [apply Hsl|]. apply (NoDup_nth (swap arr i j) 0). intros a b Ha Hb. rewrite Hsl in Ha, Hb. unfold swap.
    rewrite !nth_set_nth, !set_nth_length. destruct (Nat.ltb_spec i (length arr)) as [Li|]; [|lia]. destruct (Nat.ltb_spec j (length arr)) as [Lj|]; [|lia].
    rewrite !andb_true_r. pose proof (proj1 (NoDup_nth arr 0) Hn) as Hi.
    destruct (Nat.eqb_spec a j), (Nat.eqb_spec a i), (Nat.eqb_spec b j), (Nat.eqb_spec b i); intros E; subst; try reflexivity; try lia;
      apply Hi in E; lia. }
  assert (G : forall l, NoDup l -> (forall j, In j l -> i <= j < length arr) -> NoDup (flat_map (fun j => perm_rec k (swap arr i j) (i + 1)) l)).
  { induction l as [|j l IHl]; intros Hnl Hj; cbn; [constructor|]. inversion Hnl as [|? ? N1 N2]; subst.
    assert (Hd : forall x, In x (perm_rec k (swap arr i j) (i + 1)) -> ~ In x (flat_map (fun j => perm_rec k (swap arr i j) (i + 1)) l)).
    { intros x Hx Hy. apply in_flat_map in Hy as (c & Hc & Hy). pose proof (Hj j (or_introl eq_refl)). pose proof (Hj c (or_intror Hc)).
      apply Hh in Hx, Hy; try lia. apply N1. replace j with c; [exact Hc|]. apply (proj1 (NoDup_nth arr 0) Hn); try lia. }
    pose proof (Hj j (or_introl eq_refl)).
    generalize (Hb j ltac:(lia) ltac:(lia)) (IHl N2 (fun c Hc => Hj c (or_intror Hc))). revert Hd.
    generalize (perm_rec k (swap arr i j) (i + 1)) (flat_map (fun j => perm_rec k (swap arr i j) (i + 1)) l).
    clear. intros a b Hd Ha Hb. induction a as [|x a IH]; cbn; [exact Hb|]. inversion Ha as [|? ? H1 H2]; subst. constructor.
    - intros H. apply in_app_or in H as [H|H]; [contradiction|]. apply (Hd x); [now left|exact H].
    - apply IH; [|exact H2]. intros y Hy. apply Hd. now right. }
  apply G; [apply seq_NoDup|]. intros j Hj. apply in_seq in Hj. lia.
Qed.
Theorem C115_permutations k :
  (forall l, In l (permutations k) <-> Permutation l (seq 0 k)) /\ NoDup (permutations k) /\ length (permutations k) = fact k.
Proof.
  unfold permutations. split; [|split].
  - intros l. rewrite (perm_rec_in k [] (seq 0 k) l) by apply seq_length. split; [intros (s & H & ->); exact H|]. intros H. now exists l.
  - apply perm_nodup; [now rewrite seq_length|apply seq_NoDup].
  - apply perm_rec_length. now rewrite seq_length.
Qed.

(** Two operations accepted by the independence test commute on every state. *)
Theorem C115_bernstein a b state : bernstein_independent a b = true -> apply a (apply b state) = apply b (apply a state).
Proof. apply apply_commute. Qed.
(** The test is the best possible for given cell sets: when it fails, some functions on the same cells do not commute. *)
Definition zeros (n : nat) : list Z := repeat 0%Z n.
Definition total (l : list Z) : Z := fold_right Z.add 0%Z l.
Lemma read_zeros n l : total (map (fun r => nth r (zeros n) 0%Z) l) = 0%Z.
Proof. induction l as [|r l IH]; [reflexivity|]. cbn [map total fold_right]. unfold total in IH. rewrite IH. unfold zeros. now rewrite nth_repeat. Qed.
Lemma read_one n w l : w < n -> In w l -> (0 < total (map (fun r => nth r (set_nth (zeros n) w 1%Z) 0%Z) l))%Z.
Proof.
  intros Hw. assert (Hnn : forall l', (0 <= total (map (fun r => nth r (set_nth (zeros n) w 1%Z) 0%Z) l'))%Z).
  { induction l' as [|r l' IH]; [cbn; lia|]. cbn [map total fold_right]. unfold total in IH. rewrite nth_set_nth. unfold zeros at 1 2. rewrite nth_repeat.
    destruct (_ && _); lia. }
  induction l as [|r l IH]; [intros []|]. intros [->|H]; cbn [map total fold_right]; rewrite nth_set_nth.
  - rewrite Nat.eqb_refl. unfold zeros at 1. rewrite repeat_length. destruct (Nat.ltb_spec w n); [|lia]. cbn [andb]. specialize (Hnn l). unfold total in Hnn. lia.
  - specialize (IH H). unfold total in IH. unfold zeros at 1 2. rewrite nth_repeat. destruct (_ && _); lia.
Qed.
Lemma read_write ra wa rb wb : wa <> wb -> In wa rb ->
  let n := S (wa + wb) in let a := Op ra wa (fun _ => 1%Z) in let b := Op rb wb total in
  apply a (apply b (zeros n)) <> apply b (apply a (zeros n)).
Proof.
  intros Hne Hin n a b E. apply (f_equal (fun s => nth wb s 0%Z)) in E. unfold apply, a, b in E. cbn [write reads fn] in E.
  rewrite !nth_set_nth, !set_nth_length, read_zeros in E. rewrite Nat.eqb_refl in E. destruct (Nat.eqb_spec wb wa); [congruence|]. cbn [andb] in E.
  unfold zeros at 1 2 3 in E. rewrite repeat_length, nth_repeat in E. destruct (Nat.ltb_spec wb n); [|unfold n in *; lia].
  pose proof (read_one n wa rb ltac:(unfold n; lia) Hin). lia.
Qed.
Theorem C115_bernstein_exact ra wa rb wb :
  (forall fa fb, bernstein_independent (Op ra wa fa) (Op rb wb fb) = false) ->
  exists fa fb state, wa < length state /\ wb < length state /\
    apply (Op ra wa fa) (apply (Op rb wb fb) state) <> apply (Op rb wb fb) (apply (Op ra wa fa) state).
Proof.
  intros H. specialize (H total total). destruct (Nat.eq_dec wa wb) as [->|Hne].
  - exists (fun _ => 1%Z), (fun _ => 2%Z), (zeros (S wb)). unfold zeros. rewrite repeat_length. split; [lia|]. split; [lia|]. intros E.
    apply (f_equal (fun s => nth wb s 0%Z)) in E. unfold apply in E. cbn [write reads fn] in E. rewrite !nth_set_nth, !set_nth_length, repeat_length, Nat.eqb_refl in E.
    destruct (Nat.ltb_spec wb (S wb)); [discriminate|lia].
  - destruct (in_dec Nat.eq_dec wa rb) as [Hin|Hout].
    + exists (fun _ => 1%Z), total, (zeros (S (wa + wb))). unfold zeros at 1 2. rewrite repeat_length. split; [lia|]. split; [lia|]. now apply read_write.
    + destruct (in_dec Nat.eq_dec wb ra) as [Hin|Hout2].
      * exists total, (fun _ => 1%Z), (zeros (S (wb + wa))). unfold zeros at 1 2. rewrite repeat_length. split; [lia|]. split; [lia|].
        apply not_eq_sym. apply read_write; auto.
      * exfalso. assert (bernstein_independent (Op ra wa total) (Op rb wb total) = true); [|congruence]. apply bernstein_spec. cbn. auto.
Qed.
(** But for particular functions it is not necessary: two writes of the same value to one cell commute. *)
Theorem C115_bernstein_converse_refuted : exists a b,
  (forall state, apply a (apply b state) = apply b (apply a state)) /\ bernstein_independent a b = false.
Proof. exists (Op [] 0 (fun _ => 7%Z)), (Op [] 0 (fun _ => 7%Z)). split; reflexivity. Qed.

(** Every schedule that respects the conflicts ends in the state of the program order. *)
Theorem C115_deterministic ops l init : In l (linear_extensions (trace_poset ops)) ->
  run ops l init = run ops (seq 0 (length ops)) init.
Proof.
  intros H. pose proof (trace_acyclic ops) as Ha. apply extensions_spec in H as [P B]; [|exact Ha].
  assert (B0 : before_ok (trace_poset ops) (seq 0 (length ops))).
  { apply (fop_nth _ 0). intros a b Hab. rewrite seq_length in Hab. rewrite !seq_nth by lia. destruct (prec _ _ _) eqn:E; [|reflexivity].
    apply trace_prec_lt in E. lia. }
  assert (C := extensions_connected (trace_poset ops) (seq 0 (length ops)) l (Permutation_sym P) (seq_NoDup _ _) B0 B).
  apply (run_connected ops l _ init C). intros x Hx. apply (Permutation_in _ P), in_seq in Hx. exact (proj2 Hx).
Qed.
(** Program order is one of them, and a schedule is one of them iff conflicting operations keep their order. *)
Theorem C115_trace_schedules ops l : In l (linear_extensions (trace_poset ops)) <->
  Permutation l (seq 0 (length ops)) /\
  forall a b, a < b < length ops -> nth b l 0 < nth a l 0 -> bernstein_independent (nth (nth b l 0) ops idle) (nth (nth a l 0) ops idle) = true.
Proof.
  unfold trace_poset. rewrite <- schedule_spec by apply conflicts_range. split; intros [P H]; (split; [exact P|]).
  - intros a b Hab Hlt. destruct (bernstein_independent _ _) eqn:E; [reflexivity|]. exfalso. apply (H a b); [lia|]. apply in_conflicts. split; [|exact E].
    assert (Hin : In (nth a l 0) l) by (apply nth_In; rewrite (Permutation_length P), seq_length; lia).
    apply (Permutation_in _ P), in_seq in Hin. lia.
  - intros a b Hab Hin. apply in_conflicts in Hin as [Hlt E]. destruct (Nat.eq_dec a b) as [->|]; [lia|]. rewrite (H a b) in E by lia. discriminate.
Qed.
(** When all pairs are independent, every order of the operations gives one state. *)
Theorem C115_all_orders ops l l' init : (forall i j, i < j < length ops -> bernstein_independent (nth i ops idle) (nth j ops idle) = true) ->
  In l (permutations (length ops)) -> In l' (permutations (length ops)) -> run ops l init = run ops l' init.
Proof.
  intros H. assert (G : forall l, In l (permutations (length ops)) -> run ops l init = run ops (seq 0 (length ops)) init).
  { intros s Hs. apply C115_permutations in Hs. apply C115_deterministic, C115_trace_schedules. split; [exact Hs|]. intros a b Hab Hlt. apply H.
    split; [exact Hlt|]. assert (Hin : In (nth a s 0) s) by (apply nth_In; rewrite (Permutation_length Hs), seq_length; lia).
    apply (Permutation_in _ Hs), in_seq in Hin. lia. }
  intros H1 H2. rewrite (G l H1), (G l' H2). reflexivity.
Qed.

(** Two independent writes, then one operation reading both: two schedules, same state; the opposite order differs. *)
Example C115_example :
  let ops := [Op [] 0 (fun _ => 5%Z); Op [] 1 (fun _ => 7%Z); Op [0; 1] 2 total] in
  linear_extensions (trace_poset ops) = [[0; 1; 2]; [1; 0; 2]] /\
  canonical_extension (trace_poset ops) = Some [0; 1; 2] /\
  euler_characteristic (trace_poset ops) = 1%Z /\
  run ops [1; 0; 2] [0; 0; 0]%Z = [5; 7; 12]%Z /\ run ops [2; 0; 1] [0; 0; 0]%Z = [5; 7; 0]%Z /\
  length (permutations 3) = 6 /\ linear_extensions (poset_new 2 [(0, 1); (1, 0)]) = [] /\
  canonical_extension (poset_new 2 [(0, 1); (1, 0)]) = None.
Proof. vm_compute. repeat split. Qed.
