(** C67 and C68: the specialised integer maps and sets are finite maps and sets. *)
From Coq Require Import ZArith List Lia.
From stdpp Require Import list gmap.
From Verif Require Import MachInt IntMapModel IntMapProofs IntMapDense.
Open Scope Z_scope.

(** A program's inserts, one after another. *)
Fixpoint run {A S} (step : S -> A -> option S) (s : S) (ops : list A) : option S :=
  match ops with [] => Some s | a :: ops => s ← step s a; run step s ops end.
(** What they should leave. *)
Definition inserted (ops : list (Z * Z)) : gmap Z Z := fold_left (fun M kv => <[kv.1 := kv.2]> M) ops ∅.
Definition keys (ops : list Z) : gset Z := list_to_set ops.
(** The two constructors. *)
Definition fresh {V} (zero : V) (m : table V) : Prop := m = new zero \/ exists cap, m = with_capacity zero cap.

Lemma run_inv {A S G} (step : S -> A -> option S) (I : S -> G -> Prop) (g : G -> A -> G) (P : A -> Prop) :
  (forall s x a, P a -> I s x -> exists s', step s a = Some s' /\ I s' (g x a)) ->
  forall ops s x, Forall P ops -> I s x -> exists s', run step s ops = Some s' /\ I s' (fold_left g ops x).
Proof.
  intros H ops. induction ops as [| a ops IH]; intros s x HP HI; cbn.
  - exists s. auto.
  - apply Forall_cons_1 in HP as [Ha HP]. destruct (H s x a Ha HI) as (s' & -> & HI'). cbn. apply IH; assumption.
Qed.
Lemma fresh_inv {V} (zero : V) hash m : fresh zero m -> inv hash m (∅ : gmap Z V).
Proof. intros [-> | [cap ->]]; [apply inv_new | apply inv_with_capacity]. Qed.
Lemma inserted_nil ops : size (inserted ops) = 0%nat <-> ops = [].
Proof.
  split; [| intros ->; apply map_size_empty]. destruct ops as [| op ops _] using rev_ind; [reflexivity |]. unfold inserted. rewrite fold_left_app. cbn.
  rewrite map_size_empty_iff. intros E. apply insert_non_empty in E. destruct E.
Qed.
Lemma Forall_top {A} (l : list A) : Forall (fun _ => True) l.
Proof. induction l; constructor; auto. Qed.

(** What the users of a map can observe. *)
Definition observes {V} (hash : Z -> Z) (m : table V) (M : gmap Z V) (keys_ok : Z -> Prop) : Prop :=
  (forall k, keys_ok k -> get hash m k = Some (M !! k) /\ contains_key hash m k = Some (bool_decide (is_Some (M !! k)))) /\
  count m = size M.
Lemma inv_observes {V} hash (m : table V) M P : inv hash m M -> observes hash m M P.
Proof.
  intros I. split; [| apply I]. intros k _. unfold contains_key. rewrite (get_spec hash m M k I). split; [reflexivity |]. cbn.
  destruct (M !! k); reflexivity.
Qed.

(** [LogosI64Map]: after any inserts into a fresh map of any capacity, every lookup ends inside the
    table and returns the last value inserted for its key, and [len] is the number of keys. *)
Theorem C67_map m0 ops : fresh 0 m0 ->
  exists m, run (fun m kv => i64map_insert m kv.1 kv.2) m0 ops = Some m /\
    (forall k, i64map_get m k = Some (inserted ops !! k) /\ contains_key hash64 m k = Some (bool_decide (is_Some (inserted ops !! k)))) /\
    count m = size (inserted ops) /\ (is_empty m = true <-> ops = []).
Proof.
  intros F. destruct (run_inv (fun m kv => i64map_insert m kv.1 kv.2) (inv hash64) (fun M kv => <[kv.1 := kv.2]> M) (fun _ => True)) with (ops := ops) (s := m0) (x := ∅ : gmap Z Z)
    as (m & E & I).
  - intros s x [k v] _ I. apply insert_spec. exact I.
  - apply Forall_top.
  - apply (fresh_inv 0). exact F.
  - exists m. split; [exact E |]. destruct (inv_observes hash64 m _ (fun _ => True) I) as [O C]. split; [intros k; apply O; exact Logic.I |].
    split; [exact C |]. unfold is_empty. rewrite Nat.eqb_eq, C. apply inserted_nil.
Qed.

(** The probe table never violates the assumption the code makes without checking: once allocated it
    has [mask + 1] slots, a power of two, and at most three quarters of them are taken. *)
Theorem C67_table m0 ops m : fresh 0 m0 -> run (fun m kv => i64map_insert m kv.1 kv.2) m0 ops = Some m ->
  mask m <> 0%nat -> length (entries m) = (mask m + 1)%nat /\ (exists b, length (entries m) = 2 ^ b)%nat /\
    (length (List.filter (fun e => negb (e.1 =? 0)%Z) (entries m)) * 4 <= length (entries m) * 3)%nat.
Proof.
  intros F E N. destruct (run_inv (fun m kv => i64map_insert m kv.1 kv.2) (inv hash64) (fun M kv => <[kv.1 := kv.2]> M) (fun _ => True)) with (ops := ops) (s := m0) (x := ∅ : gmap Z Z)
    as (m' & E' & I).
  - intros s x [k v] _ I. apply insert_spec. exact I.
  - apply Forall_top.
  - apply (fresh_inv 0). exact F.
  - rewrite E in E'. injection E' as <-. destruct (inv_shape _ _ _ I) as [[? _] | (b & Hb & Hm & W & Fl)]; [contradiction |].
    rewrite (wf_len _ _ _ W), Hm. pose proof (pow2_8 b Hb). split; [lia | split; [exists b; reflexivity | exact Fl]].
Qed.

(** [with_capacity(cap)] is enough for [cap] keys: the table is never reallocated. *)
Lemma capacity_slots cap : (0 < cap)%nat -> ((cap + 1) * 4 <= Nat.max (next_power_of_two (cap * 4 / 3 + 1)) 8 * 3)%nat.
Proof.
  intros H. unfold next_power_of_two. set (x := (cap * 4 / 3 + 1)%nat).
  assert (x <= 2 ^ Nat.log2_up x)%nat as Hx.
  { destruct (decide (1 < x)%nat) as [L | L]; [apply Nat.log2_up_spec; exact L | pose proof (pow2_pos (Nat.log2_up x)); lia]. }
  assert (exists q, Nat.max (2 ^ Nat.log2_up x) 8 = (4 * q)%nat) as [q Hq].
  { set (l := Nat.log2_up x) in *. clearbody l. destruct (decide (2 <= l)%nat) as [L | L].
    - replace l with (2 + (l - 2))%nat by lia. rewrite Nat.pow_add_r. change (2 ^ 2)%nat with 4%nat.
      destruct (Nat.max_spec (4 * 2 ^ (l - 2)) 8) as [[_ ->] | [_ ->]]; [exists 2%nat; reflexivity | eexists; reflexivity].
    - exists 2%nat. pose proof (Nat.pow_le_mono_r 2 l 2 ltac:(lia) ltac:(lia)). change (2 ^ 2)%nat with 4%nat in *. lia. }
  assert (x <= 4 * q)%nat by lia. rewrite Hq. subst x.
  pose proof (Nat.div_mod (cap * 4) 3 ltac:(lia)). pose proof (Nat.mod_upper_bound (cap * 4) 3 ltac:(lia)).
  pose proof (Nat.div_mod cap 3 ltac:(lia)). pose proof (Nat.mod_upper_bound cap 3 ltac:(lia)).
  set (a := (cap * 4 / 3)%nat) in *. set (b := (cap * 4 mod 3)%nat) in *. set (c := (cap / 3)%nat) in *. set (d := (cap mod 3)%nat) in *.
  clearbody a b c d. clear Hx Hq. lia.
Qed.
Lemma size_grows (ops : list (Z * Z)) M : (size M <= size (fold_left (fun M kv => <[kv.1 := kv.2]> M) ops M : gmap Z Z))%nat.
Proof.
  revert M. induction ops as [| [k v] ops IH]; intros M; cbn; [lia |]. etransitivity; [| apply IH]. rewrite map_size_insert. destruct (M !! k); cbn; lia.
Qed.
Theorem C67_capacity cap ops m : (0 < cap)%nat -> (size (inserted ops) <= cap)%nat ->
  run (fun m kv => i64map_insert m kv.1 kv.2) (i64map_with_capacity cap) ops = Some m ->
  length (entries m) = length (entries (i64map_with_capacity cap)).
Proof.
  intros Hc Hs E.
  assert (forall ops m1 M, inv hash64 m1 M -> mask m1 = mask (i64map_with_capacity cap) ->
    (size (fold_left (fun M kv => <[kv.1 := kv.2]> M) ops M : gmap Z Z) <= cap)%nat ->
    run (fun m kv => i64map_insert m kv.1 kv.2) m1 ops = Some m -> mask m = mask (i64map_with_capacity cap) /\ exists M', inv hash64 m M') as K.
  { clear ops E Hs. intros ops. induction ops as [| [k v] ops IH]; intros m1 M I Hm Hs; cbn [run fst snd].
    - intros E. injection E as <-. split; [exact Hm | eauto].
    - cbn in Hs. destruct (insert_spec 0 hash64 m1 M k v I) as (m2 & E2 & I2). change (i64map_insert m1 k v) with (insert 0 hash64 m1 k v). rewrite E2. cbn [mbind option_bind].
      apply (IH m2 (<[k := v]> M) I2); [| exact Hs]. rewrite <- Hm.
      unfold insert in E2. destruct (Z.eqb_spec k EMPTY) as [-> | Nk]; [injection E2 as <-; reflexivity |].
      destruct ((mask m1 =? 0)%nat || ((mask m1 + 1) * 3 <? (table_len m1 + 1) * 4)%nat) eqn:G.
      + exfalso. pose proof (capacity_slots cap Hc) as Hcap. pose proof (size_grows ops (<[k := v]> M)) as G1. rewrite map_size_insert in G1.
        unfold i64map_with_capacity, with_capacity in Hm. rewrite (proj2 (Nat.ltb_lt 0 cap) Hc) in Hm. cbn [mask] in Hm.
        assert (8 <= Nat.max (next_power_of_two (cap * 4 / 3 + 1)) 8)%nat by lia.
        assert (size M <= cap)%nat by (destruct (M !! k); cbn in G1; lia).
        assert (table_len m1 <= cap)%nat by (unfold table_len; rewrite (inv_count _ _ _ I); lia).
        apply orb_true_iff in G as [G | G]; [apply Nat.eqb_eq in G | apply Nat.ltb_lt in G]; lia.
      + cbn [mbind option_bind] in E2. destruct (assume_table_invariant _ _); [| discriminate]. cbn [mbind option_bind] in E2.
        destruct (seek _ _ _ _ _) as [[i found] |]; [| discriminate]. injection E2 as <-. reflexivity. }
  destruct (K ops (i64map_with_capacity cap) ∅ (inv_with_capacity 0 hash64 cap) eq_refl Hs E) as [Hm [M' I]].
  unfold i64map_with_capacity, with_capacity in *. rewrite (proj2 (Nat.ltb_lt 0 cap) Hc) in *. cbn [mask entries] in *. rewrite repeat_length.
  destruct (inv_shape _ _ _ I) as [[? _] | (b & Hb & Hm' & W & _)]; [lia |]. rewrite (wf_len _ _ _ W). pose proof (pow2_8 b Hb). lia.
Qed.

(** [LogosI64Set]. *)
Lemma set_inv_step (hash : Z -> Z) (m : table unit) (M : gmap Z unit) k : inv hash m M ->
  exists m', insert tt hash m k tt = Some m' /\ inv hash m' (<[k := tt]> M).
Proof. apply insert_spec. Qed.
Lemma dom_inserts (ops : list Z) (M : gmap Z unit) :
  dom (D := gset Z) (fold_left (fun M k => <[k := tt]> M) ops M) = keys ops ∪ dom (D := gset Z) M.
Proof.
  revert M. induction ops as [| k ops IH]; intros M; cbn; [set_solver |]. rewrite IH, dom_insert_L. unfold keys. cbn. set_solver.
Qed.
Theorem C67_set m0 ops : fresh tt m0 ->
  exists m, run i64set_insert m0 ops = Some m /\
    (forall k, i64set_contains m k = Some (bool_decide (k ∈ ops))) /\ count m = size (keys ops).
Proof.
  intros F. destruct (run_inv i64set_insert (inv hash64) (fun M k => <[k := tt]> M) (fun _ => True)) with (ops := ops) (s := m0) (x := ∅ : gmap Z unit)
    as (m & E & I).
  - intros s x k _ I. apply set_inv_step. exact I.
  - apply Forall_top.
  - apply (fresh_inv tt). exact F.
  - exists m. split; [exact E |]. destruct (inv_observes hash64 m _ (fun _ => True) I) as [O C].
    pose proof (dom_inserts ops ∅) as D. rewrite dom_empty_L in D. split.
    + intros k. destruct (O k Logic.I) as [_ O2]. unfold i64set_contains. rewrite O2. f_equal. apply bool_decide_ext.
      rewrite <- elem_of_dom, D. unfold keys. set_solver.
    + rewrite C, <- (size_dom (D := gset Z)), D. f_equal. set_solver.
Qed.

(** The [i32] variants, on keys and values that are [i32] values. *)
Definition is_i32 (x : Z) : Prop := - 2 ^ 31 <= x < 2 ^ 31.
Lemma wrap_i32_id x : is_i32 x -> wrap_i32 x = x.
Proof. unfold is_i32, wrap_i32. intros H. rewrite Z.mod_small by lia. lia. Qed.
Theorem C67_narrow m0 ops : fresh 0 m0 -> Forall (fun kv => is_i32 kv.1 /\ is_i32 kv.2) ops ->
  exists m, run (fun m kv => i32map_insert m kv.1 kv.2) m0 ops = Some m /\
    (forall k, is_i32 k -> i32map_get m k = Some (inserted ops !! k)) /\ count m = size (inserted ops).
Proof.
  intros F H. destruct (run_inv (fun m kv => i32map_insert m kv.1 kv.2) (inv hash32) (fun M kv => <[kv.1 := kv.2]> M) (fun kv => is_i32 kv.1 /\ is_i32 kv.2)) with (ops := ops) (s := m0) (x := ∅ : gmap Z Z)
    as (m & E & I).
  - intros s x [k v] [Hk Hv] I. unfold i32map_insert. cbn [fst snd] in *. rewrite !wrap_i32_id by assumption. apply insert_spec. exact I.
  - exact H.
  - apply (fresh_inv 0). exact F.
  - exists m. split; [exact E |]. destruct (inv_observes hash32 m _ (fun _ => True) I) as [O C]. split; [| exact C].
    intros k Hk. unfold i32map_get. rewrite wrap_i32_id by exact Hk. apply O. exact Logic.I.
Qed.
Theorem C67_narrow_set m0 ops : fresh tt m0 -> Forall is_i32 ops ->
  exists m, run i32set_insert m0 ops = Some m /\
    (forall k, is_i32 k -> i32set_contains m k = Some (bool_decide (k ∈ ops))) /\ count m = size (keys ops).
Proof.
  intros F H. destruct (run_inv i32set_insert (inv hash32) (fun M k => <[k := tt]> M) is_i32) with (ops := ops) (s := m0) (x := ∅ : gmap Z unit)
    as (m & E & I).
  - intros s x k Hk I. unfold i32set_insert. rewrite wrap_i32_id by exact Hk. apply set_inv_step. exact I.
  - exact H.
  - apply (fresh_inv tt). exact F.
  - exists m. split; [exact E |]. destruct (inv_observes hash32 m _ (fun _ => True) I) as [O C].
    pose proof (dom_inserts ops ∅) as D. rewrite dom_empty_L in D. split.
    + intros k Hk. unfold i32set_contains. rewrite wrap_i32_id by exact Hk. destruct (O k Logic.I) as [_ O2]. rewrite O2. f_equal. apply bool_decide_ext.
      rewrite <- elem_of_dom, D. unfold keys. set_solver.
    + rewrite C, <- (size_dom (D := gset Z)), D. f_equal. set_solver.
Qed.
(** Outside [i32] the casts are visible: two [i64] keys share an entry, and a value changes. *)
Theorem C67_narrow_refuted : exists k k' v m, is_i64 k /\ is_i64 k' /\ k <> k' /\ is_i64 v /\
  i32map_insert i64map_new k v = Some m /\ i32map_get m k' = Some (Some (- 2 ^ 31)) /\ v = 2 ^ 31.
Proof.
  destruct (i32map_insert i64map_new 5 (2 ^ 31)) as [m |] eqn:E; [| vm_compute in E; discriminate].
  exists 5, (5 + 2 ^ 32), (2 ^ 31), m. unfold is_i64. repeat (split; [lia || exact E |]). split; [| reflexivity].
  vm_compute in E. apply (inj Some) in E. rewrite <- E. vm_compute. reflexivity.
Qed.

(** Nine keys, one of them zero and one repeated, make the first table of eight slots grow. *)
Definition sample : list (Z * Z) := [(0, 9); (3, 1); (-7, 2); (2 ^ 62, 3); (3, 4); (11, 5); (12, 6); (13, 7); (14, 8); (15, 9)].
Example C67_map_example : option_map (fun m => (length (entries m), count m, i64map_get m 3, i64map_get m 0, i64map_get m (2 ^ 62), i64map_get m 16)) (run (fun m kv => i64map_insert m kv.1 kv.2) i64map_new sample) = Some (16%nat, 9%nat, Some (Some 4), Some (Some 9), Some (Some 3), Some None).
Proof. vm_compute. reflexivity. Qed.
Example C67_capacity_example : (size (inserted sample) <= 9)%nat /\ option_map (fun m => length (entries m)) (run (fun m kv => i64map_insert m kv.1 kv.2) (i64map_with_capacity 9) sample) = Some 16%nat.
Proof. split; [vm_compute; lia | vm_compute; reflexivity]. Qed.
Example C67_set_example : option_map (fun m => (count m, i64set_contains m 5, i64set_contains m 6)) (run i64set_insert (i64set_with_capacity 3) [0; 5; 0; 5; -1]) = Some (3%nat, Some true, Some false).
Proof. vm_compute. reflexivity. Qed.
Example C67_narrow_example : option_map (fun m => (i32map_get m (-5), i32map_get m 7, i32map_get m 8)) (run (fun m kv => i32map_insert m kv.1 kv.2) i64map_new [(-5, 2 ^ 31 - 1); (7, - 2 ^ 31)]) = Some (Some (Some (2 ^ 31 - 1)), Some (Some (- 2 ^ 31)), Some None).
Proof. vm_compute. reflexivity. Qed.
Example C67_narrow_set_example : option_map (fun m => (count m, i32set_contains m (-1), i32set_contains m 6)) (run i32set_insert (i64set_with_capacity 3) [0; 5; 0; 5; -1]) = Some (3%nat, Some true, Some false).
Proof. vm_compute. reflexivity. Qed.

(** ** C68: the direct-addressed tables, inside their window. *)
Definition in_window (l : Z) (n : Z) (key : Z) : Prop := is_i64 key /\ l <= key < l + n.

Theorem C68_map l slots ops : is_i64 l -> Z.of_nat slots <= 2 ^ 63 -> Forall (fun kv => in_window l (Z.of_nat slots) kv.1) ops ->
  exists m, run (fun m kv => dense_insert m kv.1 kv.2) (dense_with_bounds l slots) ops = Some m /\
    (forall k, in_window l (Z.of_nat slots) k -> dense_get m k = Some (inserted ops !! k) /\
      dense_contains m k = Some (bool_decide (is_Some (inserted ops !! k)))) /\
    dlen m = size (inserted ops).
Proof.
  intros Hl Hs H.
  destruct (run_inv (fun m kv => dense_insert m kv.1 kv.2) (dense_inv l slots) (fun M kv => <[kv.1 := kv.2]> M) (fun kv => in_window l (Z.of_nat slots) kv.1))
    with (ops := ops) (s := dense_with_bounds l slots) (x := ∅ : gmap Z Z) as (m & E & I).
  - intros s x [k v] [Hk Hw] I. apply dense_insert_spec; assumption.
  - exact H.
  - apply dense_inv_new.
  - exists m. split; [exact E |]. split; [| apply I]. intros k [Hk Hw]. apply (dense_get_spec l slots); assumption.
Qed.
Theorem C68_set l slots ops : is_i64 l -> Z.of_nat (div_ceil64 slots) * 64 <= 2 ^ 63 -> Forall (in_window l (Z.of_nat slots)) ops ->
  exists m, run dset_insert (dset_with_bounds l slots) ops = Some m /\
    (forall k, in_window l (Z.of_nat slots) k -> dset_contains m k = Some (bool_decide (k ∈ ops))) /\
    slen m = size (keys ops).
Proof.
  intros Hl Hs H. pose proof (div_ceil64_ge slots) as Hge.
  destruct (run_inv dset_insert (dset_inv l (div_ceil64 slots)) (fun M k => {[k]} ∪ M) (in_window l (Z.of_nat slots)))
    with (ops := ops) (s := dset_with_bounds l slots) (x := ∅ : gset Z) as (m & E & I).
  - intros s x k [Hk Hw] I. apply dset_insert_spec; try assumption. lia.
  - exact H.
  - apply dset_inv_new.
  - assert (fold_left (fun M k => {[k]} ∪ M) ops ∅ = keys ops) as D.
    { assert (forall ops (M : gset Z), fold_left (fun M k => {[k]} ∪ M) ops M = keys ops ∪ M) as G.
      { clear. intros ops. induction ops as [| k ops IH]; intros M; cbn; [set_solver |]. rewrite IH. unfold keys. cbn. set_solver. }
      rewrite G. set_solver. }
    rewrite D in I. exists m. split; [exact E |]. split; [| apply I]. intros k [Hk Hw].
    rewrite (dset_contains_spec l (div_ceil64 slots) m (keys ops) k) by (assumption || lia). f_equal. apply bool_decide_ext. unfold keys. set_solver.
Qed.
(** Without the presence bits a lookup is right for every key that was inserted. *)
Theorem C68_bare l slots ops k : is_i64 l -> Z.of_nat slots <= 2 ^ 63 -> Forall (fun kv => in_window l (Z.of_nat slots) kv.1) ops ->
  is_Some (inserted ops !! k) ->
  exists m, run (fun m kv => bare_insert m kv.1 kv.2) (bare_with_bounds l slots) ops = Some m /\
    bare_get m k = Some (inserted ops !! k) /\ blen m = length ops.
Proof.
  intros Hl Hs H [v Hv].
  destruct (run_inv (fun m kv => bare_insert m kv.1 kv.2) (fun m (Mn : gmap Z Z * nat) => bare_inv l slots m Mn.1 Mn.2) (fun Mn kv => (<[kv.1 := kv.2]> Mn.1, S Mn.2)) (fun kv => in_window l (Z.of_nat slots) kv.1))
    with (ops := ops) (s := bare_with_bounds l slots) (x := (∅ : gmap Z Z, 0%nat)) as (m & E & I).
  - intros s [x n] [k0 v0] [Hk Hw] I. apply bare_insert_spec; assumption.
  - exact H.
  - apply bare_inv_new.
  - assert (forall ops (M : gmap Z Z) n, fold_left (fun Mn kv => (<[kv.1 := kv.2]> Mn.1, S Mn.2)) ops (M, n)
      = (fold_left (fun M kv => <[kv.1 := kv.2]> M) ops M, (n + length ops)%nat)) as G.
    { clear. intros ops. induction ops as [| kv ops IH]; intros M n; cbn; [f_equal; lia |]. rewrite IH. f_equal. lia. }
    rewrite G in I. cbn [fst snd] in I. exists m. split; [exact E |].
    assert (in_window l (Z.of_nat slots) k) as [Hk Hw].
    { assert (forall ops (M : gmap Z Z), fold_left (fun M kv => <[kv.1 := kv.2]> M) ops M !! k = Some v -> Forall (fun kv => in_window l (Z.of_nat slots) kv.1) ops ->
        in_window l (Z.of_nat slots) k \/ M !! k = Some v) as D.
      { clear. intros ops. induction ops as [| [k0 v0] ops IH]; intros M; cbn; [auto |]. intros A B. apply Forall_cons_1 in B as [B1 B2].
        destruct (IH _ A B2) as [? | C]; [auto |]. apply lookup_insert_Some in C as [[<- _] | [_ C]]; [left; exact B1 | right; exact C]. }
      destruct (D ops ∅ Hv H) as [? | C]; [assumption | rewrite lookup_empty in C; discriminate]. }
    split; [| apply I]. rewrite (bare_get_spec l slots m _ _ k Hl Hk Hs Hw I). fold (inserted ops). rewrite Hv. reflexivity.
Qed.
(** ... and only for those: an absent key reads as zero, and [len] counts inserts rather than keys. *)
Theorem C68_bare_refuted : exists l slots ops k m, in_window l (Z.of_nat slots) k /\ inserted ops !! k = None /\
  run (fun m kv => bare_insert m kv.1 kv.2) (bare_with_bounds l slots) ops = Some m /\
  bare_get m k = Some (Some 0) /\ blen m <> size (inserted ops).
Proof.
  exists 1, 4%nat, [(2, 7); (2, 8)], 3, (Bare [0; 8; 0; 0] 1 2). split; [unfold in_window, is_i64; lia |].
  split; [vm_compute; reflexivity |]. split; [vm_compute; reflexivity |]. split; [vm_compute; reflexivity |]. vm_compute. discriminate.
Qed.

Example C68_map_example : option_map (fun m => (dense_get m (-3), dense_get m 66, dense_get m 0, dense_contains m 61, dlen m)) (run (fun m kv => dense_insert m kv.1 kv.2) (dense_with_bounds (-3) 70) [(-3, 5); (66, 0); (66, 7); (61, 1)]) = Some (Some (Some 5), Some (Some 7), Some None, Some true, 3%nat).
Proof. vm_compute. reflexivity. Qed.
Example C68_set_example : option_map (fun m => (dset_contains m (-3), dset_contains m 66, dset_contains m 0, slen m)) (run dset_insert (dset_with_bounds (-3) 70) [-3; 66; 66; 61]) = Some (Some true, Some true, Some false, 3%nat).
Proof. vm_compute. reflexivity. Qed.
Example C68_bare_example : is_Some (inserted [(2, 7); (2, 8)] !! 2) /\ option_map (fun m => bare_get m 2) (run (fun m kv => bare_insert m kv.1 kv.2) (bare_with_bounds 1 4) [(2, 7); (2, 8)]) = Some (Some (Some 8)).
Proof. split; [exists 8; vm_compute; reflexivity | vm_compute; reflexivity]. Qed.
