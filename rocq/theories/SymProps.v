(** C99: the symmetry-breaking pass and its bit-reversal certificate. *)

From Coq Require Import ZArith List Bool Lia.
From Verif Require Import SymModel SymProofs SymRun.
Import ListNotations.
Open Scope Z_scope.

(** ** The bit-reversal identities *)

Lemma wrap_small x : - 2 ^ 63 <= x < 2 ^ 63 -> wrap x = x.
Proof. intros H. unfold wrap. rewrite Z.mod_small by lia. lia. Qed.

Lemma shl_pow k : (k <= 62)%nat -> shl 1 (Z.of_nat k) = 2 ^ Z.of_nat k.
Proof.
  intros Hk. unfold shl. rewrite shl_one. apply wrap_small.
  assert (0 < 2 ^ Z.of_nat k) by (apply Z.pow_pos_nonneg; lia).
  assert (2 ^ Z.of_nat k <= 2 ^ 62) by (apply Z.pow_le_mono_r; lia). lia.
Qed.

Lemma land_one x i : 0 <= i -> negb (Z.land (Z.shiftr x i) 1 =? 0) = Z.testbit x i.
Proof.
  intros Hi. change 1 with (Z.ones 1). rewrite Z.land_ones by lia.
  change (2 ^ 1) with 2. rewrite Zmod_odd, <- Z.bit0_odd, Z.shiftr_spec by lia.
  cbn [Z.add]. destruct (Z.testbit x i); reflexivity.
Qed.

Lemma rev_fold x n l r j :
  (n <= 63)%nat -> 0 <= j ->
  Z.testbit
    (fold_left
       (fun r i => if negb (Z.land (Z.shiftr x (Z.of_nat i)) 1 =? 0)
                   then Z.lor r (shl 1 (Z.of_nat (n - 1 - i))) else r) l r) j
  = Z.testbit r j
    || existsb (fun i => Z.testbit x (Z.of_nat i) && (j =? Z.of_nat (n - 1 - i))) l.
Proof.
  intros Hn Hj. revert r. induction l as [|i l IH]; intros r; cbn [fold_left existsb].
  - now rewrite orb_false_r.
  - rewrite IH, land_one by lia. rewrite shl_pow by lia.
    destruct (Z.testbit x (Z.of_nat i)); cbn [andb]; [|reflexivity].
    rewrite Z.lor_spec, Z.pow2_bits_eqb by lia. rewrite (Z.eqb_sym j). now rewrite orb_assoc.
Qed.

Lemma rev_bits x n j :
  (n <= 63)%nat -> 0 <= j ->
  Z.testbit (rev_n x n) j = (j <? Z.of_nat n) && Z.testbit x (Z.of_nat n - 1 - j).
Proof.
  intros Hn Hj. unfold rev_n. rewrite rev_fold by assumption. rewrite Z.bits_0. cbn [orb].
  destruct (Z.ltb_spec j (Z.of_nat n)) as [Hlt|Hge]; cbn [andb].
  - destruct (Z.testbit x (Z.of_nat n - 1 - j)) eqn:Hb.
    + apply existsb_exists. exists (Z.to_nat (Z.of_nat n - 1 - j)). split.
      * apply in_seq. lia.
      * rewrite Z2Nat.id by lia. rewrite Hb. cbn [andb]. apply Z.eqb_eq. lia.
    + destruct (existsb _ _) eqn:He; [|reflexivity].
      apply existsb_exists in He. destruct He as (i & Hi & Hx). apply in_seq in Hi.
      apply andb_true_iff in Hx. destruct Hx as [Hx Hj']. apply Z.eqb_eq in Hj'.
      replace (Z.of_nat n - 1 - j) with (Z.of_nat i) in Hb by lia. congruence.
  - destruct (existsb _ _) eqn:He; [|reflexivity].
    apply existsb_exists in He. destruct He as (i & Hi & Hx). apply in_seq in Hi.
    apply andb_true_iff in Hx. destruct Hx as [_ Hj']. apply Z.eqb_eq in Hj'. lia.
Qed.

Lemma full_pow n : (n <= 62)%nat -> full n = 2 ^ Z.of_nat n - 1.
Proof. intros Hn. unfold full. now rewrite shl_pow. Qed.

Lemma shl1_id v n : (n <= 62)%nat -> 0 <= v < 2 ^ Z.of_nat n -> shl v 1 = Z.shiftl v 1.
Proof.
  intros Hn Hv. unfold shl. apply wrap_small. rewrite Z.shiftl_mul_pow2 by lia.
  assert (2 ^ Z.of_nat n <= 2 ^ 62) by (apply Z.pow_le_mono_r; lia). lia.
Qed.

Lemma rev_range x n : (n <= 62)%nat -> 0 <= rev_n x n < 2 ^ Z.of_nat n.
Proof.
  intros Hn.
  assert (rev_n x n = Z.land (rev_n x n) (Z.ones (Z.of_nat n))) as ->.
  { apply Z.bits_inj'. intros j Hj. rewrite Z.land_spec.
    destruct (Z.lt_ge_cases j (Z.of_nat n)).
    - rewrite Z.ones_spec_low by lia. now rewrite andb_true_r.
    - rewrite rev_bits by lia. destruct (Z.ltb_spec j (Z.of_nat n)); [lia|reflexivity]. }
  rewrite Z.land_ones by lia. apply Z.mod_pos_bound. apply Z.pow_pos_nonneg; lia.
Qed.

(** For every width up to 62 (the source checks 1 to 16 and argues the rest),
    [rev_n] reverses the low [n] bits of any integer, and on every [n]-bit value
    it commutes with the complement and exchanges the two shifts. *)
Theorem C99_identities (n : nat) (v : Z) :
  (n <= 62)%nat ->
  (forall i, (i < n)%nat ->
     Z.testbit (rev_n v n) (Z.of_nat i) = Z.testbit v (Z.of_nat (n - 1 - i))) /\
  0 <= rev_n v n < 2 ^ Z.of_nat n /\
  rev_n (rev_n v n) n = v mod 2 ^ Z.of_nat n /\
  (0 <= v < 2 ^ Z.of_nat n -> l1 n v = true /\ lem4 n v = true /\ lem5 n v = true).
Proof.
  intros Hn. split; [|split; [|split]].
  - intros i Hi. rewrite rev_bits by lia.
    destruct (Z.ltb_spec (Z.of_nat i) (Z.of_nat n)); [|lia]. cbn [andb]. f_equal. lia.
  - now apply rev_range.
  - rewrite <- Z.land_ones by lia. apply Z.bits_inj'. intros j Hj.
    rewrite rev_bits, Z.land_spec by lia.
    destruct (Z.ltb_spec j (Z.of_nat n)) as [Hlt|Hge].
    + rewrite Z.ones_spec_low by lia. rewrite andb_true_r, rev_bits by lia. cbn [andb].
      destruct (Z.ltb_spec (Z.of_nat n - 1 - j) (Z.of_nat n)); [|lia]. cbn [andb]. f_equal. lia.
    + rewrite Z.ones_spec_high by lia. now rewrite andb_false_r.
  - intros Hv. pose proof (rev_range v n Hn) as Hr.
    unfold l1, lem4, lem5. rewrite !full_pow by lia.
    rewrite (shl1_id v n) by lia. rewrite (shl1_id (rev_n v n) n) by lia.
    rewrite !Z.eqb_eq. repeat split; apply Z.bits_inj'; intros j Hj.
    + rewrite Z.land_spec, Z.lnot_spec, full_bits by lia. rewrite !rev_bits by lia.
      destruct (Z.ltb_spec j (Z.of_nat n)); cbn [andb]; [|reflexivity].
      rewrite Z.land_spec, Z.lnot_spec, full_bits by lia.
      destruct (Z.ltb_spec (Z.of_nat n - 1 - j) (Z.of_nat n)); [reflexivity|lia].
    + rewrite !Z.land_spec, full_bits, Z.shiftr_spec by lia. rewrite !rev_bits by lia.
      destruct (Z.ltb_spec j (Z.of_nat n)); cbn [andb]; rewrite ?andb_true_r, ?andb_false_r;
        [|reflexivity].
      destruct (Z.ltb_spec (j + 1) (Z.of_nat n)); cbn [andb].
      * rewrite Z.shiftl_spec by lia. f_equal. lia.
      * apply Z.shiftl_spec_low. lia.
    + rewrite !Z.land_spec, full_bits by lia. rewrite rev_bits by lia.
      destruct (Z.ltb_spec j (Z.of_nat n)); cbn [andb]; rewrite ?andb_true_r, ?andb_false_r;
        [|reflexivity].
      rewrite Z.shiftr_spec by lia.
      destruct (Z.eq_dec j 0) as [->|Hne].
      * rewrite Z.shiftl_spec_low by lia. apply (small_bits v n Hv). lia.
      * rewrite Z.shiftl_spec, rev_bits by lia.
        destruct (Z.ltb_spec (j - 1) (Z.of_nat n)); [|lia]. cbn [andb]. f_equal. lia.
Qed.

Example C99_identities_example :
  rev_n 6 5 = 12 /\ l1 40 (2 ^ 39 + 5) = true /\ rev_n (2 ^ 39 + 5) 40 = 2 ^ 39 + 2 ^ 37 + 1 /\
  lem5 1 2 = false.
Proof. vm_compute. auto. Qed.

(** The check the pass waits for succeeds. *)
Theorem C99_certificate : check_reflection_identities = true.
Proof.
  unfold check_reflection_identities. apply forallb_forall. intros n Hn.
  apply in_seq in Hn. unfold PROOF_WIDTH in Hn.
  apply forallb_forall. intros v Hv. apply in_map_iff in Hv. destruct Hv as (i & <- & Hi).
  apply in_seq in Hi.
  destruct (C99_identities n (Z.of_nat i) ltac:(lia)) as (_ & _ & _ & H).
  destruct H as (-> & -> & ->); [|reflexivity].
  split; [lia|]. change 2 with (Z.of_nat 2). rewrite <- Nat2Z.inj_pow. lia.
Qed.

(** ** Programs the pass rewrites correctly *)

Lemma same_result p q g vs v :
  returns p g vs v -> returns q g vs v ->
  exists u, forall w, (returns p g vs w <-> w = u) /\ (returns q g vs w <-> w = u).
Proof.
  intros Hp Hq. exists v. intros w. split; (split; [|intros ->; assumption]); intros Hw.
  - exact (cl_det p _ _ _ _ Hw Hp).
  - exact (cl_det q _ _ _ _ Hw Hq).
Qed.

Definition queens_program (search entry : func) : program := [search; entry].

(** The N-Queens count, with either loop form in the search and in the entry,
    for every board size: the pass does rewrite the entry, both programs return,
    and they return the same single value. *)
Theorem C99_reflection (search entry : func) (n : Z) :
  In search [search_bits queens_avail; search_range] ->
  In entry [entry_bits all_columns; entry_range] ->
  0 <= n ->
  break_symmetry [search; entry] <> [search; entry] /\
  exists u, forall w,
    (returns [search; entry] E [VInt n] w <-> w = u) /\
    (returns (break_symmetry [search; entry]) E [VInt n] w <-> w = u).
Proof.
  intros Hs He Hn. rewrite <- (Z2Nat.id n Hn). set (m := Z.to_nat n).
  destruct Hs as [<-|[<-|[]]], He as [<-|[<-|[]]];
    (split; [vm_compute; congruence|]); eapply same_result.
  - apply entry_bits_runs; [reflexivity|]. apply search_bits_runs. reflexivity.
  - apply half_bits_runs; [reflexivity|]. apply search_bits_runs. reflexivity.
  - apply entry_range_runs; [reflexivity|]. apply search_bits_runs. reflexivity.
  - apply half_range_runs; [reflexivity|]. apply search_bits_runs. reflexivity.
  - apply entry_bits_runs; [reflexivity|]. apply search_range_runs. reflexivity.
  - apply half_bits_runs; [reflexivity|]. apply search_range_runs. reflexivity.
  - apply entry_range_runs; [reflexivity|]. apply search_range_runs. reflexivity.
  - apply half_range_runs; [reflexivity|]. apply search_range_runs. reflexivity.
Qed.

(** Six queens have four solutions, five have ten. *)
Example C99_reflection_example :
  let p := [search_bits queens_avail; entry_bits all_columns] in
  returns p E [VInt 6] (VInt 4) /\ returns (break_symmetry p) E [VInt 6] (VInt 4) /\
  returns p E [VInt 5] (VInt 10) /\ returns (break_symmetry p) E [VInt 5] (VInt 10).
Proof. repeat split; exists 200%nat; vm_compute; reflexivity. Qed.

(** Colourings of a path with [k] colours, for every [k >= 0] and every
    length. *)
Theorem C99_values (k size : Z) :
  0 <= k ->
  let p := [search_values differs (EId KK); entry_values] in
  break_symmetry p <> p /\
  exists u, forall w,
    (returns p E [VInt k; VInt size] w <-> w = u) /\
    (returns (break_symmetry p) E [VInt k; VInt size] w <-> w = u).
Proof.
  intros Hk p. rewrite <- (Z2Nat.id k Hk). set (m := Z.to_nat k).
  split; [vm_compute; congruence|]. eapply same_result.
  - apply entry_values_runs; reflexivity.
  - apply pinned_values_runs; reflexivity.
Qed.

Example C99_values_example :
  let p := [search_values differs (EId KK); entry_values] in
  returns p E [VInt 3; VInt 4] (VInt 24) /\
  returns (break_symmetry p) E [VInt 3; VInt 4] (VInt 24).
Proof. repeat split; exists 200%nat; vm_compute; reflexivity. Qed.

(** ** What the pass leaves alone *)

Lemma break_func_head ss vs f :
  let f' := break_func ss vs f in
  f_name f' = f_name f /\ f_params f' = f_params f /\ f_native f' = f_native f /\
  f_generic f' = f_generic f /\ f_exported f' = f_exported f /\ f_symmetry f' = f_symmetry f.
Proof.
  unfold break_func. destruct (_ || _ || _ || _ || _ || _); [cbn; tauto|].
  destruct (match ss with [] => None | _ => _ end); [cbn; tauto|].
  destruct (recognize_value_entry _ _); cbn; tauto.
Qed.

Lemma recognize_value_nil b : recognize_value_entry b [] = None.
Proof.
  unfold recognize_value_entry. generalize b at 1 as w. intros w. generalize 0%nat.
  induction b as [|s b IH]; intros i; [reflexivity|]. cbn [value_entry_from].
  replace (try_value_loop [] w i s) with (@None value_entry); [apply IH|].
  symmetry. unfold try_value_loop. destruct s as [| | |c lb| |]; try reflexivity.
  destruct c as [| |o l r| | |]; try reflexivity.
  destruct o; try reflexivity. destruct l; try reflexivity.
  destruct (negb _); [reflexivity|]. destruct (scan_value _ _) as [[[] [[t []]|]] []]; reflexivity.
Qed.

(** Every function keeps its place, its name, its parameters and its flags; a
    function that is native, generic, exported, opted out or itself a catalogued
    search keeps its body; a program without a catalogued search is returned as
    it is. *)
Theorem C99_frame (p : program) :
  let heads := map (fun f => (f_name f, f_params f, f_native f, f_generic f, f_exported f, f_symmetry f)) in
  heads (break_symmetry p) = heads p /\
  (forall i f, nth_error p i = Some f ->
     f_native f = true \/ f_generic f = true \/ f_exported f = true \/ f_symmetry f = false ->
     nth_error (break_symmetry p) i = Some f) /\
  (forall i f, nth_error p i = Some f -> In (f_name f) (refl_searches p) ->
     nth_error (break_symmetry p) i = Some f) /\
  ((forall f, In f p -> is_reflection_search (f_name f) (f_params f) (f_body f) = false /\
                        value_search_val_pos (f_name f) (f_params f) (f_body f) = None) ->
   break_symmetry p = p).
Proof.
  cbn zeta. split; [|split; [|split]].
  - unfold break_symmetry. rewrite map_map. apply map_ext. intros f.
    destruct (break_func_head (refl_searches p) (value_searches p) f)
      as (-> & -> & -> & -> & -> & ->). reflexivity.
  - intros i f Hi Hf. unfold break_symmetry. rewrite nth_error_map, Hi. cbn [option_map].
    unfold break_func. f_equal.
    destruct Hf as [->|[->|[->| ->]]]; cbn [orb negb]; rewrite ?orb_true_r; reflexivity.
  - intros i f Hi Hf. unfold break_symmetry. rewrite nth_error_map, Hi. cbn [option_map].
    unfold break_func. f_equal.
    replace (existsb (Nat.eqb (f_name f)) (refl_searches p)) with true.
    { cbn [orb]. rewrite !orb_true_r. reflexivity. }
    symmetry. apply existsb_exists. exists (f_name f). split; [exact Hf|]. apply Nat.eqb_refl.
  - intros H.
    assert (Hr : refl_searches p = []).
    { unfold refl_searches. replace (List.filter _ p) with (@nil func); [reflexivity|].
      symmetry. clear - H. induction p as [|f p IH]; [reflexivity|]. cbn [List.filter].
      destruct (H f (or_introl eq_refl)) as [-> _]. rewrite andb_false_r. apply IH.
      intros g Hg. apply H. now right. }
    assert (Hv : value_searches p = []).
    { unfold value_searches. clear - H. induction p as [|f p IH]; [reflexivity|]. cbn [flat_map].
      destruct (H f (or_introl eq_refl)) as [_ ->]. rewrite IH.
      - destruct (_ || _ || _); reflexivity.
      - intros g Hg. apply H. now right. }
    unfold break_symmetry. rewrite Hr, Hv. rewrite <- (map_id p) at 2. apply map_ext.
    intros f. unfold break_func. destruct (_ || _ || _ || _ || _ || _); [reflexivity|].
    now rewrite recognize_value_nil.
Qed.

Example C99_frame_example :
  let p := [search_values differs (EId KK); entry_bits all_columns] in
  break_symmetry p = p /\ refl_searches [search_range; entry_range] = [G].
Proof. split; reflexivity. Qed.

(** ** Programs the pass changes *)

(** The recogniser never looks at how the available set is computed: a search
    that forgets one diagonal is rewritten all the same. *)
Theorem C99_available_refuted :
  exists (search entry : func) (n : Z) (v w : value),
    returns [search; entry] E [VInt n] v /\
    returns (break_symmetry [search; entry]) E [VInt n] w /\ v <> w.
Proof.
  exists (search_bits (EBin BitAnd (EId ALL) (ENot (EBin BitOr (EId COLS) (EId D1))))).
  exists (entry_bits all_columns), 2, (VInt 1), (VInt 0).
  split; [exists 200%nat; vm_compute; reflexivity|].
  split; [exists 200%nat; vm_compute; reflexivity|discriminate].
Qed.

(** Nor at which columns the entry starts from: counting only the boards whose
    first queen is in the second column is doubled. *)
Theorem C99_start_refuted :
  exists (init : expr) (n : Z) (v w : value),
    let p := [search_bits queens_avail; entry_bits init] in
    returns p E [VInt n] v /\ returns (break_symmetry p) E [VInt n] w /\ v <> w.
Proof.
  exists (ENum 2), 4, (VInt 1), (VInt 2). cbn zeta.
  split; [exists 200%nat; vm_compute; reflexivity|].
  split; [exists 200%nat; vm_compute; reflexivity|discriminate].
Qed.

(** The counted loop returns 0 on a negative size; the rewritten one shifts by a
    negative amount and returns nothing. *)
Theorem C99_negative_refuted :
  exists (n : Z) (v : value),
    let p := [search_range; entry_range] in
    returns p E [VInt n] v /\ forall w, ~ returns (break_symmetry p) E [VInt n] w.
Proof.
  exists (-1), (VInt 0). cbn zeta. split; [exists 200%nat; vm_compute; reflexivity|].
  intros w [f Hf]. apply (up_call _ f (60 + f)) in Hf; [|lia]. vm_compute in Hf. discriminate.
Qed.

(** Value symmetry multiplies by the bound even when the loop does not run. *)
Theorem C99_bound_refuted :
  exists (k size : Z) (v w : value),
    let p := [search_values differs (EId KK); entry_values] in
    returns p E [VInt k; VInt size] v /\
    returns (break_symmetry p) E [VInt k; VInt size] w /\ v <> w.
Proof.
  exists (-1), 1, (VInt 0), (VInt (-1)). cbn zeta.
  split; [exists 200%nat; vm_compute; reflexivity|].
  split; [exists 200%nat; vm_compute; reflexivity|discriminate].
Qed.

(** The entry and the search may enumerate different ranges of values. *)
Theorem C99_ranges_refuted :
  exists (bound : expr) (k size : Z) (v w : value),
    let p := [search_values differs bound; entry_values] in
    returns p E [VInt k; VInt size] v /\
    returns (break_symmetry p) E [VInt k; VInt size] w /\ v <> w.
Proof.
  exists (ENum 2), 3, 2, (VInt 4), (VInt 3). cbn zeta.
  split; [exists 200%nat; vm_compute; reflexivity|].
  split; [exists 200%nat; vm_compute; reflexivity|discriminate].
Qed.

(** An equality with a literal singles a value out, yet passes the check. *)
Definition search_literal : func :=
  plain_func F [LEVEL; PREV; KK; SIZE]
    [SIf (EBin GtEq (EId LEVEL) (EId SIZE)) [SReturn (Some (ENum 1))] None;
     SIf (EBin Eq (EId PREV) (ENum 1)) [SReturn (Some (ENum 0))] None;
     SLet COUNT (ENum 0);
     SLet CC (ENum 1);
     SWhile (EBin LtEq (EId CC) (EId KK))
       [SIf differs
          [add_call (ECall F [EBin Add (EId LEVEL) (ENum 1); EId CC; EId KK; EId SIZE])] None;
        SSet CC (EBin Add (EId CC) (ENum 1))];
     SReturn (Some (EId COUNT))].
Theorem C99_literal_refuted :
  exists (k size : Z) (v w : value),
    let p := [search_literal; entry_values] in
    returns p E [VInt k; VInt size] v /\
    returns (break_symmetry p) E [VInt k; VInt size] w /\ v <> w.
Proof.
  exists 2, 2, (VInt 1), (VInt 0). cbn zeta.
  split; [exists 200%nat; vm_compute; reflexivity|].
  split; [exists 200%nat; vm_compute; reflexivity|discriminate].
Qed.

(** The equality-only check is made on the parameter the guard compares with,
    not on the parameter the chosen value is passed to. *)
Definition search_other : func :=
  plain_func F [LEVEL; PREV; KK; SIZE]
    [SIf (EBin GtEq (EId LEVEL) (EId KK)) [SReturn (Some (ENum 1))] None;
     SIf (EBin Gt (EId PREV) (ENum 1)) [SReturn (Some (ENum 0))] None;
     SLet COUNT (ENum 0);
     SLet CC (ENum 1);
     SWhile (EBin LtEq (EId CC) (EId KK))
       [SIf (EBin NotEq (EId CC) (EId SIZE))
          [add_call (ECall F [EBin Add (EId LEVEL) (ENum 1); EId CC; EId KK; ENum 5])] None;
        SSet CC (EBin Add (EId CC) (ENum 1))];
     SReturn (Some (EId COUNT))].
Theorem C99_position_refuted :
  exists (k size : Z) (v w : value),
    let p := [search_other; entry_values] in
    returns p E [VInt k; VInt size] v /\
    returns (break_symmetry p) E [VInt k; VInt size] w /\ v <> w.
Proof.
  exists 2, 5, (VInt 2), (VInt 4). cbn zeta.
  split; [exists 200%nat; vm_compute; reflexivity|].
  split; [exists 200%nat; vm_compute; reflexivity|discriminate].
Qed.
