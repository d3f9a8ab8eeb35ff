(** Counters: semilattice laws, and the meaning of the value in every run. *)
From stdpp Require Import gmap.
From Verif Require Import CrdtModel CrdtClockProofs Replication ReplicationCount.

(** ** Sums over maps *)

Lemma foldr_add_perm (l l' : list N) : l ≡ₚ l' -> foldr N.add 0%N l = foldr N.add 0%N l'.
Proof. induction 1; simpl; lia. Qed.

Lemma map_sum_insert_fresh (m : gmap N N) k v :
  m !! k = None -> map_sum (<[k:=v]> m) = (v + map_sum m)%N.
Proof.
  intros H. unfold map_sum.
  rewrite (foldr_add_perm _ ((k, v) :: map_to_list m).*2); [reflexivity|].
  now rewrite map_to_list_insert.
Qed.

Lemma map_sum_insert (m : gmap N N) k v :
  (map_sum (<[k:=v]> m) + default 0 (m !! k) = v + map_sum m)%N.
Proof.
  destruct (m !! k) as [w|] eqn:E; simpl.
  - rewrite <- (insert_delete m k w E) at 2.
    rewrite <- insert_delete_insert.
    rewrite !map_sum_insert_fresh by apply lookup_delete. lia.
  - rewrite map_sum_insert_fresh by exact E. lia.
Qed.

Lemma map_sum_zero (m : gmap N N) : (forall q, default 0%N (m !! q) = 0%N) -> map_sum m = 0%N.
Proof.
  intros H. unfold map_sum.
  assert (A : forall e, e ∈ map_to_list m -> e.2 = 0%N).
  { intros [k v] He. apply elem_of_map_to_list in He. specialize (H k). rewrite He in H. exact H. }
  revert A. generalize (map_to_list m) as l.
  induction l as [|e l IH]; intros A; [reflexivity|]. cbn.
  rewrite (A e) by apply elem_of_list_here. apply IH.
  intros e' He'. apply A. now right.
Qed.

(** Restriction of a per-operation amount to the operations of one replica. *)
Definition only {O} (q : N) (f : opinfo O -> N) (x : opinfo O) : N :=
  if decide (op_origin x = q) then f x else 0%N.

Lemma map_sum_by_origin {O} (f : opinfo O -> N) (h : history O) i K (m : gmap N N) :
  (forall q, default 0%N (m !! q) = sum_from (only q f) h i K) ->
  map_sum m = sum_from f h i K.
Proof.
  revert i m. induction h as [|x h IH]; intros i m H; simpl in *.
  - apply map_sum_zero. exact H.
  - destruct (decide (i ∈ K)) as [Hi|Hi].
    + set (o := op_origin x).
      assert (Ho : (default 0 (m !! o) = f x + sum_from (only o f) h (S i) K)%N).
      { rewrite H. unfold only at 1. now rewrite decide_True. }
      set (m1 := <[o := (default 0 (m !! o) - f x)%N]> m).
      assert (E : map_sum m1 = sum_from f h (S i) K).
      { apply IH. intros q. unfold m1. destruct (decide (q = o)) as [->|Hq].
        - rewrite lookup_insert. simpl. lia.
        - rewrite lookup_insert_ne by auto. rewrite H. unfold only at 1.
          rewrite decide_False by (unfold o in Hq; auto). lia. }
      pose proof (map_sum_insert m o (default 0 (m !! o) - f x)%N) as S1. fold m1 in S1. lia.
    + rewrite (IH (S i) m); [lia|]. intros q. rewrite H. lia.
Qed.

(** ** Grow-only counter *)

Lemma gc_merge_assoc a b c : gc_merge a (gc_merge b c) = gc_merge (gc_merge a b) c.
Proof. unfold gc_merge; simpl. f_equal. apply max_merge_assoc. Qed.
Lemma gc_merge_idemp a : gc_merge a a = a.
Proof. unfold gc_merge; simpl. rewrite max_merge_idemp. now destruct a. Qed.
Lemma gc_merge_comm_counts a b : gc_counts (gc_merge a b) = gc_counts (gc_merge b a).
Proof. apply max_merge_comm. Qed.

Definition amount (x : opinfo N) : N := op_op x.

Lemma gc_entries evs r q :
  default 0%N (gc_counts (state_at gc_new gc_increment gc_merge evs r) !! q) =
  sum_known (only q amount) (hist_of evs) (known_by evs r).
Proof.
  pose proof (replication_invariant gc_new gc_increment gc_merge gc_id
    (fun h K s => forall q, default 0%N (gc_counts s !! q) = sum_known (only q amount) h K)) as R.
  apply R; clear R.
  - reflexivity.
  - reflexivity.
  - reflexivity.
  - intros r0 q0. unfold gc_new; simpl. now rewrite lookup_empty.
  - intros h x K s _ C H q0. rewrite sum_known_mono_hist by exact C. apply H.
  - intros h o K s _ C _ H q0. rewrite sum_known_snoc by exact C. rewrite <- H.
    unfold gc_increment; simpl. unfold only; simpl. case_decide as D.
    + subst q0. rewrite lookup_insert. simpl. reflexivity.
    + rewrite lookup_insert_ne by exact D. lia.
  - intros h K L s t W CK CL HK HL q0. unfold gc_merge; simpl.
    rewrite max_merge_lookup, default_maxo, HK, HL. symmetry.
    apply (sum_known_union h K L _ q0); try assumption.
    intros x Hx. unfold only. now rewrite decide_False.
Qed.

Lemma gc_value_known evs r :
  gc_value (state_at gc_new gc_increment gc_merge evs r) =
  sum_known amount (hist_of evs) (known_by evs r).
Proof. unfold gc_value. apply map_sum_by_origin. intros q. apply gc_entries. Qed.

(** ** Up/down counter *)

Lemma pn_merge_assoc a b c : pn_merge a (pn_merge b c) = pn_merge (pn_merge a b) c.
Proof. unfold pn_merge, vc_merge; simpl. f_equal; apply max_merge_assoc. Qed.
Lemma pn_merge_idemp a : pn_merge a a = a.
Proof. unfold pn_merge, vc_merge; simpl. rewrite !max_merge_idemp. now destruct a. Qed.

(** Operations of the up/down counter. *)
Inductive pnop := PInc (n : N) | PDec (n : N).
Definition pn_apply (o : pnop) (c : pncounter) : pncounter :=
  match o with PInc n => pn_increment n c | PDec n => pn_decrement n c end.
Definition pn_amount_inc (x : opinfo pnop) : N := match op_op x with PInc n => n | PDec _ => 0 end.
Definition pn_amount_dec (x : opinfo pnop) : N := match op_op x with PInc _ => 0 | PDec n => n end.
Definition pn_one (x : opinfo pnop) : N := 1.

Record pn_inv (h : history pnop) (K : gset nat) (s : pncounter) : Prop := {
  pi_inc : forall q, default 0%N (pn_inc s !! q) = sum_known (only q pn_amount_inc) h K;
  pi_dec : forall q, default 0%N (pn_dec s !! q) = sum_known (only q pn_amount_dec) h K;
  pi_ver : forall q, vc_get (pn_version s) q = sum_known (only q pn_one) h K }.

Lemma pn_entries evs r :
  pn_inv (hist_of evs) (known_by evs r) (state_at pn_new pn_apply pn_merge evs r).
Proof.
  pose proof (replication_invariant pn_new pn_apply pn_merge pn_id pn_inv) as R.
  apply R; clear R.
  - reflexivity.
  - intros [n|n] s; reflexivity.
  - reflexivity.
  - intros r0. constructor; intros q; simpl; unfold vc_get; now rewrite lookup_empty.
  - intros h x K s _ C [A B D]. constructor; intros q; rewrite sum_known_mono_hist by exact C; auto.
  - intros h o K s _ C _ [A B D].
    constructor; intros q; rewrite sum_known_snoc by exact C.
    + rewrite <- A. unfold only, pn_amount_inc; simpl. destruct o as [n|n]; simpl.
      * case_decide as E; [subst q; now rewrite lookup_insert|rewrite lookup_insert_ne by exact E; lia].
      * case_decide; lia.
    + rewrite <- B. unfold only, pn_amount_dec; simpl. destruct o as [n|n]; simpl.
      * case_decide; lia.
      * case_decide as E; [subst q; now rewrite lookup_insert|rewrite lookup_insert_ne by exact E; lia].
    + rewrite <- D. unfold only, pn_one; simpl.
      destruct o; simpl; rewrite vc_get_increment; repeat case_decide; subst; congruence || lia.
  - intros h K L s t W CK CL [A B D] [A' B' D'].
    assert (U : forall f q, sum_known (only q f) h (K ∪ L) =
      N.max (sum_known (only q f) h K) (sum_known (only q f) h L)).
    { intros f q. apply (sum_known_union h K L _ q); try assumption.
      intros x Hx. unfold only. now rewrite decide_False. }
    constructor; intros q; rewrite U; unfold pn_merge; simpl.
    + now rewrite max_merge_lookup, default_maxo, A, A'.
    + now rewrite max_merge_lookup, default_maxo, B, B'.
    + now rewrite vc_get_merge, D, D'.
Qed.

Lemma pn_value_known evs r :
  pn_value (state_at pn_new pn_apply pn_merge evs r) =
  (Z.of_N (sum_known pn_amount_inc (hist_of evs) (known_by evs r)) -
   Z.of_N (sum_known pn_amount_dec (hist_of evs) (known_by evs r)))%Z.
Proof.
  unfold pn_value. destruct (pn_entries evs r) as [A B _].
  unfold sum_known.
  rewrite (map_sum_by_origin pn_amount_inc _ 0 _ _ A), (map_sum_by_origin pn_amount_dec _ 0 _ _ B).
  reflexivity.
Qed.

(** If a version clock covers another's, the covered state holds nothing new. *)
Lemma sum_from_zero_le {O} (f : opinfo O -> N) h i K L :
  (forall j x, h !! j = Some x -> f x <> 0%N -> i + j ∈ K -> i + j ∈ L) ->
  sum_from f h i K = sum_from f h i L ->
  forall j x, h !! j = Some x -> f x <> 0%N -> i + j ∈ L -> i + j ∈ K.
Proof.
  revert i. induction h as [|y h IH]; intros i M E j x Hx Hf Hj; [inversion Hx|].
  simpl in E.
  assert (M' : forall j x, h !! j = Some x -> f x <> 0%N -> S i + j ∈ K -> S i + j ∈ L).
  { intros j' x' H1 H2 H3. rewrite Nat.add_succ_comm. apply (M (S j') x'); auto.
    rewrite <- Nat.add_succ_comm. exact H3. }
  pose proof (sum_from_mono f h (S i) K L M') as Le.
  assert (M0 := M 0 y eq_refl). rewrite Nat.add_0_r in M0.
  destruct j as [|j].
  - injection Hx as ->. rewrite Nat.add_0_r in *.
    destruct (decide (i ∈ K)) as [|HK]; [assumption|].
    rewrite decide_True in E by exact Hj. lia.
  - rewrite <- Nat.add_succ_comm. apply (IH (S i) M') with (x := x); auto.
    + repeat case_decide; try lia. destruct (decide (f y = 0%N)) as [Ey|Hy]; [lia|]. specialize (M0 Hy). tauto.
    + rewrite Nat.add_succ_comm. exact Hj.
Qed.

Lemma pn_version_covers evs r r' :
  vc_dominates (pn_version (state_at pn_new pn_apply pn_merge evs r'))
               (pn_version (state_at pn_new pn_apply pn_merge evs r)) = true ->
  known_by evs r ⊆ known_by evs r'.
Proof.
  rewrite vc_dominates_spec. intros H i Hi.
  pose proof (ginv_exec evs) as [W C _ _].
  destruct (lookup_lt_is_Some_2 (hist_of evs) i (proj1 (C r) i Hi)) as [x Hx].
  set (q := op_origin x).
  destruct (pn_entries evs r) as [_ _ D]; destruct (pn_entries evs r') as [_ _ D'].
  specialize (H q); rewrite D, D' in H.
  destruct (closed_comparable (hist_of evs) (known_by evs r) (known_by evs r') q W (C r) (C r')) as [S1|S1];
    [exact (S1 i x Hx eq_refl Hi)|].
  assert (M : forall j y, hist_of evs !! j = Some y -> only q pn_one y <> 0%N ->
      0 + j ∈ known_by evs r' -> 0 + j ∈ known_by evs r)
    by (intros j y Hy Hne Hj; apply (S1 j y Hy); [|exact Hj];
        unfold only in Hne; case_decide as E; [exact E|congruence]).
  pose proof (sum_from_mono (only q pn_one) (hist_of evs) 0 _ _ M) as Le.
  eapply (sum_from_zero_le (only q pn_one) (hist_of evs) 0 _ _ M) with (j := i) (x := x); auto.
  - unfold sum_known in H; lia.
  - unfold only, pn_one; now rewrite decide_True.
Qed.

(** ** Totals of a run *)

Fixpoint total_ops {O} (f : O -> N) (evs : list (event O)) : N :=
  match evs with
  | [] => 0%N
  | EOp _ o :: evs' => (f o + total_ops f evs')%N
  | _ :: evs' => total_ops f evs'
  end.

Lemma sum_from_all {O} (f : opinfo O -> N) h i K L :
  (forall j, j < length h -> i + j ∈ K) -> (forall j, j < length h -> i + j ∈ L) ->
  sum_from f h i K = sum_from f h i L.
Proof.
  intros A B. apply sum_from_ext. intros j x Hx _. apply lookup_lt_Some in Hx. split; auto.
Qed.

Lemma hist_total {O} (f : O -> N) (evs : list (event O)) K :
  (forall i, i < length (hist_of evs) -> i ∈ K) ->
  sum_known (fun x => f (op_op x)) (hist_of evs) K = total_ops f evs.
Proof.
  unfold hist_of, gexec.
  assert (G : forall evs (g : ghost) K,
    (forall i, i < length (g_hist (fold_left gstep evs g)) -> i ∈ K) ->
    sum_known (fun x => f (op_op x)) (g_hist (fold_left gstep evs g)) K =
    (sum_known (fun x => f (op_op x)) (g_hist g) K + total_ops f evs)%N).
  { clear evs K. induction evs as [|e evs IH]; intros g K HK; simpl in *; [lia|].
    rewrite (IH (gstep g e) K HK).
    destruct e as [r o|r|r k]; simpl.
    - unfold sum_known. rewrite sum_from_app. simpl.
      rewrite decide_True; [lia|]. apply HK.
      assert (L : forall evs (g : ghost), length (g_hist g) <= length (g_hist (fold_left (@gstep O) evs g))).
      { clear. induction evs as [|e evs IH]; intros g; simpl; [lia|].
        etransitivity; [|apply IH].
        destruct e as [r o|r|r k]; simpl; [rewrite app_length; lia|lia|].
        destruct (g_sent g !! k); simpl; lia. }
      eapply Nat.lt_le_trans; [|apply L]. simpl. rewrite app_length. simpl. lia.
    - lia.
    - destruct (g_sent g !! k); simpl; lia. }
  intros HK. rewrite G by exact HK. reflexivity.
Qed.

Lemma map_sum_mono (a b : gmap N N) :
  (forall q, default 0 (a !! q) <= default 0 (b !! q))%N -> (map_sum a <= map_sum b)%N.
Proof.
  revert b. induction a as [|k v a Hk IH] using map_ind; intros b H.
  - unfold map_sum at 1. rewrite map_to_list_empty. simpl. lia.
  - rewrite map_sum_insert_fresh by exact Hk.
    pose proof (map_sum_insert b k 0%N) as E.
    assert (map_sum a <= map_sum (<[k:=0%N]> b))%N.
    { apply IH. intros q. destruct (decide (q = k)) as [->|Hq].
      - rewrite Hk. simpl. lia.
      - rewrite lookup_insert_ne by auto. specialize (H q). now rewrite lookup_insert_ne in H by auto. }
    specialize (H k). rewrite lookup_insert in H. simpl in H. lia.
Qed.

Lemma map_sum_ext (a b : gmap N N) :
  (forall q, default 0 (a !! q) = default 0 (b !! q))%N -> map_sum a = map_sum b.
Proof.
  intros H. apply N.le_antisymm; apply map_sum_mono; intros q; rewrite H; lia.
Qed.

Lemma gc_merge_monotone a b : (gc_value a <= gc_value (gc_merge a b))%N.
Proof.
  apply map_sum_mono. intros q. simpl. rewrite max_merge_lookup, default_maxo. lia.
Qed.

Lemma pn_delta_equiv evs r r' :
  let s := state_at pn_new pn_apply pn_merge evs r in
  let p := state_at pn_new pn_apply pn_merge evs r' in
  pn_value (match pn_delta_since s (pn_version p) with Some d => pn_apply_delta p d | None => p end)
  = pn_value (pn_merge p s).
Proof.
  intros s p. unfold pn_delta_since.
  destruct (vc_dominates (pn_version p) (pn_version s)) eqn:E; [|reflexivity].
  apply pn_version_covers in E.
  destruct (pn_entries evs r) as [A B _]. destruct (pn_entries evs r') as [A' B' _].
  fold s in A, B. fold p in A', B'.
  unfold pn_value, pn_merge; simpl.
  assert (M : forall f, (sum_known f (hist_of evs) (known_by evs r) <=
                         sum_known f (hist_of evs) (known_by evs r'))%N).
  { intros f. apply sum_from_mono. intros j x _ _ Hj. now apply E. }
  f_equal; f_equal; apply map_sum_ext; intros q; rewrite max_merge_lookup, default_maxo.
  - rewrite A, A'. specialize (M (only q pn_amount_inc)). lia.
  - rewrite B, B'. specialize (M (only q pn_amount_dec)). lia.
Qed.
