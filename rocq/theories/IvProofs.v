(** Proofs about the sweep and the greedy assignment of IvModel. *)
From Coq Require Import ZArith List Bool Lia Sorting.Sorted Sorting.Permutation.
From stdpp Require Import base list gmap.
From Verif Require Import IvModel.
Open Scope Z_scope.

Definition runs (t : interval) (x : Z) : Prop := start t <= x < stop t.

Lemma filter_length_le {A} (f : A -> bool) l : (length (List.filter f l) <= length l)%nat.
Proof. induction l as [|x l IH]; cbn; [done|]. destruct (f x); cbn; lia. Qed.
(** Sorting. *)
Section Sort.
Context {A : Type} (le : A -> A -> bool).
Lemma insert_perm x l : Permutation (insert_by le x l) (x :: l).
Proof. induction l as [|y l IH]; cbn; [done|]. destruct (le x y); [done|]. rewrite IH. apply perm_swap. Qed.
Lemma sort_perm l : Permutation (sort_by le l) l.
Proof. induction l as [|x l IH]; cbn; [done|]. rewrite insert_perm, IH. done. Qed.
Hypothesis total : forall a b, le a b = false -> le b a = true.
Hypothesis trans : forall a b c, le a b = true -> le b c = true -> le a c = true.
Notation sorted := (StronglySorted (fun a b => le a b = true)).
Lemma insert_sorted x l : sorted l -> sorted (insert_by le x l).
Proof.
  induction l as [|y l IH]; cbn; intros S; [repeat constructor|].
  apply StronglySorted_inv in S as [S F].
  destruct (le x y) eqn:E.
  - constructor; [constructor; done|]. constructor; [done|].
    apply List.Forall_forall. intros z I. apply List.Forall_forall with (x := z) in F; [|done]. eauto.
  - constructor; [auto|]. apply List.Forall_forall. intros z I.
    apply (Permutation_in _ (insert_perm x l)) in I. destruct I as [->|I]; [auto|].
    apply List.Forall_forall with (x := z) in F; done.
Qed.
Lemma sort_sorted l : sorted (sort_by le l).
Proof. induction l as [|x l IH]; cbn; [constructor|]. by apply insert_sorted. Qed.
Lemma sorted_mid p e q : sorted (p ++ e :: q) -> (forall a, List.In a p -> le a e = true) /\ (forall b, List.In b q -> le e b = true).
Proof.
  induction p as [|y p IH]; cbn; intros S; apply StronglySorted_inv in S as [S F].
  - split; [done|]. apply List.Forall_forall. done.
  - destruct (IH S) as [H1 H2]. split; [|done]. intros a [->|I]; [|auto].
    apply List.Forall_forall with (x := e) in F; [done|]. apply List.in_app_iff. right. by left.
Qed.
Lemma sorted_split (f : A -> bool) l : (forall a b, le a b = true -> f b = true -> f a = true) -> sorted l ->
  l = List.filter f l ++ List.filter (fun a => negb (f a)) l.
Proof.
  intros D. induction l as [|x l IH]; cbn; intros S; [done|]. apply StronglySorted_inv in S as [S F].
  destruct (f x) eqn:E; cbn; [f_equal; auto|].
  assert (List.filter f l = []) as ->.
  { clear IH S. induction l as [|y l IH]; cbn; [done|]. apply List.Forall_cons_iff in F as [F1 F2].
    destruct (f y) eqn:Ey; [|auto]. specialize (D _ _ F1 Ey). congruence. }
  cbn. f_equal. clear IH S. induction l as [|y l IH]; cbn; [done|]. apply List.Forall_cons_iff in F as [F1 F2].
  destruct (f y) eqn:Ey; cbn; [specialize (D _ _ F1 Ey); congruence|]. f_equal. auto.
Qed.
End Sort.

Lemma ev_total a b : ev_le a b = false -> ev_le b a = true.
Proof. unfold ev_le. destruct a as [[x d] i], b as [[y e] j]; cbn. lia. Qed.
Lemma ev_trans a b c : ev_le a b = true -> ev_le b c = true -> ev_le a c = true.
Proof. unfold ev_le. destruct a as [[x d] i], b as [[y e] j], c as [[z f] k]; cbn. lia. Qed.

(** Events. *)
Lemma events_from_in tasks : forall k x d i, List.In (x, d, i) (events_from k tasks) <->
  exists t, (k <= i)%nat /\ tasks !! (i - k)%nat = Some t /\ start t < stop t /\ ((x = start t /\ d = 1) \/ (x = stop t /\ d = -1)).
Proof.
  induction tasks as [|t ts IH]; intros k x d i; cbn.
  - split; [done|]. intros (t & _ & H & _). by rewrite lookup_nil in H.
  - rewrite List.in_app_iff, IH. split.
    + intros [H|(u & L & H & R)].
      * destruct (start t <? stop t) eqn:E; [|done]. exists t. destruct H as [H|[H|[]]]; injection H as <- <- <-; rewrite Nat.sub_diag; split_and!; cbn; try apply Z.ltb_lt; auto; lia.
      * exists u. split_and!; [lia| |by destruct R..]. replace (i - k)%nat with (S (i - S k)) by lia. done.
    + intros (u & L & H & E & R). destruct (decide (i = k)) as [->|N].
      * rewrite Nat.sub_diag in H. cbn in H. injection H as ->. left. apply Z.ltb_lt in E. rewrite E. cbn.
        destruct R as [[-> ->]|[-> ->]]; auto.
      * right. exists u. replace (i - k)%nat with (S (i - S k)) in H by lia. split_and!; [lia|done..].
Qed.
Lemma events_from_nodup tasks : forall k, List.NoDup (events_from k tasks).
Proof.
  induction tasks as [|t ts IH]; intros k; cbn; [constructor|].
  assert (forall x d, ~ List.In (x, d, k) (events_from (S k) ts)) as N.
  { intros x d I. apply events_from_in in I as (u & L & _). lia. }
  destruct (start t <? stop t) eqn:E; cbn; [|done].
  constructor; [|constructor; [|done]]; cbn; [|apply N].
  intros [H|H]; [congruence|by apply N in H].
Qed.
Section Tasks.
Variable tasks : list interval.
Notation all := (events tasks).
Lemma all_sorted : StronglySorted (fun a b => ev_le a b = true) all.
Proof. apply sort_sorted; [apply ev_total|apply ev_trans]. Qed.
Lemma all_nodup : List.NoDup all.
Proof. eapply Permutation_NoDup; [symmetry; apply sort_perm|apply events_from_nodup]. Qed.
Lemma all_in x d i : List.In (x, d, i) all <-> exists t, tasks !! i = Some t /\ start t < stop t /\ ((x = start t /\ d = 1) \/ (x = stop t /\ d = -1)).
Proof.
  unfold events. split; intros H.
  - apply (Permutation_in _ (sort_perm _ _)) in H. apply events_from_in in H as (t & _ & L & R). rewrite Nat.sub_0_r in L. eauto.
  - apply (Permutation_in _ (Permutation_sym (sort_perm _ _))). apply events_from_in. destruct H as (t & L & R). exists t. rewrite Nat.sub_0_r. split; [lia|done].
Qed.

Lemma all_start i t : tasks !! i = Some t -> start t < stop t -> List.In (start t, 1, i) all.
Proof. intros. apply all_in. exists t. split_and!; auto. Qed.
Lemma all_stop i t : tasks !! i = Some t -> start t < stop t -> List.In (stop t, -1, i) all.
Proof. intros. apply all_in. exists t. split_and!; auto. Qed.

(** The tasks active after the events [p]. *)
Definition step (act : list nat) (e : event) : list nat := if e.1.2 =? 1 then act ++ [e.2] else List.filter (fun x => negb (x =? e.2)%nat) act.
Definition act (p : list event) : list nat := fold_left step p [].
Lemma act_snoc p e : act (p ++ [e]) = step (act p) e.
Proof. unfold act. by rewrite fold_left_app. Qed.

Definition inv (p : list event) (l : list nat) : Prop :=
  List.NoDup l /\ forall i, List.In i l <-> exists t, tasks !! i = Some t /\ start t < stop t /\ List.In (start t, 1, i) p /\ ~ List.In (stop t, -1, i) p.
Lemma act_inv p : forall q, all = p ++ q -> inv p (act p).
Proof.
  induction p as [|e p IH] using rev_ind; intros q A.
  { split; [constructor|]. intros i. cbn. split; [done|]. intros (t & _ & _ & [] & _). }
  rewrite <- app_assoc in A. cbn in A. specialize (IH _ A) as [N I].
  pose proof all_sorted as S. rewrite A in S. apply sorted_mid in S as [S1 S2].
  pose proof all_nodup as D. rewrite A in D. apply NoDup_remove_2 in D.
  assert (List.In e all) as E by (rewrite A; apply List.in_app_iff; right; by left).
  destruct e as [[x d] i]. apply all_in in E as (t & L & T & R).
  rewrite act_snoc. unfold step. cbn [fst snd].
  destruct R as [[-> ->]|[-> ->]]; cbn [Z.eqb Pos.eqb].
  - assert (~ List.In i (act p)) as Ni.
    { intros H. apply I in H as (u & Lu & _ & H & _). assert (u = t) as -> by congruence. apply D, List.in_app_iff. by left. }
    split.
    + eapply Permutation_NoDup; [apply Permutation_cons_append|]. by constructor.
    + intros j. rewrite List.in_app_iff, I. split.
      * intros [(u & H1 & H2 & H3 & H4)|[<-|[]]].
        -- exists u. split_and!; [done|done|apply List.in_app_iff; by left|]. rewrite List.in_app_iff. intros [H|[H|[]]]; [done|congruence].
        -- exists t. split_and!; [done|done|apply List.in_app_iff; right; by left|]. rewrite List.in_app_iff. intros [H|[H|[]]]; [|congruence].
           apply S1 in H. unfold ev_le in H. cbn in H. lia.
      * intros (u & H1 & H2 & H3 & H4). rewrite List.in_app_iff in H3, H4. destruct H3 as [H3|[H3|[]]].
        -- left. exists u. split_and!; try done. intros H. apply H4. by left.
        -- right. left. congruence.
  - split.
    + by apply List.NoDup_filter.
    + intros j. rewrite List.filter_In, I. split.
      * intros [(u & H1 & H2 & H3 & H4) H5]. exists u. split_and!; [done|done|apply List.in_app_iff; by left|]. rewrite List.in_app_iff.
        intros [H|[H|[]]]; [done|]. injection H as _ ->. rewrite Nat.eqb_refl in H5. done.
      * intros (u & H1 & H2 & H3 & H4). rewrite List.in_app_iff in H3, H4. destruct H3 as [H3|[H3|[]]]; [|congruence].
        split.
        -- exists u. split_and!; try done. intros H. apply H4. by left.
        -- apply negb_true_iff, Nat.eqb_neq. intros ->. apply H4. right. left. congruence.
Qed.
Lemma act_end p x i q : all = p ++ (x, -1, i) :: q -> List.In i (act p).
Proof.
  intros A. pose proof (act_inv p _ A) as [_ I]. apply I.
  assert (List.In (x, -1, i) all) as E by (rewrite A; apply List.in_app_iff; right; by left).
  apply all_in in E as (t & L & T & [[_ ?]|[-> _]]); [done|]. exists t. split_and!; [done..| |].
  - pose proof (all_start _ _ L T) as E.
    rewrite A in E. apply List.in_app_iff in E as [E|[E|E]]; [done|congruence|].
    pose proof all_sorted as S. rewrite A in S. apply sorted_mid in S as [_ S2]. apply S2 in E. unfold ev_le in E. cbn in E. lia.
  - pose proof all_nodup as D. rewrite A in D. apply NoDup_remove_2 in D. intros H. apply D, List.in_app_iff. by left.
Qed.
Lemma act_start p x i q : all = p ++ (x, 1, i) :: q -> forall j, List.In j (act (p ++ [(x, 1, i)])) -> exists t, tasks !! j = Some t /\ runs t x.
Proof.
  intros A j H. assert (all = (p ++ [(x, 1, i)]) ++ q) as A' by by rewrite <- app_assoc.
  apply (act_inv _ _ A') in H as (t & L & T & H1 & H2). exists t. split; [done|].
  pose proof all_sorted as S. rewrite A in S. apply sorted_mid in S as [S1 S2].
  assert (start t <= x) as Hs.
  { apply List.in_app_iff in H1 as [H1|[H1|[]]]; [apply S1 in H1; unfold ev_le in H1; cbn in H1; lia|]. injection H1. lia. }
  split; [done|].
  pose proof (all_stop _ _ L T) as E.
  rewrite A' in E. apply List.in_app_iff in E as [E|E]; [done|].
  apply S2 in E. unfold ev_le in E. cbn in E. lia.
Qed.
(** Some point of the sweep has exactly the tasks running at [x]. *)
Lemma act_at x : exists p q, all = p ++ q /\ forall i, List.In i (act p) <-> exists t, tasks !! i = Some t /\ runs t x.
Proof.
  set (f := fun e : event => ev_le e (x, 1, O)).
  assert (all = List.filter f all ++ List.filter (fun a => negb (f a)) all) as A.
  { apply (sorted_split ev_le); [|apply all_sorted]. subst f. cbn. intros a b H1 H2. eapply ev_trans; eauto. }
  eexists _, _. split; [exact A|]. intros i. rewrite (proj2 (act_inv _ _ A)). unfold runs. split.
  - intros (t & L & T & H1 & H2). exists t. split; [done|]. apply List.filter_In in H1 as [_ H1]. subst f. unfold ev_le in H1. cbn in H1.
    split; [lia|]. destruct (Z.ltb_spec x (stop t)); [done|]. exfalso. apply H2. apply List.filter_In. split; [by apply all_stop|]. unfold ev_le. cbn. lia.
  - intros (t & L & H). exists t. split_and!; [done|lia| |].
    + apply List.filter_In. split; [apply all_start; [done|lia]|]. subst f. unfold ev_le. cbn. lia.
    + intros H1. apply List.filter_In in H1 as [_ H1]. subst f. unfold ev_le in H1. cbn in H1. lia.
Qed.

(** No more than [k] tasks run at any time. *)
Definition at_once (l : list nat) (x : Z) : Prop := List.NoDup l /\ forall i, List.In i l -> exists t, tasks !! i = Some t /\ runs t x.
Lemma at_once_act l x : at_once l x -> exists p q, all = p ++ q /\ (length l <= length (act p))%nat.
Proof.
  intros [N H]. destruct (act_at x) as (p & q & A & I). exists p, q. split; [done|].
  apply NoDup_incl_length; [done|]. intros i Hi. apply I. auto.
Qed.
Lemma sweep_some m : forall es p w, (length (act p) <= m)%nat -> all = p ++ es -> sweep m (act p) es = Some w ->
  length w = S m /\ exists x, at_once w x.
Proof.
  induction es as [|[[x d] i] es IH]; intros p w Hm A; cbn [sweep]; [done|].
  assert (all = (p ++ [(x, d, i)]) ++ es) as A' by by rewrite <- app_assoc.
  pose proof (act_snoc p (x, d, i)) as As. unfold step in As. cbn [fst snd] in As.
  destruct (d =? 1) eqn:D.
  - rewrite <- As. destruct (m <? length (act (p ++ [(x, d, i)])))%nat eqn:L; [|intros H; apply IH in H; [done| |done]; apply Nat.ltb_ge in L; lia].
    intros H. injection H as <-. apply Nat.ltb_lt in L. apply Z.eqb_eq in D as ->. split.
    + rewrite As in *. rewrite app_length in *. cbn in *. lia.
    + exists x. split; [apply (act_inv _ _ A')|]. by apply (act_start _ _ _ es).
  - rewrite <- As. intros H. apply IH in H; [done| |done]. rewrite As.
    pose proof (filter_length_le (fun x0 => negb (x0 =? i)%nat) (act p)) as F. lia.
Qed.
Lemma sweep_none m : forall es p, (length (act p) <= m)%nat -> sweep m (act p) es = None -> forall q r, es = q ++ r -> (length (act (p ++ q)) <= m)%nat.
Proof.
  induction es as [|[[x d] i] es IH]; intros p Hm; cbn [sweep]; intros H q r E.
  { symmetry in E. apply app_eq_nil in E as [-> ->]. by rewrite app_nil_r. }
  destruct q as [|e q]; [by rewrite app_nil_r|]. injection E as <- E.
  pose proof (act_snoc p (x, d, i)) as As. unfold step in As. cbn [fst snd] in As.
  rewrite (app_assoc p [_] q : p ++ (x, d, i) :: q = _).
  destruct (d =? 1) eqn:D; rewrite <- As in H.
  - destruct (m <? length (act (p ++ [(x, d, i)])))%nat eqn:L; [done|]. apply Nat.ltb_ge in L. eapply IH; [lia|done..].
  - eapply IH; [|done..]. rewrite As. pose proof (filter_length_le (fun x0 => negb (x0 =? i)%nat) (act p)) as F. lia.
Qed.
Lemma fits m l x : sweep m [] all = None -> at_once l x -> (length l <= m)%nat.
Proof.
  intros H O. destruct (at_once_act _ _ O) as (p & q & A & L).
  eapply Nat.le_trans; [exact L|]. exact (sweep_none m all [] (Nat.le_0_l _) H p q A).
Qed.
Lemma filter_one i l : List.NoDup l -> List.In i l -> S (length (List.filter (fun x => negb (x =? i)%nat) l)) = length l.
Proof.
  intros N I. apply List.in_split in I as (a & b & ->). apply NoDup_remove_2 in N.
  assert (forall c, ~ List.In i c -> List.filter (fun x => negb (x =? i)%nat) c = c) as K.
  { induction c as [|y c IH]; cbn; intros H; [done|]. destruct (Nat.eqb_spec y i); cbn; [exfalso; auto|]. f_equal. auto. }
  rewrite List.filter_app. cbn. rewrite Nat.eqb_refl. cbn. rewrite !K by (intros H; apply N, List.in_app_iff; auto).
  rewrite !app_length. cbn. lia.
Qed.
Lemma peak_spec : forall es p pk, all = p ++ es -> Z.of_nat (length (act p)) <= pk ->
  let r := peak_loop (Z.of_nat (length (act p))) pk es in
  pk <= r /\ (forall q q', es = q ++ q' -> Z.of_nat (length (act (p ++ q))) <= r) /\ (r = pk \/ exists l x, at_once l x /\ Z.of_nat (length l) = r).
Proof.
  induction es as [|[[x d] i] es IH]; intros p pk A L; cbn.
  { split_and!; [lia| |auto]. intros q q' E. symmetry in E. apply app_eq_nil in E as [-> ->]. by rewrite app_nil_r. }
  assert (all = (p ++ [(x, d, i)]) ++ es) as A' by by rewrite <- app_assoc.
  pose proof (act_snoc p (x, d, i)) as As. unfold step in As. cbn [fst snd] in As.
  assert (List.In (x, d, i) all) as E by (rewrite A; apply List.in_app_iff; right; by left).
  assert (Z.of_nat (length (act (p ++ [(x, d, i)]))) = Z.of_nat (length (act p)) + d) as Len.
  { apply all_in in E as (t & _ & _ & [[-> ->]|[-> ->]]); cbn [Z.eqb Pos.eqb] in As; rewrite As.
    - rewrite app_length. cbn. lia.
    - pose proof (filter_one i (act p) (proj1 (act_inv _ _ A)) (act_end _ _ _ _ A)). lia. }
  rewrite <- Len. destruct (IH (p ++ [(x, d, i)]) (Z.max pk (Z.of_nat (length (act (p ++ [(x, d, i)]))))) A') as (R1 & R2 & R3); [lia|].
  set (r := peak_loop _ _ es) in *. split_and!.
  - lia.
  - intros [|e q] q' Eq; [rewrite app_nil_r; lia|]. injection Eq as <- Eq.
    rewrite (app_assoc p [_] q : p ++ (x, d, i) :: q = _). by apply (R2 q q').
  - destruct R3 as [R3|R3]; [|by right]. destruct (Z.leb_spec (Z.of_nat (length (act (p ++ [(x, d, i)])))) pk); [left; lia|].
    right. exists (act (p ++ [(x, d, i)])), x. split; [|lia]. split; [apply (act_inv _ _ A')|].
    apply all_in in E as (t & _ & _ & [[-> ->]|[-> ->]]); [|lia]. by apply (act_start _ _ _ es).
Qed.

(** The greedy assignment. *)
Lemma set_nth_insert {A} i (x : A) l : set_nth i x l = <[i := x]> l.
Proof. revert i. induction l as [|y l IH]; intros [|i]; cbn; f_equal; auto. Qed.
Lemma find_free_spec free s : match find_free free s with Some m => exists f, free !! m = Some f /\ f <= s | None => forall m f, free !! m = Some f -> s < f end.
Proof.
  induction free as [|f free IH]; cbn; [intros m f; by rewrite lookup_nil|].
  destruct (Z.leb_spec f s); [exists f; done|]. destruct (find_free free s) as [m|]; cbn; [done|].
  intros [|m] g; cbn; [|apply IH]. intros [= <-]. lia.
Qed.
Lemma get_lookup i t : tasks !! i = Some t -> get tasks i = t.
Proof. unfold get. intros H. rewrite nth_lookup, H. done. Qed.

Variable machines : nat.
Hypothesis nonempty : forall i t, tasks !! i = Some t -> i64_min <= start t < stop t.
Hypothesis enough : forall l x, at_once l x -> (length l <= machines)%nat.
Definition ginv (p : list nat) (st : list Z * list nat) : Prop :=
  let '(free, a) := st in
  length free = Nat.max machines 1 /\ length a = length tasks /\
  (forall i t, List.In i p -> tasks !! i = Some t -> exists m f, a !! i = Some m /\ free !! m = Some f /\ stop t <= f) /\
  (forall m f, free !! m = Some f -> f = i64_min \/ exists j t, List.In j p /\ a !! j = Some m /\ tasks !! j = Some t /\ f = stop t) /\
  (forall i j t u m, List.In i p -> List.In j p -> i <> j -> tasks !! i = Some t -> tasks !! j = Some u -> a !! i = Some m -> a !! j = Some m -> stop t <= start u \/ stop u <= start t).
Lemma busy p free a s : ginv p (free, a) -> i64_min <= s -> (forall i t, List.In i p -> tasks !! i = Some t -> start t <= s) ->
  (forall m f, free !! m = Some f -> s < f) ->
  forall k, (k <= length free)%nat -> exists l, length l = k /\ at_once l s /\ (forall i, List.In i l -> List.In i p /\ exists m, a !! i = Some m /\ (m < k)%nat).
Proof.
  intros (G1 & G2 & G3 & G4 & G5) B O F. induction k as [|k IH]; intros K.
  { exists []. split_and!; [done|split; [constructor|done]|done]. }
  destruct IH as (l & L1 & [L2 L3] & L4); [lia|].
  destruct (lookup_lt_is_Some_2 free k) as [f Hf]; [lia|]. pose proof (F _ _ Hf) as Hs.
  destruct (G4 _ _ Hf) as [->|(j & t & J1 & J2 & J3 & ->)]; [lia|].
  exists (j :: l). split_and!; [cbn; lia| |].
  - split.
    + constructor; [|done]. intros H. apply L4 in H as (_ & m & Hm & Hl). assert (m = k) by congruence. lia.
    + intros i [<-|H]; [|auto]. exists t. split; [done|]. split; [eauto|done].
  - intros i [<-|H]; [split; [done|]; exists k; split; [done|lia]|]. destruct (L4 _ H) as (H1 & m & H2 & H3). split; [done|]. exists m. split; [done|lia].
Qed.
Lemma place_inv p i t st : ginv p st -> ~ List.In i p -> tasks !! i = Some t -> (forall j u, List.In j p -> tasks !! j = Some u -> start u <= start t) ->
  ginv (p ++ [i]) (place tasks st i).
Proof.
  destruct st as [free a]. intros G Ni T O. cbn [place]. rewrite (get_lookup _ _ T), !set_nth_insert.
  pose proof (nonempty _ _ T) as Tn. pose proof (find_free_spec free (start t)) as F.
  destruct (find_free free (start t)) as [m|]; cycle 1.
  - exfalso. destruct (busy p free a (start t) G ltac:(lia) O F (length free) (Nat.le_refl _)) as (l & L1 & [L2 L3] & L4).
    assert (at_once (i :: l) (start t)) as Q.
    { split; [constructor; [|done]; intros H; by apply Ni, L4|]. intros j [<-|H]; [|auto]. exists t. split; [done|]. unfold runs. lia. }
    apply enough in Q. cbn in Q. destruct G as (G1 & _). lia.
  - destruct F as (f & Hf & Fs). destruct G as (G1 & G2 & G3 & G4 & G5).
    assert (m < length free)%nat as Lm by (by apply lookup_lt_Some in Hf).
    assert (i < length a)%nat as Li by (rewrite G2; by apply lookup_lt_Some in T).
    assert (<[i := m]> a !! i = Some m) as Ai by by apply list_lookup_insert.
    assert (forall j, List.In j p -> <[i := m]> a !! j = a !! j) as Aj by (intros j H; apply list_lookup_insert_ne; intros ->; done).
    assert (<[m := stop t]> free !! m = Some (stop t)) as Fm by by apply list_lookup_insert.
    split_and!.
    + by rewrite insert_length.
    + by rewrite insert_length.
    + intros j u H Tu. apply List.in_app_iff in H as [H|[<-|[]]].
      * destruct (G3 _ _ H Tu) as (m' & f' & H1 & H2 & H3). rewrite Aj by done. exists m'. destruct (decide (m' = m)) as [->|Nm].
        -- exists (stop t). split_and!; [done..|]. assert (f' = f) as -> by congruence. lia.
        -- exists f'. rewrite list_lookup_insert_ne by done. done.
      * exists m, (stop t). split_and!; [done..|]. assert (u = t) as -> by congruence. lia.
    + intros m' f' H. destruct (decide (m' = m)) as [->|Nm].
      * right. exists i, t. split_and!; [apply List.in_app_iff; right; by left|done..|congruence].
      * rewrite list_lookup_insert_ne in H by done. destruct (G4 _ _ H) as [->|(j & u & J1 & J2 & J3 & J4)]; [by left|].
        right. exists j, u. rewrite Aj by done. split_and!; [apply List.in_app_iff; by left|done..].
    + assert (forall j u, List.In j p -> tasks !! j = Some u -> a !! j = Some m -> stop u <= start t) as K.
      { intros j u H1 H2 H3. destruct (G3 _ _ H1 H2) as (m' & f' & J1 & J2 & J3). assert (m' = m) as -> by congruence. assert (f' = f) as -> by congruence. lia. }
      intros j k u v m' Hj Hk Njk Tj Tk Aj' Ak. apply List.in_app_iff in Hj, Hk.
      destruct Hj as [Hj|[<-|[]]]; destruct Hk as [Hk|[<-|[]]]; [|..|done].
      * rewrite Aj in Aj', Ak by done. eapply G5; [exact Hj|exact Hk|done..].
      * rewrite Aj in Aj' by done. left. assert (v = t) as -> by congruence. eapply K; [done|done|congruence].
      * rewrite Aj in Ak by done. right. assert (u = t) as -> by congruence. eapply K; [done|done|congruence].
Qed.
Lemma order_perm : Permutation (order tasks) (seq 0 (length tasks)).
Proof. apply sort_perm. Qed.
Lemma order_sorted : StronglySorted (fun i j => (start (get tasks i) <=? start (get tasks j)) = true) (order tasks).
Proof. apply sort_sorted; intros; lia. Qed.
Lemma fold_inv : forall q p st, order tasks = p ++ q -> ginv p st -> ginv (p ++ q) (fold_left (place tasks) q st).
Proof.
  induction q as [|i q IH]; intros p st O G; cbn [fold_left]; [by rewrite app_nil_r|].
  rewrite (app_assoc p [i] q : p ++ i :: q = _). apply IH; [by rewrite <- app_assoc|].
  pose proof order_sorted as S. rewrite O in S. apply sorted_mid in S as [S _].
  assert (List.NoDup (order tasks)) as N by (eapply Permutation_NoDup; [symmetry; apply order_perm|apply seq_NoDup]).
  rewrite O in N. apply NoDup_remove_2 in N.
  assert (List.In i (order tasks)) as I by (rewrite O; apply List.in_app_iff; right; by left).
  apply (Permutation_in _ order_perm), in_seq in I.
  destruct (lookup_lt_is_Some_2 tasks i) as [t T]; [lia|].
  eapply place_inv; [done| |done|].
  - intros H. apply N, List.in_app_iff. by left.
  - intros j u H U. apply S in H. rewrite (get_lookup _ _ U), (get_lookup _ _ T) in H. lia.
Qed.
Lemma greedy_ok : let a := greedy_assign tasks machines in
  length a = length tasks /\ (forall i m, a !! i = Some m -> (m < machines)%nat) /\
  (forall i j t u m, i <> j -> tasks !! i = Some t -> tasks !! j = Some u -> a !! i = Some m -> a !! j = Some m -> stop t <= start u \/ stop u <= start t).
Proof.
  unfold greedy_assign. pose proof (fold_inv (order tasks) [] (repeat i64_min (Nat.max machines 1), repeat O (length tasks)) eq_refl) as G.
  cbn [app] in G. destruct (fold_left _ _ _) as [free a]. cbn.
  destruct G as (G1 & G2 & G3 & G4 & G5).
  { cbn. rewrite !repeat_length. split_and!; [done..| |].
    - intros m f H. left. apply elem_of_list_lookup_2, elem_of_list_In, repeat_spec in H. done.
    - done. }
  assert (forall i t, tasks !! i = Some t -> List.In i (order tasks)) as I.
  { intros i t T. apply (Permutation_in _ (Permutation_sym order_perm)), in_seq. apply lookup_lt_Some in T. lia. }
  split_and!; [done| |].
  - intros i m H. destruct (lookup_lt_is_Some_2 tasks i) as [t T]; [rewrite <- G2; by apply lookup_lt_Some in H|].
    destruct (G3 _ _ (I _ _ T) T) as (m' & f & H1 & H2 & _). assert (m' = m) as -> by congruence. apply lookup_lt_Some in H2.
    assert (at_once [i] (start t)) as Q.
    { split; [repeat constructor; easy|]. intros j [<-|[]]. exists t. split; [done|]. specialize (nonempty _ _ T). unfold runs. lia. }
    apply enough in Q. cbn in Q. lia.
  - intros i j t u m N T U. eapply G5; eauto.
Qed.
End Tasks.
