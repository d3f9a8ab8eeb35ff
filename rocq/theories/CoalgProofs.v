(** Lemmas for [CoalgModel]. *)
From Coq Require Import List Arith Bool Lia Relations Wellfounded.
From Verif Require Import CoalgModel.
Import ListNotations.

(** One step of the system inside its state range. *)
Definition edge (y : system) (s t : nat) : Prop := s < n_states y /\ t < n_states y /\ In t (succs y s).
Definition shaped (y : system) : Prop := length (successors y) = n_states y.

Definition sum (l : list nat) (f : nat -> nat) : nat := list_sum (map f l).
Lemma sum_app l l' f : sum (l ++ l') f = sum l f + sum l' f.
Proof. unfold sum. rewrite map_app. apply list_sum_app. Qed.
Lemma sum_cons a l f : sum (a :: l) f = f a + sum l f.
Proof. reflexivity. Qed.
Lemma sum_incl f l : forall l', NoDup l -> (forall s, In s l -> f s <> 0 -> In s l') -> sum l f <= sum l' f.
Proof.
  induction l as [|a l IH]; intros l' Hn H; [cbn; lia|]. inversion Hn as [|? ? Ha Hl]; subst. rewrite sum_cons.
  destruct (Nat.eq_dec (f a) 0) as [E|E].
  - rewrite E. apply IH; [exact Hl|]. intros s Hs. apply H. now right.
  - destruct (in_split a l') as (l1 & l2 & ->); [apply H; [now left|exact E]|]. rewrite sum_app, sum_cons.
    assert (Hs : sum l f <= sum (l1 ++ l2) f).
    { apply IH; [exact Hl|]. intros s Hs Hf. specialize (H s (or_intror Hs) Hf). apply in_app_or in H. apply in_or_app.
      destruct H as [H|[->|H]]; [now left|contradiction|now right]. }
    rewrite sum_app in Hs. lia.
Qed.

Definition into (y : system) (l : list nat) (t : nat) : nat := sum l (fun s => count_occ Nat.eq_dec (succs y s) t).

Lemma upd_same {A} (f : nat -> A) k v : upd f k v k = v. Proof. unfold upd. now rewrite Nat.eqb_refl. Qed.
Lemma upd_other {A} (f : nat -> A) k v i : i <> k -> upd f k v i = f i.
Proof. intros H. unfold upd. apply Nat.eqb_neq in H. now rewrite H. Qed.

Lemma indeg_inner n l t : t < n -> forall d,
  fold_left (fun d t => if t <? n then upd d t (d t + 1) else d) l d t = d t + count_occ Nat.eq_dec l t.
Proof.
  intros Ht. induction l as [|a l IH]; intros d; cbn [fold_left count_occ]; [lia|]. rewrite IH.
  destruct (Nat.eq_dec a t) as [->|Hne].
  - apply Nat.ltb_lt in Ht. rewrite Ht, upd_same. lia.
  - destruct (a <? n); [rewrite upd_other by auto|]; lia.
Qed.
Lemma indeg_outer n ls t : t < n -> forall d,
  fold_left (fun d succ => fold_left (fun d t => if t <? n then upd d t (d t + 1) else d) succ d) ls d t
    = d t + list_sum (map (fun l => count_occ Nat.eq_dec l t) ls).
Proof.
  intros Ht. induction ls as [|l ls IH]; intros d; cbn [fold_left map]; [cbn; lia|]. rewrite IH, indeg_inner by exact Ht. match goal with |- context [list_sum (?x :: ?l)] => change (list_sum (x :: l)) with (x + list_sum l) end. lia.
Qed.
Lemma succs_seq y : shaped y -> map (succs y) (seq 0 (n_states y)) = successors y.
Proof.
  unfold shaped, succs. intros <-. apply nth_ext with (d := []) (d' := []).
  - now rewrite map_length, seq_length.
  - intros i Hi. rewrite map_length, seq_length in Hi.
    rewrite (nth_indep _ [] (nth 0 (successors y) [])) by (now rewrite map_length, seq_length).
    rewrite (map_nth (fun s => nth s (successors y) [])), seq_nth by exact Hi. reflexivity.
Qed.
Lemma indegrees_spec y t : shaped y -> t < n_states y -> indegrees y t = into y (seq 0 (n_states y)) t.
Proof.
  intros Hs Ht. unfold indegrees. rewrite indeg_outer by exact Ht. rewrite <- (succs_seq y Hs) at 1. unfold into, sum. now rewrite map_map.
Qed.

Lemma relax_fold n l : forall d q, (forall t, t < n -> count_occ Nat.eq_dec l t <= d t) ->
  exists d' new, fold_left (relax n) l (d, q) = (d', q ++ new) /\
    (forall t, t < n -> d' t + count_occ Nat.eq_dec l t = d t) /\ NoDup new /\
    forall t, In t new <-> t < n /\ 0 < d t /\ d' t = 0.
Proof.
  induction l as [|a l IH]; intros d q Hc.
  - exists d, []. cbn. rewrite app_nil_r. split; [reflexivity|]. split; [intros; lia|]. split; [constructor|]. intros t. split; [intros []|lia].
  - cbn [fold_left relax]. destruct (a <? n) eqn:Ha.
    + apply Nat.ltb_lt in Ha. pose (d1 := upd d a (d a - 1)).
      assert (Hda : 0 < d a).
      { specialize (Hc a Ha). cbn in Hc. destruct (Nat.eq_dec a a); [lia|congruence]. }
      assert (Hc1 : forall t, t < n -> count_occ Nat.eq_dec l t <= d1 t).
      { intros t Ht. specialize (Hc t Ht). cbn in Hc. unfold d1. destruct (Nat.eq_dec a t) as [->|Hne].
        - rewrite upd_same. lia.
        - now rewrite upd_other by auto. }
      fold d1. destruct (IH d1 (if d1 a =? 0 then q ++ [a] else q) Hc1) as (d' & new & E & H1 & H2 & H3).
      assert (Hd' : forall t, t < n -> d' t + count_occ Nat.eq_dec (a :: l) t = d t).
      { intros t Ht. specialize (H1 t Ht). cbn. unfold d1 in H1. destruct (Nat.eq_dec a t) as [->|Hne].
        - rewrite upd_same in H1. lia.
        - rewrite upd_other in H1 by auto. lia. }
      destruct (d1 a =? 0) eqn:Ez.
      * apply Nat.eqb_eq in Ez. exists d', (a :: new). rewrite E, <- app_assoc. split; [reflexivity|]. split; [exact Hd'|]. split.
        -- constructor; [|exact H2]. rewrite H3. lia.
        -- intros t. cbn [In]. rewrite H3. split.
           ++ intros [<-|(Ht & Hp & Hz)]; [|split; [exact Ht|split; [|exact Hz]]].
              ** split; [exact Ha|]. split; [exact Hda|]. specialize (H1 a Ha). lia.
              ** specialize (H1 t Ht). specialize (Hd' t Ht). cbn in Hd'. destruct (Nat.eq_dec a t); lia.
           ++ intros (Ht & Hp & Hz). destruct (Nat.eq_dec a t) as [->|Hne]; [now left|right]. split; [exact Ht|]. split; [|exact Hz].
              unfold d1. rewrite upd_other by auto. exact Hp.
      * apply Nat.eqb_neq in Ez. exists d', new. rewrite E. split; [reflexivity|]. split; [exact Hd'|]. split; [exact H2|].
        intros t. rewrite H3. unfold d1 in *. destruct (Nat.eq_dec a t) as [->|Hne].
        -- rewrite upd_same in *. lia.
        -- rewrite upd_other by auto. reflexivity.
    + apply Nat.ltb_ge in Ha. destruct (IH d q) as (d' & new & E & H1 & H2 & H3).
      { intros t Ht. specialize (Hc t Ht). cbn in Hc. destruct (Nat.eq_dec a t); lia. }
      exists d', new. split; [exact E|]. split; [|split; [exact H2|exact H3]].
      intros t Ht. specialize (H1 t Ht). cbn. destruct (Nat.eq_dec a t); lia.
Qed.

(** [P]: processed states in order; every predecessor of a processed state was processed before it. *)
Definition topo (y : system) (P : list nat) : Prop :=
  forall P1 s P2, P = P1 ++ s :: P2 -> forall u, edge y u s -> In u P1.
Record kinv (y : system) (d : nat -> nat) (P Q : list nat) : Prop := {
  k_nodup : NoDup (P ++ Q);
  k_range : forall s, In s (P ++ Q) -> s < n_states y;
  k_deg : forall t, t < n_states y -> d t + into y P t = into y (seq 0 (n_states y)) t;
  k_zero : forall t, t < n_states y -> (In t (P ++ Q) <-> d t = 0);
  k_topo : topo y P }.

Lemma in_seq0 n s : In s (seq 0 n) <-> s < n.
Proof. rewrite in_seq. lia. Qed.
Lemma into_full y P t : NoDup P -> (forall s, In s P -> s < n_states y) -> into y P t = into y (seq 0 (n_states y)) t ->
  forall u, edge y u t -> In u P.
Proof.
  intros Hn Hr E u (Hu & Ht & Hi). destruct (in_dec Nat.eq_dec u P) as [|Hout]; [assumption|exfalso].
  assert (H : into y (u :: P) t <= into y (seq 0 (n_states y)) t).
  { apply sum_incl; [now constructor|]. intros s [<-|Hs] _; apply in_seq0; auto. }
  unfold into in H at 1. rewrite sum_cons in H. fold (into y P t) in H. apply (count_occ_In Nat.eq_dec) in Hi. lia.
Qed.
Lemma into_missing y P t : t < n_states y -> into y P t < into y (seq 0 (n_states y)) t -> exists u, edge y u t /\ ~ In u P.
Proof.
  intros Ht H.
  destruct (existsb (fun u => negb (count_occ Nat.eq_dec (succs y u) t =? 0) && if in_dec Nat.eq_dec u P then false else true) (seq 0 (n_states y))) eqn:E.
  - apply existsb_exists in E as (u & Hu & E). apply andb_true_iff in E as [E1 E2]. apply in_seq0 in Hu. exists u.
    destruct (in_dec Nat.eq_dec u P); [discriminate|]. split; [|assumption]. split; [exact Hu|]. split; [exact Ht|].
    apply negb_true_iff, Nat.eqb_neq in E1. apply (count_occ_In Nat.eq_dec). lia.
  - exfalso. assert (into y (seq 0 (n_states y)) t <= into y P t); [|lia]. apply sum_incl; [apply seq_NoDup|].
    intros s Hs Hf. destruct (in_dec Nat.eq_dec s P) as [|Hout]; [assumption|exfalso].
    assert (Ht' : existsb (fun u => negb (count_occ Nat.eq_dec (succs y u) t =? 0) && if in_dec Nat.eq_dec u P then false else true) (seq 0 (n_states y)) = true).
    { apply existsb_exists. exists s. split; [exact Hs|]. apply andb_true_iff. split; [now apply negb_true_iff, Nat.eqb_neq|].
      now destruct (in_dec Nat.eq_dec s P). }
    congruence.
Qed.

Lemma nodup_bound y l : NoDup l -> (forall s, In s l -> s < n_states y) -> length l <= n_states y.
Proof.
  intros Hn Hr. rewrite <- (seq_length (n_states y) 0). apply NoDup_incl_length; [exact Hn|]. intros s Hs. apply in_seq0. auto.
Qed.
Lemma NoDup_app_l {A} (l l' : list A) : NoDup (l ++ l') -> NoDup l.
Proof. induction l as [|a l IH]; cbn; [constructor|]. intros H. inversion H as [|? ? Ha Hl]; subst. constructor; [|auto]. intros Hin. apply Ha, in_or_app. now left. Qed.
Lemma kahn_spec y : forall fuel d P Q, kinv y d P Q -> fuel + length P = S (n_states y) ->
  exists d' P', kahn fuel y d Q (length P) = Some (length P') /\ kinv y d' P' [].
Proof.
  induction fuel as [|fuel IH]; intros d P Q HI Hf.
  - exfalso. assert (length P <= n_states y); [|lia]. apply nodup_bound.
    + eapply NoDup_app_l, (k_nodup _ _ _ _ HI).
    + intros s Hs. apply (k_range _ _ _ _ HI), in_or_app. now left.
  - cbn [kahn]. destruct Q as [|s Q]; [now exists d, P|]. destruct HI as [I1 I2 I3 I4 I5].
    assert (Hs : s < n_states y) by (apply I2, in_or_app; right; now left).
    assert (HsP : ~ In s P).
    { intros H. apply NoDup_remove_2 in I1. apply I1, in_or_app. now left. }
    assert (Hn : NoDup P) by (now apply NoDup_app_l in I1).
    destruct (relax_fold (n_states y) (succs y s) d Q) as (d' & new & E & H1 & H2 & H3).
    { intros t Ht. specialize (I3 t Ht). assert (H : into y (s :: P) t <= into y (seq 0 (n_states y)) t).
      { apply sum_incl; [now constructor|]. intros u [<-|Hu] _; apply in_seq0; [exact Hs|]. apply I2, in_or_app. now left. }
      unfold into in H at 1. rewrite sum_cons in H. fold (into y P t) in H. lia. }
    rewrite E. destruct (IH d' (P ++ [s]) (Q ++ new)) as (d2 & P' & E2 & HI2).
    + assert (Ein : forall t, In t ((P ++ [s]) ++ Q ++ new) <-> In t (P ++ s :: Q) \/ In t new).
      { intros t. rewrite !in_app_iff. cbn. tauto. }
      constructor.
      * replace ((P ++ [s]) ++ Q ++ new) with ((P ++ s :: Q) ++ new) by (rewrite <- !app_assoc; reflexivity).
        apply NoDup_rev in H2. clear E. rename I1 into J1.
        assert (Hd : forall t, In t new -> ~ In t (P ++ s :: Q)).
        { intros t Ht Hin. apply H3 in Ht as (Ht & Hp & _). apply (I4 t Ht) in Hin. lia. }
        apply NoDup_rev in H2. rewrite rev_involutive in H2. clear -J1 H2 Hd. revert J1 Hd. generalize (P ++ s :: Q) as l.
        induction l as [|a l IH]; cbn; intros J Hd; [exact H2|]. inversion J as [|? ? Ja Jl]; subst. constructor.
        -- intros Hin. apply in_app_or in Hin as [Hin|Hin]; [contradiction|]. apply (Hd a Hin). now left.
        -- apply IH; [exact Jl|]. intros t Ht Hin. apply (Hd t Ht). now right.
      * intros t Ht. apply Ein in Ht as [Ht|Ht]; [now apply I2|]. now apply H3 in Ht as (? & _).
      * intros t Ht. specialize (I3 t Ht). specialize (H1 t Ht). unfold into. rewrite sum_app, sum_cons. fold (into y P t). fold (into y (seq 0 (n_states y)) t). cbn. lia.
      * intros t Ht. rewrite Ein, H3, (I4 t Ht). specialize (H1 t Ht). lia.
      * intros P1 u P2 EP v Hv. destruct P2 as [|w P2] using rev_ind.
        -- apply app_inj_tail in EP as [<- <-]. apply (into_full y P s Hn); [intros; apply I2, in_or_app; now left| |exact Hv].
           assert (d s = 0) by (apply (I4 s Hs), in_or_app; right; now left). specialize (I3 s Hs). lia.
        -- clear IHP2. rewrite app_comm_cons, app_assoc in EP. apply app_inj_tail in EP as [EP _]. eapply I5; eassumption.
    + rewrite app_length. cbn. lia.
    + rewrite app_length in E2. cbn in E2. exists d2, P'. split; [exact E2|exact HI2].
Qed.
Lemma kahn_start y : shaped y ->
  exists P, is_well_founded y = (length P =? n_states y) /\ exists d, kinv y d P [].
Proof.
  intros Hs. unfold is_well_founded.
  destruct (kahn_spec y (S (n_states y)) (indegrees y) [] (List.filter (fun s => indegrees y s =? 0) (seq 0 (n_states y)))) as (d & P & E & HI).
  - constructor; cbn [app].
    + apply NoDup_filter, seq_NoDup.
    + intros s H. apply filter_In in H as [H _]. now apply in_seq0.
    + intros t Ht. rewrite indegrees_spec by assumption. unfold into at 2. cbn. lia.
    + intros t Ht. rewrite filter_In, in_seq0, Nat.eqb_eq. tauto.
    + intros P1 s P2 E. destruct P1; discriminate.
  - cbn; lia.
  - cbn [length] in E. rewrite E. exists P. split; [reflexivity|]. now exists d.
Qed.

Lemma topo_acc y P : NoDup P -> topo y P -> (forall s, s < n_states y -> In s P) -> forall s, Acc (fun t s => edge y s t) s.
Proof.
  intros Hn Ht Hall.
  assert (H : forall P2 P1, P = P1 ++ P2 -> forall s, In s P2 -> Acc (fun t s => edge y s t) s).
  { induction P2 as [|a P2 IH]; intros P1 E s Hs; [destruct Hs|].
    assert (IH' : forall s, In s P2 -> Acc (fun t s => edge y s t) s) by (apply (IH (P1 ++ [a])); now rewrite <- app_assoc).
    destruct Hs as [<-|Hs]; [|now apply IH']. constructor. intros t He.
    assert (Hin : In t P) by (apply Hall; now destruct He as (_ & ? & _)).
    rewrite E in Hin. apply in_app_or in Hin as [Hin|[<-|Hin]]; [exfalso|exfalso|now apply IH'].
    - apply in_split in Hin as (A & B & ->). rewrite <- app_assoc in E. cbn in E. pose proof (Ht A t _ E a He) as Ha.
      rewrite E in Hn. rewrite app_comm_cons, app_assoc in Hn. apply NoDup_remove_2 in Hn. apply Hn, in_or_app. left. apply in_or_app. now left.
    - pose proof (Ht P1 a P2 E a He) as Ha. rewrite E in Hn. apply NoDup_remove_2 in Hn. apply Hn, in_or_app. now left. }
  intros s. destruct (lt_dec s (n_states y)) as [Hs|Hs]; [apply (H P []); [reflexivity|auto]|].
  constructor. intros t (Hlt & _). contradiction.
Qed.

(** A finite set in which everybody has a predecessor contains a cycle. *)
Fixpoint chain (y : system) (l : list nat) : Prop :=
  match l with
  | [] => True
  | s :: l' => match l' with [] => True | t :: _ => edge y s t end /\ chain y l'
  end.
Lemma chain_reach y l : forall s t, chain y (s :: l) -> In t l -> clos_trans nat (edge y) s t.
Proof.
  induction l as [|a l IH]; intros s t [H1 H2] Ht; [destruct Ht|]. destruct Ht as [<-|Ht]; [now apply t_step|].
  eapply t_trans; [apply t_step, H1|]. now apply IH.
Qed.
Lemma cycle_exists y (R : nat -> Prop) r : R r -> (forall s, R s -> s < n_states y) ->
  (forall t, R t -> exists u, edge y u t /\ R u) -> exists s, s < n_states y /\ clos_trans nat (edge y) s s.
Proof.
  intros Hr Hlt Hp.
  assert (H : forall k, (exists s, s < n_states y /\ clos_trans nat (edge y) s s) \/
              exists l, length l = S k /\ NoDup l /\ chain y l /\ forall s, In s l -> R s).
  { induction k as [|k [IH|(l & Hl & Hn & Hc & HR)]].
    - right. exists [r]. split; [reflexivity|]. split; [constructor; [easy|constructor]|]. split; [easy|]. intros s [<-|[]]. exact Hr.
    - now left.
    - destruct l as [|t l]; [discriminate|]. destruct (Hp t (HR t (or_introl eq_refl))) as (u & He & HRu).
      destruct (in_dec Nat.eq_dec u (t :: l)) as [Hin|Hin].
      + left. exists u. split; [now apply Hlt|]. assert (Hcu : chain y (u :: t :: l)) by (split; [exact He|exact Hc]).
        now apply (chain_reach y (t :: l)).
      + right. exists (u :: t :: l). split; [cbn in *; lia|]. split; [now constructor|]. split; [split; [exact He|exact Hc]|].
        intros s [<-|Hs]; auto. }
  destruct (H (n_states y)) as [|(l & Hl & Hn & _ & HR)]; [assumption|exfalso].
  assert (length l <= n_states y); [|lia]. apply nodup_bound; auto.
Qed.

Lemma well_founded_true y : shaped y -> is_well_founded y = true -> forall s, Acc (fun t s => edge y s t) s.
Proof.
  intros Hs H. destruct (kahn_start y Hs) as (P & E & d & [I1 I2 I3 I4 I5]). rewrite E in H. apply Nat.eqb_eq in H.
  rewrite app_nil_r in *. apply (topo_acc y P I1 I5). intros s Hlt.
  assert (Hincl : incl (seq 0 (n_states y)) P).
  { apply NoDup_length_incl; [exact I1|now rewrite seq_length, H|]. intros u Hu. apply in_seq0. auto. }
  apply Hincl, in_seq0, Hlt.
Qed.
Lemma well_founded_false y : shaped y -> is_well_founded y = false -> exists s, s < n_states y /\ clos_trans nat (edge y) s s.
Proof.
  intros Hs H. destruct (kahn_start y Hs) as (P & E & d & [I1 I2 I3 I4 I5]). rewrite E in H. apply Nat.eqb_neq in H.
  rewrite app_nil_r in *.
  destruct (existsb (fun s => if in_dec Nat.eq_dec s P then false else true) (seq 0 (n_states y))) eqn:Ex.
  - apply existsb_exists in Ex as (r & Hr & Ho). apply in_seq0 in Hr. destruct (in_dec Nat.eq_dec r P) as [|Hout]; [discriminate|].
    apply (cycle_exists y (fun s => s < n_states y /\ ~ In s P) r); [easy|easy|].
    intros t (Ht & Hto). destruct (into_missing y P t Ht) as (u & He & Hu).
    + specialize (I3 t Ht). assert (d t <> 0) by (intros Ez; apply Hto, (I4 t Ht), Ez). lia.
    + exists u. split; [exact He|]. split; [now destruct He|exact Hu].
  - exfalso. apply H. apply Nat.le_antisymm; [now apply nodup_bound|]. rewrite <- (seq_length (n_states y) 0) at 1.
    apply NoDup_incl_length; [apply seq_NoDup|]. intros s Hin. destruct (in_dec Nat.eq_dec s P) as [|Hout]; [assumption|exfalso].
    assert (T : existsb (fun s => if in_dec Nat.eq_dec s P then false else true) (seq 0 (n_states y)) = true); [|congruence].
    apply existsb_exists. exists s. split; [exact Hin|]. now destruct (in_dec Nat.eq_dec s P).
Qed.
Lemma acc_no_cycle y s : Acc (fun t s => edge y s t) s -> ~ clos_trans nat (edge y) s s.
Proof.
  intros Ha Hc.
  assert (H : forall x, Acc (fun t s => edge y s t) x -> forall z, clos_trans nat (edge y) x z -> Acc (fun t s => edge y s t) z).
  { intros x Hx z Hz. induction Hz as [x z Hz|x w z _ IH1 _ IH2]; [now apply Hx|auto]. }
  assert (G : forall x, Acc (fun t s => edge y s t) x -> forall z, (z = x \/ clos_trans nat (edge y) x z) -> ~ clos_trans nat (edge y) z z).
  { intros x Hx. induction Hx as [x Hx IH]. intros z Hz Hcz.
    destruct Hz as [->|Hz].
    - apply clos_trans_t1n in Hcz. inversion Hcz as [w He E|w v He Hr E]; subst.
      + apply (IH x He x (or_introl eq_refl)). now apply t_step.
      + apply clos_t1n_trans in Hr. apply (IH w He w (or_introl eq_refl)). eapply t_trans; [exact Hr|now apply t_step].
    - apply clos_trans_t1n in Hz. inversion Hz as [w He E|w v He Hr E]; subst.
      + now apply (IH z He z (or_introl eq_refl)).
      + apply clos_t1n_trans in Hr. now apply (IH w He z (or_intror Hr)). }
  now apply (G s Ha s (or_introl eq_refl)).
Qed.

(** Walks and the longest walk. *)
Fixpoint walk (y : system) (k s : nat) : Prop :=
  match k with O => True | S k => exists t, edge y s t /\ walk y k t end.
Definition longest (y : system) (s k : nat) : Prop := walk y k s /\ forall j, walk y j s -> j <= k.
Lemma max_in (l : list nat) : l <> [] -> In (fold_right Nat.max 0 l) l.
Proof.
  induction l as [|a l IH]; [easy|]. intros _. cbn. destruct l as [|b l]; [cbn; lia|].
  destruct (Nat.max_spec a (fold_right Nat.max 0 (b :: l))) as [[_ ->]|[_ ->]]; [right; now apply IH|now left].
Qed.
Lemma max_ge (l : list nat) x : In x l -> x <= fold_right Nat.max 0 l.
Proof. induction l as [|a l IH]; [easy|]. cbn. intros [<-|H]; [lia|]. specialize (IH H). lia. Qed.

Definition rinv (y : system) (rank : nat -> nat) (done : nat -> bool) : Prop :=
  forall s, s < n_states y -> done s = true -> longest y s (rank s) /\ forall t, edge y s t -> done t = true.
Lemma pop_rank y rank done s : s < n_states y -> rinv y rank done -> (forall t, edge y s t -> done t = true) ->
  longest y s (fold_right Nat.max 0 (map (fun t => rank t + 1) (List.filter (fun t => t <? n_states y) (succs y s)))).
Proof.
  intros Hs HI Hd. set (L := map _ _).
  assert (HL : forall x, In x L <-> exists t, edge y s t /\ x = rank t + 1).
  { intros x. unfold L. rewrite in_map_iff. split.
    - intros (t & <- & Ht). apply filter_In in Ht as [Hi Hl]. apply Nat.ltb_lt in Hl. now exists t.
    - intros (t & (_ & Hl & Hi) & ->). exists t. split; [reflexivity|]. apply filter_In. split; [exact Hi|now apply Nat.ltb_lt]. }
  split.
  - destruct L as [|a L'] eqn:E; [exact I|]. rewrite <- E in *. assert (Hin : In (fold_right Nat.max 0 L) L) by (apply max_in; congruence).
    apply HL in Hin as (t & He & ->). rewrite Nat.add_1_r. exists t. split; [exact He|].
    apply (HI t); [now destruct He as (_ & ? & _)|now apply Hd].
  - intros [|j] Hw; [lia|]. destruct Hw as (t & He & Hw). assert (H : longest y t (rank t)).
    { apply (HI t); [now destruct He as (_ & ? & _)|now apply Hd]. }
    apply H in Hw. assert (In (rank t + 1) L) by (apply HL; now exists t). apply max_ge in H0. lia.
Qed.

Definition card (n : nat) (done : nat -> bool) : nat := length (List.filter done (seq 0 n)).
Lemma card_stack y done stack : NoDup stack -> (forall s, In s stack -> s < n_states y /\ done s = false) ->
  card (n_states y) done + length stack <= n_states y.
Proof.
  intros Hn Hs. unfold card. rewrite <- app_length. apply nodup_bound.
  - assert (Hd : forall t, In t (List.filter done (seq 0 (n_states y))) -> ~ In t stack).
    { intros t Ht Hin. apply filter_In in Ht as [_ Ht]. apply Hs in Hin as [_ Hin]. congruence. }
    assert (Hf : NoDup (List.filter done (seq 0 (n_states y)))) by (apply NoDup_filter, seq_NoDup).
    revert Hf Hd. generalize (List.filter done (seq 0 (n_states y))) as l. induction l as [|a l IH]; cbn; intros Hf Hd; [exact Hn|].
    inversion Hf as [|? ? Ha Hl]; subst. constructor; [|apply IH; auto].
    intros Hin. apply in_app_or in Hin as [Hin|Hin]; [contradiction|]. apply (Hd a); [now left|exact Hin].
  - intros s H. apply in_app_or in H as [H|H]; [|now apply Hs in H]. apply filter_In in H as [H _]. now apply in_seq0.
Qed.
Lemma card_upd n done s : s < n -> done s = false -> S (card n done) <= card n (upd done s true).
Proof.
  intros Hs Hd. unfold card. change (S (length (List.filter done (seq 0 n)))) with (length (s :: List.filter done (seq 0 n))).
  apply NoDup_incl_length.
  - constructor; [|apply NoDup_filter, seq_NoDup]. intros H. apply filter_In in H as [_ H]. congruence.
  - intros t [<-|Ht]; apply filter_In; [split; [now apply in_seq0|now rewrite upd_same]|].
    apply filter_In in Ht as [H1 H2]. split; [exact H1|]. unfold upd. now destruct (t =? s).
Qed.
(** The stack from top to bottom: each element is a successor of the one below it. *)
Fixpoint tower (y : system) (l : list nat) : Prop :=
  match l with
  | [] => True
  | t :: l' => match l' with [] => True | s :: _ => edge y s t end /\ tower y l'
  end.
Lemma tower_reach y l : forall t s, tower y (t :: l) -> In s l -> clos_trans nat (edge y) s t.
Proof.
  induction l as [|a l IH]; intros t s [H1 H2] Hs; [destruct Hs|]. destruct Hs as [<-|Hs]; [now apply t_step|].
  apply t_trans with a; [now apply IH|now apply t_step].
Qed.
Lemma dfs_spec y : (forall s, Acc (fun t s => edge y s t) s) -> forall fuel stack rank done,
  rinv y rank done -> NoDup stack -> (forall s, In s stack -> s < n_states y /\ done s = false) -> tower y stack ->
  2 * (n_states y - card (n_states y) done) - length stack < fuel ->
  exists rank' done', dfs fuel y rank done stack = Some (rank', done') /\ rinv y rank' done' /\
    (forall s, done s = true -> done' s = true) /\ forall s, In s stack -> done' s = true.
Proof.
  intros Hwf. induction fuel as [|fuel IH]; intros stack rank done HI Hn Hs Ht Hf; [lia|]. cbn [dfs].
  destruct stack as [|s rest].
  - exists rank, done. split; [reflexivity|]. split; [exact HI|]. split; [auto|]. intros s [].
  - pose proof (card_stack y done (s :: rest) Hn Hs) as Hcard. cbn [length] in *.
    destruct (Hs s (or_introl eq_refl)) as [Hlt Hnd].
    destruct (List.find _ (succs y s)) as [t|] eqn:Ef.
    + apply find_some in Ef as [Hi Et]. apply andb_true_iff in Et as [Hl Hd]. apply Nat.ltb_lt in Hl. apply negb_true_iff in Hd.
      assert (He : edge y s t) by easy.
      assert (Hout : ~ In t (s :: rest)).
      { intros Hin. apply (acc_no_cycle y t (Hwf t)). destruct Hin as [<-|Hin]; [now apply t_step|].
        eapply t_trans; [apply (tower_reach y rest s t Ht Hin)|now apply t_step]. }
      destruct (IH (t :: s :: rest) rank done HI) as (rank' & done' & E & H1 & H2 & H3).
      * now constructor.
      * intros u [<-|Hu]; auto.
      * split; [exact He|exact Ht].
      * cbn [length]. assert (card (n_states y) done + S (S (length rest)) <= n_states y); [|lia].
        apply (card_stack y done (t :: s :: rest)); [now constructor|]. intros u [<-|Hu]; auto.
      * exists rank', done'. split; [exact E|]. split; [exact H1|]. split; [exact H2|]. intros u Hu. apply H3. now right.
    + assert (Hall : forall t, edge y s t -> done t = true).
      { intros t (_ & Hl & Hi). pose proof (find_none _ _ Ef t Hi) as Hx. cbv beta in Hx. apply Nat.ltb_lt in Hl. rewrite Hl in Hx. cbn [andb] in Hx.
        now apply negb_false_iff in Hx. }
      set (r := fold_right Nat.max 0 _). assert (Hr : longest y s r) by (now apply (pop_rank y rank done)).
      inversion Hn as [|? ? Hsr Hnr]; subst.
      pose proof (card_upd _ done s Hlt Hnd) as Hc'.
      destruct (IH rest (upd rank s r) (upd done s true)) as (rank' & done' & E & H1 & H2 & H3).
      * intros u Hu Hdu. unfold upd in *. destruct (u =? s) eqn:Eu.
        -- apply Nat.eqb_eq in Eu as ->. split; [exact Hr|]. intros t He. destruct (t =? s); [reflexivity|now apply Hall].
        -- destruct (HI u Hu Hdu) as [H1 H2]. split; [exact H1|]. intros t He. destruct (t =? s); [reflexivity|now apply H2].
      * exact Hnr.
      * intros u Hu. destruct (Hs u (or_intror Hu)) as [H1 H2]. split; [exact H1|]. rewrite upd_other; [exact H2|]. intros ->. contradiction.
      * now destruct Ht.
      * lia.
      * exists rank', done'. split; [exact E|]. split; [exact H1|]. split.
        -- intros u Hu. apply H2. unfold upd. now destruct (u =? s).
        -- intros u [<-|Hu]; [apply H2; apply upd_same|now apply H3].
Qed.
Lemma ranks_spec y : (forall s, Acc (fun t s => edge y s t) s) -> forall starts rank done, rinv y rank done ->
  (forall s, In s starts -> s < n_states y) ->
  exists rank' done', ranks y starts rank done = Some rank' /\ rinv y rank' done' /\
    (forall s, done s = true -> done' s = true) /\ forall s, In s starts -> done' s = true.
Proof.
  intros Hwf. induction starts as [|s starts IH]; intros rank done HI Hs; cbn [ranks].
  - exists rank, done. split; [reflexivity|]. split; [exact HI|]. split; [auto|]. intros s [].
  - destruct (done s) eqn:Hd.
    + destruct (IH rank done HI) as (rank' & done' & E & H1 & H2 & H3); [intros u Hu; apply Hs; now right|].
      exists rank', done'. split; [exact E|]. split; [exact H1|]. split; [exact H2|]. intros u [<-|Hu]; auto.
    + destruct (dfs_spec y Hwf (S (2 * n_states y)) [s] rank done HI) as (rank1 & done1 & E1 & H1 & H2 & H3).
      * constructor; [easy|constructor].
      * intros u [<-|[]]. split; [apply Hs; now left|exact Hd].
      * easy.
      * cbn [length]. lia.
      * rewrite E1. destruct (IH rank1 done1 H1) as (rank' & done' & E & G1 & G2 & G3); [intros u Hu; apply Hs; now right|].
        exists rank', done'. split; [exact E|]. split; [exact G1|]. split; [auto|]. intros u [<-|Hu]; [apply G2, H3; now left|auto].
Qed.
